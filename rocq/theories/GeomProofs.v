From Verif Require Import Prelude Vec3 Geom GeomSpec.
Open Scope R_scope.

Ltac vdestruct := repeat match goal with v : vec |- _ => destruct v as [? ? ?] end.
Ltac vsimp := unfold dot, cross, vsub, vadd, vopp, vscale, vzero in *; cbn [vx vy vz] in *.

(** the normal of [tpp] *)
Definition nrm p1 p2 p3 : vec := cross (vsub p2 p1) (vsub p3 p1).
Lemma tpp_nrm p1 p2 p3 :
  tpp p1 p2 p3 = (vx (nrm p1 p2 p3), vy (nrm p1 p2 p3), vz (nrm p1 p2 p3), dot (nrm p1 p2 p3) p1).
Proof. vdestruct. unfold tpp, nrm. vsimp. f_equal; [f_equal; [f_equal|]|]; ring. Qed.
Lemma nrm_on p1 p2 p3 : dot (nrm p1 p2 p3) p2 = dot (nrm p1 p2 p3) p1 /\ dot (nrm p1 p2 p3) p3 = dot (nrm p1 p2 p3) p1.
Proof. vdestruct. unfold nrm. vsimp. split; ring. Qed.

Lemma cross_zero_scale n m : cross n m = vzero -> m <> vzero -> n = vscale (dot n m / dot m m) m.
Proof.
  intros H N. apply dot_pos in N. destruct n as [a b c], m as [x y z]. vsimp. injection H as H1 H2 H3.
  assert (a * (x * x + y * y + z * z) = (a * x + b * y + c * z) * x).
  { transitivity ((a * x + b * y + c * z) * x + y * (a * y - b * x) - z * (c * x - a * z)); [ring|rewrite H2, H3; ring]. }
  assert (b * (x * x + y * y + z * z) = (a * x + b * y + c * z) * y).
  { transitivity ((a * x + b * y + c * z) * y - x * (a * y - b * x) + z * (b * z - c * y)); [ring|rewrite H1, H3; ring]. }
  assert (c * (x * x + y * y + z * z) = (a * x + b * y + c * z) * z).
  { transitivity ((a * x + b * y + c * z) * z + x * (c * x - a * z) - y * (b * z - c * y)); [ring|rewrite H1, H2; ring]. }
  set (q := x * x + y * y + z * z) in *. set (w := a * x + b * y + c * z) in *. clearbody q w.
  f_equal; apply (Rmult_eq_reg_r q); try lra; unfold Rdiv; rewrite (Rmult_comm w), !Rmult_assoc.
  - rewrite H. field. lra.
  - rewrite H0. field. lra.
  - rewrite H4. field. lra.
Qed.

Lemma plane_normal n d p1 p2 p3 : dot n p1 = d -> dot n p2 = d -> dot n p3 = d -> ~ collinear p1 p2 p3 ->
  n = vscale (dot n (nrm p1 p2 p3) / dot (nrm p1 p2 p3) (nrm p1 p2 p3)) (nrm p1 p2 p3).
Proof.
  intros A B C N. apply cross_zero_scale; [|exact N].
  assert (U : dot n (vsub p2 p1) = 0) by (vdestruct; vsimp; lra).
  assert (W : dot n (vsub p3 p1) = 0) by (vdestruct; vsimp; lra).
  unfold nrm. set (u := vsub p2 p1) in *. set (w := vsub p3 p1) in *. clearbody u w.
  destruct n as [a b c], u as [x y z], w as [r s t]. vsimp.
  f_equal; [replace _ with (x * (a * r + b * s + c * t) - r * (a * x + b * y + c * z)) by ring
           |replace _ with (y * (a * r + b * s + c * t) - s * (a * x + b * y + c * z)) by ring
           |replace _ with (z * (a * r + b * s + c * t) - t * (a * x + b * y + c * z)) by ring]; rewrite U, W; ring.
Qed.

(** the sense rule fixes the side *)
Lemma three_point_unique p1 p2 p3 n d n' d' : ~ collinear p1 p2 p3 ->
  three_point_plane p1 p2 p3 n d -> three_point_plane p1 p2 p3 n' d' ->
  exists k, 0 < k /\ n' = vscale k n /\ d' = k * d.
Proof.
  intros N (Z & A & B & C & S) (Z' & A' & B' & C' & S').
  pose proof (plane_normal n d p1 p2 p3 A B C N) as E. pose proof (plane_normal n' d' p1 p2 p3 A' B' C' N) as E'.
  set (m := nrm p1 p2 p3) in *. set (a := dot n m / dot m m) in *. set (b := dot n' m / dot m m) in *.
  clearbody a b.
  assert (a <> 0) by (intros ->; apply Z; rewrite E; apply vec_eq; vsimp; lra).
  assert (E2 : n' = vscale (b / a) n) by (rewrite E, E'; apply vec_eq; vsimp; field; auto).
  assert (D2 : d' = b / a * d) by (rewrite <- A', <- A, E2; vsimp; ring).
  exists (b / a). split; [|auto]. set (k := b / a) in *. clearbody k. clear E E' a b H m.
  subst n' d'. vdestruct; vsimp.
  assert (KZ : k <> 0) by (intros ->; apply Z'; apply vec_eq; vsimp; lra).
  destruct (Rlt_le_dec 0 k) as [|L]; [auto|exfalso]. assert (K : k < 0) by lra. clear L Z Z'.
  destruct S as [S|(-> & [S|(-> & [S|(-> & S)])])];
  destruct S' as [S'|(E1 & [S'|(E2 & [S'|(E3 & S')])])]; nra.
Qed.

Lemma three_point_pos p1 p2 p3 n d x : ~ collinear p1 p2 p3 -> three_point_plane p1 p2 p3 n d ->
  (card_pos (Card3 p1 p2 p3) x <-> d < dot n x).
Proof.
  intros N T. simpl. split; [|eauto]. intros (n' & d' & T' & L).
  destruct (three_point_unique _ _ _ _ _ _ _ N T' T) as (k & K & -> & ->).
  replace (dot (vscale k n') x) with (k * dot n' x) by (vdestruct; vsimp; ring). nra.
Qed.

Lemma xm0 t : xm_step 0 t = if Req_EM_T t 0 then 0 else 1 / t.
Proof. unfold xm_step. destruct (Req_EM_T 0 0); congruence. Qed.
Lemma xm1 x t : x <> 0 -> xm_step x t = x.
Proof. unfold xm_step. destruct (Req_EM_T x 0); congruence. Qed.
Lemma inv_nz t : t <> 0 -> 1 / t <> 0.
Proof. intros H. unfold Rdiv. rewrite Rmult_1_l. apply Rinv_neq_0_compat, H. Qed.

(** the coefficients before normalisation *)
Lemma coeffs_scaled t0 t1 t2 t3 : V t0 t1 t2 <> vzero ->
  let x3 := xm_step 0 t3 in let x2 := xm_step x3 t2 in let x1 := xm_step x2 t1 in let x0 := xm_step x1 t0 in
  exists k, k <> 0 /\ V (t0 * x0) (t1 * x1) (t2 * x2) = vscale k (V t0 t1 t2) /\ t3 * x3 = k * t3 /\
   (0 < t3 * x3 \/ t3 * x3 = 0 /\ (0 < t2 * x2 \/ t2 * x2 = 0 /\ (0 < t1 * x1 \/ t1 * x1 = 0 /\ 0 < t0 * x0))).
Proof.
  intros N. cbv zeta. rewrite (xm0 t3). destruct (Req_EM_T t3 0) as [E3|E3].
  - rewrite (xm0 t2). destruct (Req_EM_T t2 0) as [E2|E2].
    + rewrite (xm0 t1). destruct (Req_EM_T t1 0) as [E1|E1].
      * rewrite (xm0 t0). destruct (Req_EM_T t0 0) as [E0|E0]; [exfalso; apply N; subst; reflexivity|].
        exists (1 / t0). split; [apply inv_nz; auto|]. split; [apply vec_eq; vsimp; subst; try ring|]. 
        split; [subst; ring|]. right. split; [subst; ring|]. right. split; [subst; ring|]. right. split; [subst; ring|].
        replace (t0 * (1 / t0)) with 1 by (field; auto). lra.
      * rewrite xm1 by (apply inv_nz; auto). exists (1 / t1). split; [apply inv_nz; auto|].
        split; [apply vec_eq; vsimp; subst; try ring|].
        split; [subst; ring|]. right. split; [subst; ring|]. right. split; [subst; ring|]. left.
        replace (t1 * (1 / t1)) with 1 by (field; auto). lra.
    + rewrite !(xm1 (1 / t2)) by (apply inv_nz; auto). exists (1 / t2). split; [apply inv_nz; auto|].
      split; [apply vec_eq; vsimp; subst; ring|].
      split; [subst; ring|]. right. split; [subst; ring|]. left. replace (t2 * (1 / t2)) with 1 by (field; auto). lra.
  - rewrite !(xm1 (1 / t3)) by (apply inv_nz; auto). exists (1 / t3). split; [apply inv_nz; auto|].
    split; [apply vec_eq; vsimp; subst; ring|]. split; [subst; ring|]. left.
    replace (t3 * (1 / t3)) with 1 by (field; auto). lra.
Qed.

Lemma points_to_coeffs_spec p1 p2 p3 : ~ collinear p1 p2 p3 ->
  exists n d, points_to_coeffs p1 p2 p3 = Ok (n, d) /\ vlen n = 1 /\ three_point_plane p1 p2 p3 n d.
Proof.
  intros N. unfold points_to_coeffs. rewrite tpp_nrm. set (m := nrm p1 p2 p3).
  assert (M : m <> vzero) by exact N.
  destruct (coeffs_scaled (vx m) (vy m) (vz m) (dot m p1)) as (k & K & E & ED & S).
  { intros H. apply M. rewrite <- H. destruct m; reflexivity. }
  replace (V (vx m) (vy m) (vz m)) with m in E by (destruct m; reflexivity).
  set (ax := V _ _ _) in *. set (dd := dot m p1 * xm_step 0 (dot m p1)) in *.
  assert (AX : ax <> vzero).
  { intros H. apply M. rewrite H in E. apply vec_eq; apply (f_equal vx) in E as X; apply (f_equal vy) in E as Y;
      apply (f_equal vz) in E as Z; vsimp; apply (Rmult_eq_reg_l k); auto; lra. }
  pose proof (vlen_pos ax AX) as L. destruct (Req_EM_T (vlen ax) 0) as [E0|_]; [lra|].
  assert (I : 0 < / vlen ax) by (apply Rinv_0_lt_compat; auto).
  eexists _, _. split; [reflexivity|]. split.
  { rewrite vlen_scale, Rabs_right by lra. field. lra. }
  assert (ON : forall p, dot (vscale (/ vlen ax) ax) p = / vlen ax * (k * dot m p)).
  { intros p. rewrite E at 2. vdestruct; vsimp; ring. }
  destruct (nrm_on p1 p2 p3) as (O2 & O3). fold m in O2, O3.
  replace (dd / vlen ax) with (/ vlen ax * (k * dot m p1)) by (rewrite ED; unfold Rdiv; ring).
  split; [|split; [apply ON|split; [rewrite ON, O2; reflexivity|split; [rewrite ON, O3; reflexivity|]]]].
  - intros H. apply AX. apply vec_eq; apply (f_equal vx) in H as X; apply (f_equal vy) in H as Y;
      apply (f_equal vz) in H as Z; vsimp; apply (Rmult_eq_reg_l (/ vlen ax)); lra.
  - rewrite <- ED. set (i := / vlen ax) in *. clearbody i. clear - S I. subst ax. vsimp. unfold dd in *. clear dd.
    destruct S as [S|(-> & [S|(-> & [S|(-> & S)])])].
    + left. apply Rmult_lt_0_compat; auto.
    + right. split; [ring|]. left. apply Rmult_lt_0_compat; auto.
    + right. split; [ring|]. right. split; [ring|]. left. apply Rmult_lt_0_compat; auto.
    + right. split; [ring|]. right. split; [ring|]. right. split; [ring|]. apply Rmult_lt_0_compat; auto.
Qed.

Lemma points_to_coeffs_collinear p1 p2 p3 : collinear p1 p2 p3 -> points_to_coeffs p1 p2 p3 = Err ZeroDivision.
Proof.
  intros C. unfold points_to_coeffs. rewrite tpp_nrm. change (nrm p1 p2 p3 = vzero) in C. rewrite C.
  replace (V _ _ _) with vzero by (apply vec_eq; vsimp; ring).
  rewrite vlen_zero. destruct (Req_EM_T 0 0); congruence.
Qed.

(** is_opposite on exactly (anti)parallel vectors of positive length *)
Lemma get_angle_scale a k : vlen a = 1 -> 1 / 10 ^ 10 < Rabs k ->
  get_angle a (vscale k a) = Some (if Rlt_dec 0 k then 0 else PI).
Proof.
  intros A K. unfold get_angle. rewrite vlen_scale, A.
  replace (1 * (Rabs k * 1)) with (Rabs k) by ring.
  destruct (Rle_lt_dec (Rabs k) (1 / 10 ^ 10)) as [|_]; [lra|]. f_equal.
  replace (dot a (vscale k a)) with (k * (vlen a * vlen a)) by (rewrite vlen_sq; vdestruct; vsimp; ring).
  rewrite A. assert (T : 0 < 10 ^ 10) by (apply pow_lt; lra). assert (0 < 1 / 10 ^ 10) by (apply Rdiv_lt_0_compat; lra).
  unfold clip. destruct (Rlt_dec 0 k) as [P|P].
  - rewrite Rabs_right by lra. replace (k * (1 * 1) / k) with 1 by (field; lra).
    rewrite Rmin_left by lra. rewrite Rmax_right by lra. apply acos_1.
  - assert (k < 0) by (destruct (Req_dec k 0) as [->|]; [rewrite Rabs_R0 in K; lra|lra]).
    rewrite Rabs_left by lra. replace (k * (1 * 1) / - k) with (-1) by (field; lra).
    rewrite Rmin_right by lra. rewrite Rmax_left by lra.
    replace (-1) with (Ropp 1) by ring. rewrite acos_opp, acos_1. ring.
Qed.
Lemma is_opposite_scale a k : vlen a = 1 -> 1 / 10 ^ 10 < Rabs k ->
  is_opposite a (vscale k a) = if Rlt_dec k 0 then true else false.
Proof.
  intros A K. unfold is_opposite. replace (vopp (vscale k a)) with (vscale (- k) a) by (vdestruct; vsimp; f_equal; ring).
  rewrite get_angle_scale by (try rewrite Rabs_Ropp; auto).
  assert (T : 0 < 1 / 10 ^ 6 < 1) by (split; [apply Rdiv_lt_0_compat; [lra|apply pow_lt; lra]|]; unfold Rdiv; simpl; lra).
  destruct (Rlt_dec 0 (- k)) as [P|P].
  - rewrite Rabs_R0. destruct (Rlt_dec 0 (1 / 10 ^ 6)); [|lra]. destruct (Rlt_dec k 0); [auto|lra].
  - pose proof PI_RGT_0. pose proof PI2_1. rewrite Rabs_right by lra.
    destruct (Rlt_dec PI (1 / 10 ^ 6)); [lra|]. destruct (Rlt_dec k 0); [lra|auto].
Qed.
