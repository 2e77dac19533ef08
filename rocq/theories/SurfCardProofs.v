(** Lemmas for the surface cards. *)
From Verif Require Import Prelude Vec3 Geom GeomProofs Prim PrimSpec PrimProofs CardsProofs Quadric QuadricSpec SurfCards SurfCardSpec.
From Coq Require Import String List.
Import ListNotations.
Open Scope R_scope.

(** the three rows used by the quadric forms *)
Record frame (v : vec) (m : mat) : Prop := {
  fr1 : r1 m = vscale (/ vlen v) v;
  fr_id : forall d, dot (r1 m) d ^ 2 + dot (r2 m) d ^ 2 + dot (r3 m) d ^ 2 = dot d d }.

Lemma rotation_spec v : cross EX v <> vzero ->
  exists m, rotation_matrix EX v = Ok m /\ frame v (transpose m).
Proof.
  intros C. assert (NV : v <> vzero). { intros ->. apply C. unfold cross, EX, vzero; cbn. f_equal; ring. }
  unfold rotation_matrix. rewrite !normalize_ok; auto.
  2:{ intros E. injection E. intros. lra. }
  cbn [bind]. eexists. split; [reflexivity|].
  assert (LX : vlen EX = 1). { unfold vlen, dot, EX; cbn [vx vy vz]. replace (1 * 1 + 0 * 0 + 0 * 0) with 1 by ring. apply sqrt_1. }
  rewrite LX. pose proof (vlen_pos _ NV) as N0. pose proof (vlen_pos _ C) as K0.
  pose proof (vlen_sq v) as N2. pose proof (vlen_sq (cross EX v)) as K2.
  assert (SE : vlen (cross (vscale (/ 1) EX) (vscale (/ vlen v) v)) = vlen (cross EX v) / vlen v).
  { replace (cross (vscale (/ 1) EX) (vscale (/ vlen v) v)) with (vscale (/ vlen v) (cross EX v)).
    2:{ unfold cross, vscale, EX; cbn. f_equal; field; lra. }
    rewrite vlen_scale, Rabs_right; [field; lra|]. apply Rle_ge, Rlt_le, Rinv_0_lt_compat; auto. }
  rewrite SE. clear SE.
  set (n := vlen v) in *. set (k := vlen (cross EX v)) in *.
  destruct v as [a b c]. unfold dot, cross, EX in N2, K2. cbn [vx vy vz] in N2, K2.
  assert (K2' : k * k = b * b + c * c) by lra. clear K2.
  unfold transpose, vscale, dot, cross, EX. cbn [vx vy vz r1 r2 r3].
  assert (E1 : / n * a = a / n) by (field; lra).
  set (al := a / n). set (si := k / n). set (be := b / k). set (ga := c / k).
  assert (A1 : al * al + si * si = 1). { unfold al, si. field_simplify; [|lra]. replace (a ^ 2 + k ^ 2) with (n ^ 2) by (simpl; nra). field. lra. }
  assert (B1 : be * be + ga * ga = 1). { unfold be, ga. field_simplify; [|lra]. replace (b ^ 2 + c ^ 2) with (k ^ 2) by (simpl; nra). field. lra. }
  replace (/ k * (0 * c - 0 * b)) with 0 by ring.
  replace (/ k * (0 * a - 1 * c)) with (- ga) by (unfold ga; field; lra).
  replace (/ k * (1 * b - 0 * a)) with be by (unfold be; field; lra).
  replace (/ 1 * 1 * (/ n * a) + / 1 * 0 * (/ n * b) + / 1 * 0 * (/ n * c)) with al by (unfold al; field; lra).
  assert (Eb : / n * b = be * si) by (unfold be, si; field; lra).
  assert (Ec : / n * c = ga * si) by (unfold ga, si; field; lra).
  constructor.
  - cbn [r1]. unfold vscale. cbn [vx vy vz]. fold n. rewrite E1, Eb, Ec. fold al. f_equal; ring.
  - cbn [r1 r2 r3]. intros [x y z]. cbn [vx vy vz].
    clearbody al si be ga. clear - A1 B1.
    assert (S2 : si * si = 1 - al * al) by lra. assert (B2 : be * be = 1 - ga * ga) by lra. unfold dot; cbn [vx vy vz]. ring [S2 B2].
Qed.

Lemma frame_dist v m p x : frame v m -> v <> vzero ->
  dist2 p v x = dot (r2 m) (vsub x p) ^ 2 + dot (r3 m) (vsub x p) ^ 2 /\
  axial2 p v x = dot (r1 m) (vsub x p) ^ 2.
Proof.
  intros [F1 F2] N. pose proof (vlen_pos _ N). pose proof (vlen_sq v) as S.
  assert (E : dot (r1 m) (vsub x p) ^ 2 = dot v (vsub x p) ^ 2 / dot v v).
  { rewrite F1, scale_dot. rewrite <- S. field. lra. }
  unfold dist2, axial2. rewrite <- E. split; auto. pose proof (F2 (vsub x p)). lra.
Qed.

Lemma q_form_cyl_ok v p r : cross EX v <> vzero ->
  exists q, q_form_cyl v p r = Ok q /\ forall x, qval q x = dist2 p v x - r ^ 2.
Proof.
  intros C. destruct (rotation_spec v C) as (m & E & F).
  assert (NV : v <> vzero). { intros ->. apply C. unfold cross, EX, vzero; cbn. f_equal; ring. }
  unfold q_form_cyl. fold EX. rewrite E. cbn [bind]. eexists. split; [reflexivity|].
  intros x. destruct (frame_dist v (transpose m) p x F NV) as [D _]. rewrite D. clear.
  destruct (transpose m) as [[a1 a2 a3] [b1 b2 b3] [c1 c2 c3]]. destruct x as [x y z], p as [u w t].
  unfold qval, quad, mulv, vopp, vsub, dot. cbn [r1 r2 r3 vx vy vz ga gb gc gd ge gf gg gh gj gk]. ring.
Qed.
Lemma q_form_cone_ok v p t : cross EX v <> vzero ->
  exists q, q_form_cone v p t = Ok q /\ forall x, qval q x = dist2 p v x - t ^ 2 * axial2 p v x.
Proof.
  intros C. destruct (rotation_spec v C) as (m & E & F).
  assert (NV : v <> vzero). { intros ->. apply C. unfold cross, EX, vzero; cbn. f_equal; ring. }
  unfold q_form_cone. fold EX. rewrite E. cbn [bind]. eexists. split; [reflexivity|].
  intros x. destruct (frame_dist v (transpose m) p x F NV) as [D D']. rewrite D, D'. clear.
  destruct (transpose m) as [[a1 a2 a3] [b1 b2 b3] [c1 c2 c3]]. destruct x as [x y z], p as [u w s].
  unfold qval, quad, mulv, vopp, vsub, dot. cbn [r1 r2 r3 vx vy vz ga gb gc gd ge gf gg gh gj gk]. ring.
Qed.
Lemma q_form_x v p r : cross EX v = vzero -> q_form_cyl v p r = Err ValueError /\ q_form_cone v p r = Err ValueError.
Proof.
  intros C. unfold q_form_cyl, q_form_cone, rotation_matrix. fold EX. rewrite C. unfold normalize. rewrite vlen_zero.
  destruct (Req_EM_T 0 0) as [_|E]; [|lra]. split; reflexivity.
Qed.

(** angles *)
Lemma cos_bound a b : a <> vzero -> b <> vzero -> -1 <= dot a b / (vlen a * vlen b) <= 1.
Proof.
  intros A B. pose proof (vlen_pos _ A) as LA. pose proof (vlen_pos _ B) as LB.
  pose proof (vlen_sq a) as SA. pose proof (vlen_sq b) as SB.
  assert (P : 0 < vlen a * vlen b) by nra.
  pose proof (cross_len2 a b) as X. pose proof (dot_nonneg (cross a b)) as X0.
  assert (H : dot a b ^ 2 <= (vlen a * vlen b) ^ 2) by (simpl; nra).
  assert (G : - (vlen a * vlen b) <= dot a b <= vlen a * vlen b) by (simpl in H; nra).
  split.
  - apply Rmult_le_reg_r with (vlen a * vlen b); auto. unfold Rdiv. rewrite Rmult_assoc, Rinv_l by lra. lra.
  - apply Rmult_le_reg_r with (vlen a * vlen b); auto. unfold Rdiv. rewrite Rmult_assoc, Rinv_l by lra. lra.
Qed.

Lemma vopp_len b : vlen (vopp b) = vlen b.
Proof. unfold vlen. f_equal. unfold dot, vopp; cbn [vx vy vz]. ring. Qed.
Lemma vopp_nz b : b <> vzero -> vopp b <> vzero.
Proof. intros B E. apply B. destruct b as [x y z]. unfold vopp, vzero in *. cbn [vx vy vz] in E. injection E. intros. f_equal; lra. Qed.
Lemma len_nz b : 0 < vlen b -> b <> vzero.
Proof. intros H ->. rewrite vlen_zero in H. lra. Qed.
Lemma ang_opp a b : a <> vzero -> b <> vzero -> ang a (vopp b) = PI - ang a b.
Proof.
  intros A B. unfold ang. rewrite vopp_len, <- acos_opp. f_equal.
  replace (dot a (vopp b)) with (- dot a b) by (unfold dot, vopp; cbn [vx vy vz]; ring).
  unfold Rdiv. ring.
Qed.
Lemma ang_bound a b : 0 <= ang a b <= PI.
Proof. apply acos_bound. Qed.
Lemma ang_scale k a b : 0 < k -> ang (vscale k a) b = ang a b.
Proof.
  intros K. unfold ang. rewrite vlen_scale, scale_dot, Rabs_right by lra. f_equal.
  unfold Rdiv. rewrite !Rinv_mult.
  replace (k * dot a b * (/ k * / vlen a * / vlen b)) with (k * / k * (dot a b * (/ vlen a * / vlen b))) by ring.
  rewrite Rinv_r by lra. ring.
Qed.
Lemma get_angle_ang a b : 1 / 10 ^ 10 < vlen a * vlen b -> get_angle a b = Some (ang a b).
Proof.
  intros H. unfold get_angle. destruct (Rle_lt_dec (vlen a * vlen b) (1 / 10 ^ 10)) as [L|_]; [lra|].
  assert (P : 0 < vlen a * vlen b). { refine (Rlt_trans _ _ _ _ H). apply Rdiv_lt_0_compat; [lra|]. apply pow_lt. lra. }
  unfold ang, clip. f_equal. f_equal.
  assert (A : a <> vzero). { intros ->. rewrite vlen_zero in P. lra. }
  assert (B : b <> vzero). { intros ->. rewrite vlen_zero in P. lra. }
  pose proof (cos_bound a b A B). rewrite Rmin_right by lra. apply Rmax_right. lra.
Qed.
Definition visible (a : vec) : Prop := 1 / 10 ^ 10 < vlen a.
Lemma visible_nz a : visible a -> a <> vzero.
Proof. intros H ->. unfold visible in H. rewrite vlen_zero in H. assert (0 < 1 / 10 ^ 10) by (apply Rdiv_lt_0_compat; [lra|apply pow_lt; lra]). lra. Qed.
Lemma parallel_true tol a e : visible a -> vlen e = 1 ->
  parallel_tol tol a e = true <-> (ang a e < tol \/ ang a (vopp e) < tol).
Proof.
  intros V E. unfold parallel_tol. rewrite get_angle_ang by (rewrite E, Rmult_1_r; auto).
  pose proof (ang_bound a e) as B. rewrite ang_opp; [|apply visible_nz; auto|apply len_nz; lra].
  rewrite (Rabs_right (ang a e)) by lra. rewrite Rabs_left1 by lra.
  replace (- (ang a e - PI)) with (PI - ang a e) by ring.
  unfold rltb. destruct (Rlt_dec (ang a e) tol), (Rlt_dec (PI - ang a e) tol); cbn [orb]; split; intros; auto; try discriminate; lra.
Qed.
Lemma opposite_true tol a e : visible a -> vlen e = 1 -> opposite_tol tol a e = true <-> ang a (vopp e) < tol.
Proof.
  intros V E. unfold opposite_tol. rewrite get_angle_ang by (rewrite vopp_len, E, Rmult_1_r; auto).
  pose proof (ang_bound a (vopp e)) as B. rewrite Rabs_right by lra.
  unfold rltb. destruct (Rlt_dec (ang a (vopp e)) tol); split; intros; auto; discriminate.
Qed.
Lemma parallel_cases tol a e : visible a -> vlen e = 1 ->
  (parallel_tol tol a e = true /\ exists e', (e' = e \/ e' = vopp e) /\ ang a e' < tol /\ e' = vscale (sheet tol a e) e) \/
  (parallel_tol tol a e = false /\ ~ ang a e < tol /\ ~ ang a (vopp e) < tol).
Proof.
  intros V E. pose proof (parallel_true tol a e V E) as P. pose proof (opposite_true tol a e V E) as Q. unfold sheet.
  destruct (parallel_tol tol a e).
  - left. split; auto. destruct (proj1 P eq_refl) as [H|H].
    + destruct (opposite_tol tol a e).
      * exists (vopp e). split; auto. split; [apply Q; auto|]. unfold vopp, vscale. f_equal; ring.
      * exists e. split; auto. split; auto. destruct e as [e1 e2 e3]; unfold vscale; cbn [vx vy vz]; f_equal; ring.
    + exists (vopp e). split; auto. split; auto. rewrite (proj2 Q H). unfold vopp, vscale. f_equal; ring.
  - right. split; auto. split; intros H; [assert (false = true) by (apply P; left; exact H)|assert (false = true) by (apply P; right; exact H)]; discriminate.
Qed.

(** the two sides under the change of units *)
Lemma sub10 p x : vsub (vscale 10 x) p = vscale 10 (vsub x (vscale (1/10) p)).
Proof. destruct x as [x y z], p as [a b c]. unfold vsub, vscale; cbn [vx vy vz]. f_equal; lra. Qed.
Lemma dist2_10 p v x : dist2 p v (vscale 10 x) = 100 * dist2 (vscale (1/10) p) v x.
Proof. unfold dist2. rewrite sub10. unfold dot, vscale; cbn [vx vy vz]. unfold Rdiv. ring. Qed.
Lemma axial2_10 p v x : axial2 p v (vscale 10 x) = 100 * axial2 (vscale (1/10) p) v x.
Proof. unfold axial2. rewrite sub10. unfold dot, vscale; cbn [vx vy vz]. unfold Rdiv. ring. Qed.
Lemma dist2_opp p v x : dist2 p (vopp v) x = dist2 p v x.
Proof. unfold dist2. replace (dot (vopp v) (vopp v)) with (dot v v) by (unfold dot, vopp; cbn; ring). f_equal. f_equal. unfold dot, vopp; cbn [vx vy vz]. ring. Qed.
Lemma axial2_opp p v x : axial2 p (vopp v) x = axial2 p v x.
Proof. unfold axial2. replace (dot (vopp v) (vopp v)) with (dot v v) by (unfold dot, vopp; cbn; ring). f_equal. unfold dot, vopp; cbn [vx vy vz]. ring. Qed.
Lemma dist2_shift p k v x : dot v v = 1 -> dist2 (vadd p (vscale k v)) v x = dist2 p v x.
Proof.
  intros H. unfold dist2. rewrite H. unfold Rdiv. rewrite Rinv_1, !Rmult_1_r.
  replace (vsub x (vadd p (vscale k v))) with (vadd (vsub x p) (vscale (- k) v)) by (unfold vsub, vadd, vscale; cbn [vx vy vz]; f_equal; ring).
  set (d := vsub x p). clearbody d.
  replace (dot (vadd d (vscale (- k) v)) (vadd d (vscale (- k) v))) with (dot d d - 2 * k * dot v d + k ^ 2 * dot v v) by (unfold dot, vadd, vscale; cbn [vx vy vz]; ring).
  replace (dot v (vadd d (vscale (- k) v))) with (dot v d - k * dot v v) by (unfold dot, vadd, vscale; cbn [vx vy vz]; ring).
  rewrite H. ring.
Qed.
Lemma dist2_nn p v x : 0 <= dist2 p v x.
Proof.
  unfold dist2. destruct (Req_EM_T (dot v v) 0) as [Z|Z].
  - rewrite Z. unfold Rdiv. pose proof (dot_zero v Z) as ->. replace (dot vzero (vsub x p)) with 0 by (unfold dot, vzero; cbn; ring).
    pose proof (dot_nonneg (vsub x p)). simpl. lra.
  - pose proof (dot_nonneg v). pose proof (cauchy v (vsub x p)) as C.
    assert (dot v (vsub x p) ^ 2 / dot v v <= dot (vsub x p) (vsub x p)); [|lra].
    apply Rmult_le_reg_r with (dot v v); [lra|]. unfold Rdiv. rewrite Rmult_assoc, Rinv_l by lra. lra.
Qed.
