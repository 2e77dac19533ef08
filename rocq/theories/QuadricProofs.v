(** Proofs for the GQ and SQ cards. *)
From Verif Require Import Prelude Vec3 Prim PrimSpec PrimProofs Quadric CardsSpec QuadricSpec.
Open Scope R_scope.

Lemma sq_ok a b c d e f g x0 y0 z0 x : qval (sq2gq a b c d e f g x0 y0 z0) x = sqval a b c d e f g x0 y0 z0 x.
Proof. unfold qval, quad, sqval, sq2gq; simpl. ring. Qed.

(** ** Orthonormal bases *)
Definition det (a b c : vec) : R := dot a (cross b c).
Lemma det_gram a b c : orthonormal (a, b, c) -> det a b c ^ 2 = 1.
Proof.
  intros (A & B & C & AB & AC & BC).
  replace (det a b c ^ 2) with (dot a a * (dot b b * dot c c - dot b c ^ 2) - dot a b * (dot a b * dot c c - dot b c * dot a c)
     + dot a c * (dot a b * dot b c - dot b b * dot a c)) by (unfold det, dot, cross; simpl; ring).
  rewrite A, B, C, AB, AC, BC. ring.
Qed.
Lemma basis_dot a b c x y : orthonormal (a, b, c) -> dot x y = dot a x * dot a y + dot b x * dot b y + dot c x * dot c y.
Proof.
  intros H. pose proof (det_gram a b c H) as D. destruct H as (A & B & C & AB & AC & BC).
  set (w := vsub x (vadd (vscale (dot a x) a) (vadd (vscale (dot b x) b) (vscale (dot c x) c)))).
  assert (W1 : dot w a = 0).
  { replace (dot w a) with (dot a x - (dot a x * dot a a + dot b x * dot a b + dot c x * dot a c)) by (unfold w, dot, vsub, vadd, vscale; simpl; ring). rewrite A, AB, AC. ring. }
  assert (W2 : dot w b = 0).
  { replace (dot w b) with (dot b x - (dot a x * dot a b + dot b x * dot b b + dot c x * dot b c)) by (unfold w, dot, vsub, vadd, vscale; simpl; ring). rewrite B, AB, BC. ring. }
  assert (W3 : dot w c = 0).
  { replace (dot w c) with (dot c x - (dot a x * dot a c + dot b x * dot b c + dot c x * dot c c)) by (unfold w, dot, vsub, vadd, vscale; simpl; ring). rewrite C, AC, BC. ring. }
  assert (Z : dot w y = 0).
  { assert (E : det a b c * dot w y = dot w a * dot (cross b c) y + dot w b * dot (cross c a) y + dot w c * dot (cross a b) y).
    { unfold det, dot, cross; simpl. ring. }
    rewrite W1, W2, W3 in E. assert (det a b c * dot w y = 0) by lra. apply Rmult_integral in H. destruct H; auto. rewrite H in D. simpl in D. lra. }
  replace (dot x y) with (dot w y + (dot a x * dot a y + dot b x * dot b y + dot c x * dot c y)); [rewrite Z; ring|].
  unfold w, dot, vsub, vadd, vscale; simpl. ring.
Qed.

(** ** Reduction to the axes *)
(** no linear term along the null directions *)
Definition central (q : gq) (g : eig) : Prop :=
  forall i, (i < 3)%nat -> (ev g i = 0 /\ xd q g i = 0) \/ 1 / 10 ^ 8 <= Rabs (ev g i).
Lemma td_zero q g i : central q g -> (i < 3)%nat -> td0 q g i * ev g i = - xd q g i.
Proof.
  intros C L. destruct (C i L) as [(E & X)|H]; unfold td0.
  - rewrite X, E. ring.
  - unfold small. destruct (rltb _ _) eqn:R; [apply rltb_true in R; lra|]. field. intros E. rewrite E, Rabs_R0 in H.
    assert (0 < 1 / 10 ^ 8) by (apply Rmult_lt_0_compat; [lra|apply Rinv_0_lt_compat, pow_lt; lra]). lra.
Qed.
Lemma centre_dot g td i : orthonormal (vv g 0%nat, vv g 1%nat, vv g 2%nat) -> (i < 3)%nat -> dot (vv g i) (centre g td) = td i.
Proof.
  intros (A & B & C & AB & AC & BC) L. unfold centre, vsum3.
  assert (E : forall v, dot v (vadd (vscale (td 0%nat) (vv g 0%nat)) (vadd (vscale (td 1%nat) (vv g 1%nat)) (vscale (td 2%nat) (vv g 2%nat))))
    = td 0%nat * dot (vv g 0%nat) v + td 1%nat * dot (vv g 1%nat) v + td 2%nat * dot (vv g 2%nat) v) by (intros v; unfold dot, vadd, vscale; simpl; ring).
  rewrite E. destruct i as [|[|[|i]]]; [| | |lia].
  - rewrite A, (dot_comm (vv g 1%nat)), AB, (dot_comm (vv g 2%nat)), AC. ring.
  - rewrite AB, B, (dot_comm (vv g 2%nat)), BC. ring.
  - rewrite AC, BC, C. ring.
Qed.
Lemma reduce q g x : eig_of q g -> central q g ->
  qval q x = sum3 (fun i => ev g i * dot (vv g i) (vsub x (centre g (td0 q g))) ^ 2) + kval q g.
Proof.
  intros (O & E) C. unfold qval. rewrite E.
  replace (gg q * vx x) with (2 * (gg q / 2 * vx x)) by field. replace (gh q * vy x) with (2 * (gh q / 2 * vy x)) by field.
  replace (gj q * vz x) with (2 * (gj q / 2 * vz x)) by field.
  assert (L : gg q / 2 * vx x + gh q / 2 * vy x + gj q / 2 * vz x = sum3 (fun i => xd q g i * dot (vv g i) x)).
  { transitivity (dot (V (gg q / 2) (gh q / 2) (gj q / 2)) x); [reflexivity|]. rewrite (basis_dot _ _ _ _ _ O). unfold sum3, xd. rewrite !(dot_comm (vv g _) (V _ _ _)). ring. }
  unfold kval, sum3 in *. rewrite !dot_sub_r, !centre_dot by (auto; lia).
  pose proof (td_zero q g 0%nat C ltac:(lia)) as T0. pose proof (td_zero q g 1%nat C ltac:(lia)) as T1. pose proof (td_zero q g 2%nat C ltac:(lia)) as T2.
  set (s0 := dot (vv g 0%nat) x) in *. set (s1 := dot (vv g 1%nat) x) in *. set (s2 := dot (vv g 2%nat) x) in *.
  set (t0 := td0 q g 0%nat) in *. set (t1 := td0 q g 1%nat) in *. set (t2 := td0 q g 2%nat) in *.
  set (y0 := xd q g 0%nat) in *. set (y1 := xd q g 1%nat) in *. set (y2 := xd q g 2%nat) in *.
  replace (ev g 0%nat * (s0 - t0) ^ 2 + ev g 1%nat * (s1 - t1) ^ 2 + ev g 2%nat * (s2 - t2) ^ 2 + (t0 * y0 + t1 * y1 + t2 * y2 + gk q)) with
   (ev g 0%nat * s0 ^ 2 + ev g 1%nat * s1 ^ 2 + ev g 2%nat * s2 ^ 2 - 2 * ((t0 * ev g 0%nat) * s0 + (t1 * ev g 1%nat) * s1 + (t2 * ev g 2%nat) * s2)
    + (t0 * ev g 0%nat + y0) * t0 + (t1 * ev g 1%nat + y1) * t1 + (t2 * ev g 2%nat + y2) * t2 + gk q) by ring.
  rewrite T0, T1, T2. lra.
Qed.

(** ** The classes that are read correctly *)
(** eigenvalues equal or clearly different *)
Definition separated (g : eig) : Prop :=
  forall i j, (i < 3)%nat -> (j < 3)%nat -> ev g i = ev g j \/ 1 / 10 ^ 5 <= Rabs (ev g i - ev g j).
(** real cylinder (elliptic or hyperbolic) around the direction [i], its axis negative *)
Definition cylindrical (q : gq) (g : eig) (i : nat) : Prop :=
  ev g i = 0 /\ ev g (nx i) <> 0 /\ ev g (nx2 i) <> 0 /\ (0 < ev g (nx i) \/ 0 < ev g (nx2 i)) /\ kval q g < 0.
(** hyperboloid of revolution around the direction [i] which the code does not round to
    a cylinder or a cone *)
Definition hyperbolic (q : gq) (g : eig) (i : nat) : Prop :=
  ev g i < 0 /\ 0 < ev g (nx i) /\ ev g (nx i) = ev g (nx2 i) /\ kval q g <> 0 /\
  1 / 100 <= Rabs (kval q g / ev g (nx i)) /\ (kval q g < 0 -> ev g (nx i) <= 10 ^ 6 * - ev g i).

Lemma eps5 : 0 < 1 / 10 ^ 5. Proof. apply Rmult_lt_0_compat; [lra|apply Rinv_0_lt_compat, pow_lt; lra]. Qed.
Lemma eps8 : 0 < 1 / 10 ^ 8. Proof. apply Rmult_lt_0_compat; [lra|apply Rinv_0_lt_compat, pow_lt; lra]. Qed.
Lemma eps6 : 0 < 1 / 10 ^ 6. Proof. apply Rmult_lt_0_compat; [lra|apply Rinv_0_lt_compat, pow_lt; lra]. Qed.
Lemma close_spec g i j : separated g -> (i < 3)%nat -> (j < 3)%nat ->
  rltb (Rabs (ev g i - ev g j)) (1 / 10 ^ 5) = if Req_EM_T (ev g i) (ev g j) then true else false.
Proof.
  intros S A B. pose proof eps5. destruct (Req_EM_T _ _) as [E|E].
  - apply rltb_true. rewrite E, Rminus_diag_eq, Rabs_R0; auto.
  - apply rltb_false. destruct (S i j A B); [contradiction|auto].
Qed.
Lemma sgn_pos x : 0 < x -> sgn x = 1%Z. Proof. intros. unfold sgn. destruct (Rlt_dec 0 x); auto; lra. Qed.
Lemma sgn_neg x : x < 0 -> sgn x = (-1)%Z. Proof. intros. unfold sgn. destruct (Rlt_dec 0 x); [lra|]. destruct (Rlt_dec x 0); auto; lra. Qed.

Lemma gq_conic q g : central q g -> gq2params q g = conic g (centre g (td0 q g)) (kval q g).
Proof.
  intros C. unfold gq2params. destruct (first_zero g) as [iz|] eqn:F; auto.
  assert (L : (iz < 3)%nat /\ small (ev g iz) = true).
  { unfold first_zero in F. destruct (small (ev g 0%nat)) eqn:S0; [injection F; intros <-; auto with arith|].
    destruct (small (ev g 1%nat)) eqn:S1; [injection F; intros <-; auto with arith|].
    destruct (small (ev g 2%nat)) eqn:S2; [injection F; intros <-; auto with arith|discriminate]. }
  destruct L as (L & S). unfold small in S. apply rltb_true in S. destruct (C iz L) as [(E & X)|H]; [|lra].
  rewrite X, Rmult_0_r, Rabs_R0. pose proof eps6. destruct (rltb _ _) eqn:R; auto. apply rltb_true in R. lra.
Qed.

Lemma rad_sq k e : 0 < k -> e <> 0 -> sqrt (Rabs (k / e)) ^ 2 = k / Rabs e.
Proof.
  intros K E. simpl. rewrite Rmult_1_r, sqrt_sqrt by apply Rabs_pos. unfold Rdiv. rewrite Rabs_mult, Rabs_inv, (Rabs_pos_eq k); lra.
Qed.
Lemma rad_pos k e : k <> 0 -> e <> 0 -> 0 < sqrt (Rabs (k / e)).
Proof. intros K E. apply sqrt_lt_R0, Rabs_pos_lt. unfold Rdiv. apply Rmult_integral_contrapositive. split; auto. apply Rinv_neq_0_compat. auto. Qed.
Lemma term_sq k e a : 0 < k -> e <> 0 -> (10 * a / (sqrt (Rabs (k / e)) * 10)) ^ 2 = Rabs e * a ^ 2 / k.
Proof.
  intros K E. pose proof (rad_pos k e ltac:(lra) E) as P. pose proof (Rabs_pos_lt e E) as PE.
  replace (10 * a / (sqrt (Rabs (k / e)) * 10)) with (a / sqrt (Rabs (k / e))) by (field; lra).
  unfold Rdiv at 1. rewrite Rpow_mult_distr, pow_inv, rad_sq by auto. field. lra.
Qed.
Lemma dot_scaled x T v : dot (vsub (vscale 10 x) (vscale 10 T)) v = 10 * dot v (vsub x T).
Proof. unfold dot, vsub, vscale; simpl; ring. Qed.
Lemma radial_basis g T x i : orthonormal (vv g 0%nat, vv g 1%nat, vv g 2%nat) -> (i < 3)%nat ->
  radial2 (vscale 10 T) (vv g i) (vscale 10 x) = 100 * (dot (vv g (nx i)) (vsub x T) ^ 2 + dot (vv g (nx2 i)) (vsub x T) ^ 2).
Proof.
  intros O L. unfold radial2, height.
  replace (dot (vsub (vscale 10 x) (vscale 10 T)) (vsub (vscale 10 x) (vscale 10 T))) with (100 * dot (vsub x T) (vsub x T)) by (unfold dot, vsub, vscale; simpl; ring).
  rewrite (dot_scaled x T (vv g i)), (basis_dot _ _ _ (vsub x T) (vsub x T) O). destruct i as [|[|[|i]]]; [| | |lia]; cbn [nx nx2]; ring.
Qed.
Lemma sum_axes f i : (i < 3)%nat -> sum3 f = f i + f (nx i) + f (nx2 i).
Proof. intros L. destruct i as [|[|[|i]]]; [| | |lia]; unfold sum3, nx2; cbn [nx]; ring. Qed.
Lemma lt_div a b k : 0 < k -> (a / k < b <-> a < b * k). 
Proof.
  intros K. split; intros H.
  - apply (Rmult_lt_compat_r k) in H; auto. replace (a / k * k) with a in H by (field; lra). auto.
  - apply (Rmult_lt_reg_r k); auto. replace (a / k * k) with a by (field; lra). auto.
Qed.
Lemma div_lt a b k : 0 < k -> (b < a / k <-> b * k < a). 
Proof.
  intros K. split; intros H.
  - apply (Rmult_lt_compat_r k) in H; auto. replace (a / k * k) with a in H by (field; lra). auto.
  - apply (Rmult_lt_reg_r k); auto. replace (a / k * k) with a by (field; lra). auto.
Qed.
Lemma vv_unit g i : orthonormal (vv g 0%nat, vv g 1%nat, vv g 2%nat) -> (i < 3)%nat -> vlen (vv g i) = 1.
Proof.
  intros (A & B & C & _) L. unfold vlen. destruct i as [|[|[|i]]]; [| | |lia]; rewrite ?A, ?B, ?C; apply sqrt_1.
Qed.
Lemma nx_lt i : (nx i < 3)%nat. Proof. destruct i as [|[|[|i]]]; simpl; lia. Qed.

Lemma axis_cyl q g i : separated g -> cylindrical q g i -> (i < 3)%nat -> gq_axis_index g = i.
Proof.
  intros S (E0 & E1 & E2 & _) L. unfold gq_axis_index. rewrite !close_spec by (auto; lia). unfold argmin_abs.
  pose proof (Rabs_pos_lt _ E1). pose proof (Rabs_pos_lt _ E2).
  destruct i as [|[|[|i]]]; [| | |lia]; unfold nx2 in *; cbn [nx] in *; rewrite E0, ?Rabs_R0;
  repeat (match goal with |- context [Req_EM_T ?a ?b] => destruct (Req_EM_T a b); try congruence; auto end);
  repeat (match goal with |- context [Rle_dec ?a ?b] => destruct (Rle_dec a b); try lra; auto end).
Qed.
Lemma kind_cyl q g i : cylindrical q g i -> gq_kind g (kval q g) i = Ecyl.
Proof.
  intros (E0 & E1 & E2 & P & K). unfold gq_kind. destruct (Req_EM_T (kval q g) 0); [lra|]. rewrite (sgn_neg _ K).
  destruct (Req_EM_T (ev g i) 0); [|contradiction].
  destruct (Rlt_dec 0 (ev g (nx i))) as [A|A]; [rewrite (sgn_pos _ A); reflexivity|]. rewrite (sgn_neg (ev g (nx i))) by lra. cbn [Z.eqb].
  rewrite (sgn_pos (ev g (nx2 i))) by lra. reflexivity.
Qed.

Lemma cylinder_read q g i : eig_of q g -> central q g -> separated g -> (i < 3)%nat -> cylindrical q g i ->
  exists s, gq_primitive q g = QPrim s /\ proper s /\ supported_side s /\ same_sides q s.
Proof.
  intros D C S L Y. unfold gq_primitive. rewrite (gq_conic q g C). unfold conic. rewrite (axis_cyl q g i S Y L), (kind_cyl q g i Y).
  destruct Y as (E0 & E1 & E2 & P & K). destruct D as (O & D). pose proof (conj O D : eig_of q g) as DD.
  set (T := centre g (td0 q g)). set (k := - kval q g). assert (KP : 0 < k) by (unfold k; lra).
  assert (RED : forall x, qval q x = ev g (nx i) * dot (vv g (nx i)) (vsub x T) ^ 2 + ev g (nx2 i) * dot (vv g (nx2 i)) (vsub x T) ^ 2 - k).
  { intros x. rewrite (reduce q g x DD C), (sum_axes _ i L), E0. fold T. unfold k. ring. }
  unfold get_cylinder.
  assert (U : forall j, (j < 3)%nat -> vlen (vv g j) = 1) by (intros; apply vv_unit; auto).
  pose proof (nx_lt i) as N1. pose proof (nx_lt (nx i)) as N2. fold (nx2 i) in N2.
  destruct (Rlt_dec _ _) as [CL|CL].
  - assert (EQ : ev g (nx i) = ev g (nx2 i)). { destruct (S (nx i) (nx2 i) N1 N2); auto. lra. }
    assert (EP : 0 < ev g (nx2 i)) by (rewrite EQ in P; tauto). cbn [mm].
    assert (KE : 0 < k / ev g (nx2 i)) by (apply Rmult_lt_0_compat; auto; apply Rinv_0_lt_compat; auto).
    eexists. split; [reflexivity|]. split; [split; [auto|]; pose proof (sqrt_lt_R0 _ KE); lra|]. split; [exact Logic.I|].
    intros x. cbn [inside outside]. rewrite RED, EQ, radial_basis by auto. rewrite Rpow_mult_distr.
    replace (sqrt (k / ev g (nx2 i)) ^ 2) with (k / ev g (nx2 i)) by (simpl; rewrite Rmult_1_r, sqrt_sqrt; lra).
    set (r := dot (vv g (nx i)) (vsub x T) ^ 2 + dot (vv g (nx2 i)) (vsub x T) ^ 2).
    replace (ev g (nx2 i) * dot (vv g (nx i)) (vsub x T) ^ 2 + ev g (nx2 i) * dot (vv g (nx2 i)) (vsub x T) ^ 2 - k) with (ev g (nx2 i) * r - k) by (unfold r; ring).
    pose proof (lt_div k r (ev g (nx2 i)) EP). pose proof (div_lt k r (ev g (nx2 i)) EP). split; split; intros; nra.
  - set (pr := if Rlt_dec (Rabs (ev g (nx i))) (Rabs (ev g (nx2 i))) then (nx2 i, nx i) else (nx i, nx2 i)).
    assert (PR : pr = (nx2 i, nx i) \/ pr = (nx i, nx2 i)) by (unfold pr; destruct (Rlt_dec _ _); auto).
    assert (G : forall a b, (a < 3)%nat -> (b < 3)%nat -> ev g a <> 0 -> ev g b <> 0 -> (0 < ev g a \/ 0 < ev g b) ->
      (forall x, qval q x = ev g b * dot (vv g b) (vsub x T) ^ 2 + ev g a * dot (vv g a) (vsub x T) ^ 2 - k) ->
      exists s, mm (if Z.eqb (sgn (ev g b)) (sgn (ev g a)) then QPrim (PECyl T (vv g i) (sqrt (Rabs (k / ev g a))) (sqrt (Rabs (k / ev g b))) (vv g a) (vv g b))
        else if Z.eqb (sgn k) (sgn (ev g b)) then QPrim (PHCyl T (vv g i) (sqrt (Rabs (k / ev g a))) (sqrt (Rabs (k / ev g b))) (vv g a) (vv g b))
        else QPrim (PHCyl T (vv g i) (sqrt (Rabs (k / ev g b))) (sqrt (Rabs (k / ev g a))) (vv g b) (vv g a))) = QPrim s /\
        proper s /\ supported_side s /\ same_sides q s).
    { intros a b La Lb Na Nb Pab Q. rewrite (sgn_pos k KP). pose proof (rad_pos k _ ltac:(lra) Na) as Ra. pose proof (rad_pos k _ ltac:(lra) Nb) as Rb.
      destruct (Rlt_dec 0 (ev g a)) as [A|A]; destruct (Rlt_dec 0 (ev g b)) as [B|B]; try lra.
      - rewrite (sgn_pos _ A), (sgn_pos _ B). cbn [Z.eqb Pos.eqb mm]. eexists. split; [reflexivity|].
        split; [repeat split; auto; lra|]. split; [exact Logic.I|]. intros x. cbn [inside outside]. rewrite !dot_scaled, !term_sq, Q by auto.
        rewrite (Rabs_pos_eq (ev g a)), (Rabs_pos_eq (ev g b)) by lra.
        set (u := ev g b * dot (vv g b) (vsub x T) ^ 2). set (w := ev g a * dot (vv g a) (vsub x T) ^ 2).
        replace (u / k + w / k) with ((u + w) / k) by (field; lra). rewrite lt_div, div_lt by auto. split; split; intros; lra.
      - rewrite (sgn_pos _ A), (sgn_neg (ev g b)) by lra. cbn [Z.eqb Pos.eqb mm]. eexists. split; [reflexivity|].
        split; [repeat split; auto; lra|]. split; [exact Logic.I|]. intros x. cbn [inside outside]. rewrite !dot_scaled, !term_sq, Q by auto.
        rewrite (Rabs_pos_eq (ev g a)), (Rabs_left (ev g b)) by lra.
        set (u := dot (vv g b) (vsub x T) ^ 2). set (w := dot (vv g a) (vsub x T) ^ 2).
        replace (ev g a * w / k - - ev g b * u / k) with ((ev g b * u + ev g a * w) / k) by (field; lra). rewrite lt_div, div_lt by auto. split; split; intros; lra.
      - rewrite (sgn_pos _ B), (sgn_neg (ev g a)) by lra. cbn [Z.eqb Pos.eqb mm]. eexists. split; [reflexivity|].
        split; [repeat split; auto; lra|]. split; [exact Logic.I|]. intros x. cbn [inside outside]. rewrite !dot_scaled, !term_sq, Q by auto.
        rewrite (Rabs_pos_eq (ev g b)), (Rabs_left (ev g a)) by lra.
        set (u := dot (vv g b) (vsub x T) ^ 2). set (w := dot (vv g a) (vsub x T) ^ 2).
        replace (ev g b * u / k - - ev g a * w / k) with ((ev g b * u + ev g a * w) / k) by (field; lra). rewrite lt_div, div_lt by auto. split; split; intros; lra. }
    destruct PR as [-> | ->]; apply G; auto; try tauto; intros x; rewrite RED; ring.
Qed.

Lemma axis_hyp q g i : separated g -> hyperbolic q g i -> (i < 3)%nat -> gq_axis_index g = i.
Proof.
  intros S (E0 & E1 & E2 & _) L. unfold gq_axis_index. rewrite !close_spec by (auto; lia).
  destruct i as [|[|[|i]]]; [| | |lia]; unfold nx2 in *; cbn [nx] in *;
  repeat (match goal with |- context [Req_EM_T ?a ?b] => destruct (Req_EM_T a b); try lra; auto end).
Qed.
Lemma kind_hyp q g i : hyperbolic q g i -> gq_kind g (kval q g) i = Ehyper.
Proof.
  intros (E0 & E1 & E2 & K & _). unfold gq_kind. destruct (Req_EM_T (kval q g) 0); [lra|].
  rewrite (sgn_neg (ev g i)), (sgn_pos (ev g (nx i))) by lra. destruct (Req_EM_T (ev g i) 0); [lra|]. cbn [Z.eqb andb].
  destruct (Z.eqb (sgn (kval q g)) 1); reflexivity.
Qed.
Lemma hyperboloid_read q g i : eig_of q g -> central q g -> separated g -> (i < 3)%nat -> hyperbolic q g i ->
  exists s, gq_primitive q g = QPrim s /\ proper s /\ same_sides q s.
Proof.
  intros D C S L Y. unfold gq_primitive. rewrite (gq_conic q g C). unfold conic. rewrite (axis_hyp q g i S Y L), (kind_hyp q g i Y).
  destruct Y as (E0 & E1 & E2 & K & Rm & Rt). destruct D as (O & D). pose proof (conj O D : eig_of q g) as DD.
  set (T := centre g (td0 q g)).
  assert (RED : forall x, qval q x = ev g i * dot (vv g i) (vsub x T) ^ 2 + ev g (nx i) * (dot (vv g (nx i)) (vsub x T) ^ 2 + dot (vv g (nx2 i)) (vsub x T) ^ 2) + kval q g).
  { intros x. rewrite (reduce q g x DD C), (sum_axes _ i L), <- E2. fold T. ring. }
  unfold get_hyperboloid. set (k := - kval q g) in *. assert (KN : k <> 0) by (unfold k; lra).
  rewrite <- E2. destruct (Rlt_dec (sqrt (Rabs (k / ev g (nx i)))) (sqrt (Rabs (k / ev g (nx i))))); [lra|]. rewrite <- E2.
  assert (KR : Rabs (k / ev g (nx i)) = Rabs (kval q g / ev g (nx i))) by (unfold k, Rdiv; rewrite <- (Rabs_Ropp (kval q g * _)); f_equal; ring).
  assert (MR : 1 / 10 <= sqrt (Rabs (k / ev g (nx i)))).
  { replace (1 / 10) with (sqrt (1 / 100)). - apply sqrt_le_1; try lra; apply Rabs_pos.
    - replace (1 / 100) with ((1 / 10) * (1 / 10)) by field. apply sqrt_square. lra. }
  pose proof (rad_pos k (ev g i) KN ltac:(lra)) as RI. pose proof (rad_pos k (ev g (nx i)) KN ltac:(lra)) as RO.
  assert (ONE : negb (Z.eqb (sgn k) (sgn (ev g i))) && rltb (10 ^ 3) (sqrt (Rabs (k / ev g i)) / sqrt (Rabs (k / ev g (nx i)))) = false).
  { rewrite (sgn_neg (ev g i)) by auto. destruct (Rlt_dec 0 k) as [KP|KP].
    - rewrite (sgn_pos k KP). cbn [Z.eqb negb andb]. apply rltb_false. rewrite <- sqrt_div_alt by (apply Rabs_pos_lt; unfold Rdiv; apply Rmult_integral_contrapositive; split; auto; apply Rinv_neq_0_compat; lra).
      replace (10 ^ 3) with (sqrt (10 ^ 6)). 2:{ replace (10 ^ 6) with (10 ^ 3 * 10 ^ 3) by ring. apply sqrt_square. apply pow_le. lra. }
      apply sqrt_le_1_alt. unfold Rdiv. rewrite !Rabs_mult, !Rabs_inv, (Rabs_left (ev g i)), (Rabs_pos_eq k), (Rabs_pos_eq (ev g (nx i))) by lra.
      replace (k * / - ev g i * / (k * / ev g (nx i))) with (ev g (nx i) / - ev g i) by (field; lra).
      assert (B := Rt ltac:(unfold k in KP; lra)). apply (Rmult_le_reg_r (- ev g i)); [lra|]. replace (ev g (nx i) / - ev g i * - ev g i) with (ev g (nx i)) by (field; lra). lra.
    - rewrite (sgn_neg k) by lra. reflexivity. }
  rewrite ONE. destruct (rltb _ (1 / 10)) eqn:RR; [apply rltb_true in RR; lra|]. clear RR.
  assert (U : forall j, (j < 3)%nat -> vlen (vv g j) = 1) by (intros; apply vv_unit; auto).
  pose proof (nx_lt i) as N1. pose proof (nx_lt (nx i)) as N2. fold (nx2 i) in N2.
  cbn [mm]. eexists. split; [reflexivity|]. split; [repeat split; auto; lra|]. intros x. cbn [inside outside].
  rewrite radial_basis by auto. unfold height. rewrite dot_scaled, RED. set (r := dot (vv g (nx i)) (vsub x T) ^ 2 + dot (vv g (nx2 i)) (vsub x T) ^ 2). set (h := dot (vv g i) (vsub x T)).
  assert (SQ : forall e, sqrt (Rabs (k / e)) ^ 2 = Rabs (k / e)) by (intros e; simpl; rewrite Rmult_1_r; apply sqrt_sqrt, Rabs_pos).
  rewrite !Rpow_mult_distr, !SQ. unfold Rdiv. rewrite !Rabs_mult, !Rabs_inv, (Rabs_left (ev g i)), (Rabs_pos_eq (ev g (nx i))) by lra.
  rewrite (sgn_neg (ev g i)) by auto. destruct (Rlt_dec 0 k) as [KP|KP].
  - rewrite (sgn_pos k KP), (Rabs_pos_eq k) by lra. cbn [Z.eqb negb].
    replace (100 * r * / (k * / ev g (nx i) * 10 ^ 2) - 10 ^ 2 * h ^ 2 * / (k * / - ev g i * 10 ^ 2)) with ((ev g i * h ^ 2 + ev g (nx i) * r) / k) by (field; lra).
    rewrite lt_div, div_lt by auto. replace (kval q g) with (- k) by (unfold k; ring). split; split; intros; lra.
  - rewrite (sgn_neg k), (Rabs_left k) by lra. cbn [Z.eqb Pos.eqb negb].
    replace (100 * r * / (- k * / ev g (nx i) * 10 ^ 2) - 10 ^ 2 * h ^ 2 * / (- k * / - ev g i * 10 ^ 2)) with ((ev g i * h ^ 2 + ev g (nx i) * r) / - k) by (field; lra).
    rewrite lt_div, div_lt by lra. replace (kval q g) with (- k) by (unfold k; ring). split; split; intros; lra.
Qed.
