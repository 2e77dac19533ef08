(** Lemmas for the comparison of surfaces. *)
From Verif Require Import Prelude Vec3 Geom GeomProofs Prim PrimSpec PrimProofs CardsProofs SurfCards SurfCardSpec SurfCardProofs Same SameSpec.
Open Scope R_scope.

Lemma vlen_nn a : 0 <= vlen a. Proof. apply sqrt_pos. Qed.
Lemma tri a b : vlen (vadd a b) <= vlen a + vlen b.
Proof.
  pose proof (vlen_nn a). pose proof (vlen_nn b). pose proof (vlen_sq a) as A. pose proof (vlen_sq b) as B. pose proof (vlen_sq (vadd a b)) as C.
  pose proof (vlen_nn (vadd a b)). pose proof (cauchy a b) as K.
  assert (E : dot (vadd a b) (vadd a b) = dot a a + 2 * dot a b + dot b b) by (unfold dot, vadd; cbn [vx vy vz]; ring).
  assert (D : dot a b <= vlen a * vlen b).
  { destruct (Rle_dec (dot a b) 0); [nra|]. apply Rsqr_incr_0; [|lra|nra]. unfold Rsqr. replace (vlen a * vlen b * (vlen a * vlen b)) with (vlen a * vlen a * (vlen b * vlen b)) by ring. rewrite A, B. simpl in K. lra. }
  apply Rsqr_incr_0; [|lra|lra]. unfold Rsqr. nra.
Qed.
Lemma rtri a b : Rabs (vlen a - vlen b) <= vlen (vsub a b).
Proof.
  pose proof (tri (vsub a b) b) as H1. replace (vadd (vsub a b) b) with a in H1 by (destruct a as [x y z]; unfold vadd, vsub; cbn [vx vy vz]; f_equal; ring).
  pose proof (tri (vsub b a) a) as H2. replace (vadd (vsub b a) a) with b in H2 by (destruct b as [x y z]; unfold vadd, vsub; cbn [vx vy vz]; f_equal; ring).
  assert (E : vlen (vsub b a) = vlen (vsub a b)). { rewrite <- vopp_len. f_equal. unfold vopp, vsub. cbn [vx vy vz]. f_equal; ring. }
  apply Rabs_le. lra.
Qed.
Lemma dot_len a b : Rabs (dot a b) <= vlen a * vlen b.
Proof.
  pose proof (cauchy a b) as K. pose proof (vlen_sq a) as A. pose proof (vlen_sq b) as B. pose proof (vlen_nn a). pose proof (vlen_nn b).
  apply Rsqr_incr_0; [|apply Rabs_pos|nra]. rewrite <- Rsqr_abs. unfold Rsqr.
  replace (vlen a * vlen b * (vlen a * vlen b)) with (vlen a * vlen a * (vlen b * vlen b)) by ring. rewrite A, B. simpl in K. lra.
Qed.
Lemma cross_len a b : vlen (cross a b) <= vlen a * vlen b.
Proof.
  pose proof (cross_len2 a b) as K. pose proof (vlen_sq a) as A. pose proof (vlen_sq b) as B. pose proof (vlen_sq (cross a b)) as C. pose proof (vlen_nn a). pose proof (vlen_nn b). pose proof (vlen_nn (cross a b)).
  apply Rsqr_incr_0; [|lra|nra]. unfold Rsqr.
  replace (vlen a * vlen b * (vlen a * vlen b)) with (vlen a * vlen a * (vlen b * vlen b)) by ring. rewrite A, B, C, K. pose proof (pow2_ge_0 (dot a b)). lra.
Qed.
(** chord and arc *)
Lemma chord a b : vlen a = 1 -> vlen b = 1 -> vlen (vsub a b) <= ang a b.
Proof.
  intros A B. pose proof (ang_bound a b) as T. set (th := ang a b) in *.
  assert (C : cos th = dot a b).
  { unfold th, ang. rewrite A, B. rewrite cos_acos.
    - field.
    - pose proof (cos_bound a b (len_nz a ltac:(lra)) (len_nz b ltac:(lra))) as K. rewrite A, B in K. exact K. }
  pose proof (vlen_sq a) as A2. pose proof (vlen_sq b) as B2. rewrite A in A2. rewrite B in B2.
  pose proof (vlen_sq (vsub a b)) as S. pose proof (vlen_nn (vsub a b)).
  assert (E : dot (vsub a b) (vsub a b) = 2 - 2 * cos th). { rewrite C. replace (dot (vsub a b) (vsub a b)) with (dot a a - 2 * dot a b + dot b b) by (unfold dot, vsub; cbn [vx vy vz]; ring). lra. }
  assert (H2 : cos th = 1 - 2 * sin (th / 2) * sin (th / 2)). { replace th with (2 * (th / 2)) at 1 by field. apply cos_2a_sin. }
  assert (P : 0 <= sin (th / 2) <= th / 2).
  { split; [apply sin_ge_0; pose proof PI_RGT_0; lra|]. destruct (Req_EM_T th 0) as [-> |]; [replace (0 / 2) with 0 by field; rewrite sin_0; lra|]. apply Rlt_le, sin_lt_x. lra. }
  apply Rsqr_incr_0; [|lra|lra]. unfold Rsqr. nra.
Qed.
Lemma ang_comm a b : ang a b = ang b a.
Proof. unfold ang. rewrite dot_comm, (Rmult_comm (vlen a)). reflexivity. Qed.
Lemma ang_self a : vlen a = 1 -> ang a a = 0.
Proof. intros A. unfold ang. rewrite <- vlen_sq, A. replace (1 * 1 / (1 * 1)) with 1 by field. apply acos_1. Qed.

Lemma tol_fst v t : fst (is_in_tolerance v t (1/2 * t) (2 * t)) = rltb (Rabs v) t.
Proof.
  unfold is_in_tolerance, rltb. pose proof (Rabs_pos v).
  destruct (Rlt_dec (Rabs v) (1/2 * t)), (Rlt_dec (Rabs v) t), (Rlt_dec (2 * t) (Rabs v)); cbn; auto; lra.
Qed.
Lemma parallel_comm t a b : vlen a = 1 -> vlen b = 1 -> parallel_tol t a b = parallel_tol t b a.
Proof. intros A B. unfold parallel_tol. rewrite !get_angle_ang by (rewrite A, B; lra). rewrite ang_comm. reflexivity. Qed.
Lemma opposite_comm t a b : vlen a = 1 -> vlen b = 1 -> opposite_tol t a b = opposite_tol t b a.
Proof.
  intros A B. unfold opposite_tol. rewrite !get_angle_ang by (rewrite ?vopp_len, ?A, ?B; lra).
  replace (ang b (vopp a)) with (ang a (vopp b)); [reflexivity|].
  rewrite !ang_opp by (apply len_nz; lra). rewrite ang_comm. reflexivity.
Qed.
Lemma value_comm a b t : same_value a b t = same_value b a t.
Proof. unfold same_value. rewrite Rabs_minus_sym. reflexivity. Qed.
Lemma equal_comm t a b : is_equal t a b = is_equal t b a.
Proof.
  unfold is_equal. replace (vlen (vsub b a)) with (vlen (vsub a b)); [reflexivity|]. rewrite <- vopp_len. f_equal. unfold vopp, vsub. cbn [vx vy vz]. f_equal; ring.
Qed.
Lemma equal_self t a : 0 <= t -> is_equal t a a = true.
Proof.
  intros T. unfold is_equal. replace (vsub a a) with vzero by (unfold vsub, vzero; f_equal; ring). rewrite vlen_zero. destruct (Rle_dec 0 t); [reflexivity|contradiction].
Qed.
Lemma value_self t a : 0 < t -> same_value a a t = true.
Proof. intros T. unfold same_value, rltb. replace (a - a) with 0 by ring. rewrite Rabs_R0. destruct (Rlt_dec 0 t); [reflexivity|contradiction]. Qed.
Lemma parallel_self t a : vlen a = 1 -> 0 < t -> parallel_tol t a a = true.
Proof. intros A T. apply parallel_true; auto. - unfold visible. rewrite A. lra. - left. rewrite ang_self by auto. auto. Qed.

(** distance to an axis *)
Lemma dist_axis c v x : vlen v = 1 -> sqrt (dist2 c v x) = vlen (cross v (vsub x c)) /\ axial2 c v x = dot v (vsub x c) ^ 2.
Proof.
  intros V1. assert (D : dot v v = 1) by (rewrite <- vlen_sq, V1; ring). unfold dist2, axial2, vlen. rewrite cross_len2, D. split; [f_equal; field|field].
Qed.
Lemma cross_diff v1 v2 d1 d2 : vlen (vsub (cross v1 d1) (cross v2 d2)) <= vlen (cross v1 (vsub d1 d2)) + vlen (vsub v1 v2) * vlen d2.
Proof.
  replace (vsub (cross v1 d1) (cross v2 d2)) with (vadd (cross v1 (vsub d1 d2)) (cross (vsub v1 v2) d2)) by (unfold vadd, vsub, cross; cbn [vx vy vz]; f_equal; ring).
  refine (Rle_trans _ _ _ (tri _ _) _). apply Rplus_le_compat_l. apply cross_len.
Qed.
Lemma axis_close c1 v1 c2 v2 e a x : vlen v1 = 1 -> vlen v2 = 1 -> vlen (cross v1 (vsub c1 c2)) <= e -> ang v1 v2 <= a ->
  Rabs (sqrt (dist2 c1 v1 x) - sqrt (dist2 c2 v2 x)) <= e + a * vlen (vsub x c2).
Proof.
  intros V1 V2 E A. destruct (dist_axis c1 v1 x V1) as [-> _]. destruct (dist_axis c2 v2 x V2) as [-> _].
  refine (Rle_trans _ _ _ (rtri _ _) _). refine (Rle_trans _ _ _ (cross_diff _ _ _ _) _).
  assert (X : vlen (cross v1 (vsub (vsub x c1) (vsub x c2))) <= e).
  { replace (cross v1 (vsub (vsub x c1) (vsub x c2))) with (vopp (cross v1 (vsub c1 c2))) by (unfold vopp, vsub, cross; cbn [vx vy vz]; f_equal; ring). rewrite vopp_len. exact E. }
  pose proof (chord v1 v2 V1 V2). pose proof (vlen_nn (vsub x c2)). nra.
Qed.
Lemma parallel_pm t v1 v2 : vlen v1 = 1 -> vlen v2 = 1 -> parallel_tol t v1 v2 = true -> ang v1 v2 < t \/ ang v1 (vopp v2) < t.
Proof. intros A B H. apply parallel_true in H; auto. unfold visible. rewrite A. lra. Qed.
