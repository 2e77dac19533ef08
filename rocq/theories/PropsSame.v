(** C33: the comparisons that decide whether two surfaces are the same. *)
From Verif Require Import Prelude Vec3 Geom Prim PrimSpec PrimProofs CardsProofs SurfCards SurfCardSpec SurfCardProofs Same SameSpec SameProofs.
Open Scope R_scope.

(** A value is in tolerance iff it is below it, and fuzzy iff between the two limits. *)
Theorem C33_tolerance : forall val tol lo hi, lo <= tol <= hi ->
  (fst (is_in_tolerance val tol lo hi) = true <-> Rabs val < tol) /\
  (snd (is_in_tolerance val tol lo hi) = true <-> lo <= Rabs val <= hi).
Proof.
  intros val tol lo hi H. unfold is_in_tolerance.
  destruct (Rlt_dec (Rabs val) lo), (Rlt_dec (Rabs val) tol), (Rlt_dec hi (Rabs val)); cbn; split; split; intros; auto; try discriminate; lra.
Qed.
(** The limits of the code are in that order for a tolerance that is not negative. *)
Example C33_limits : forall tol, 0 <= tol -> 1/2 * tol <= tol <= 2 * tol.
Proof. intros. lra. Qed.

(** ** A surface is the same as itself *)
Definition good_plane (p : dplane) := vlen (d_axis p) = 1.
(** [opposite] needs the angular tolerance below a straight angle *)
Theorem C33_reflexive : forall angle dist, 0 < angle <= PI -> 0 < dist ->
  (forall p, good_plane p -> is_same_plane false angle dist p p = true) /\
  (forall c v r, vlen v = 1 -> is_same_cylinder false angle dist c v r c v r = true) /\
  (forall c v a, vlen v = 1 -> is_same_cone false dist angle c v a c v a = true) /\
  (forall c r, is_same_sphere false dist c r c r = true) /\
  (forall c v ra rb, vlen v = 1 -> is_same_torus false dist angle c v ra rb c v ra rb = true).
Proof.
  intros angle dist A D.
  assert (Z : rltb (Rabs 0) dist = true) by (unfold rltb; rewrite Rabs_R0; destruct (Rlt_dec 0 dist); [reflexivity|lra]).
  split; [|split; [|split; [|split]]].
  - intros [a q l1 l2] P. unfold good_plane in P; cbn [d_axis] in P. unfold is_same_plane; cbn [d_axis d_pos]. rewrite parallel_self by (auto; lra). rewrite tol_fst, Rabs_Rabsolu.
    destruct (opposite_tol angle a a) eqn:O.
    + exfalso. apply opposite_true in O; auto; [|unfold visible; rewrite P; lra]. rewrite ang_opp, ang_self in O by (auto; apply len_nz; lra). lra.
    + replace (dot a q - dot a q) with 0 by ring. exact Z.
  - intros c v r V1. unfold is_same_cylinder. rewrite !tol_fst. replace (r - r) with 0 by ring. rewrite Z, parallel_self by (auto; lra).
    replace (cross v (vsub c c)) with vzero by (unfold cross, vsub, vzero; cbn [vx vy vz]; f_equal; ring). rewrite vlen_zero. exact Z.
  - intros c v a V1. unfold is_same_cone. rewrite value_self, parallel_self by (auto; lra). apply equal_self. lra.
  - intros c r. unfold is_same_sphere. rewrite value_self by auto. apply equal_self. lra.
  - intros c v ra rb V1. unfold is_same_torus. rewrite parallel_self by (auto; lra).
    assert (P : rltb (dot v v) 0 = false). { unfold rltb. destruct (Rlt_dec (dot v v) 0); auto. pose proof (dot_nonneg v). lra. }
    rewrite P, !value_self by auto. cbn [andb]. apply equal_self. lra.
Qed.
(** With relative tolerances too, except at sizes where the tolerance is zero. *)
Theorem C33_reflexive_relative : forall angle dist, 0 < angle <= PI -> 0 < dist ->
  (forall p, good_plane p -> 0 < Rmax (d_l1 p) (d_l2 p) -> is_same_plane true angle dist p p = true) /\
  (forall c v r, vlen v = 1 -> 0 < r -> c <> vzero -> is_same_cylinder true angle dist c v r c v r = true) /\
  (forall c v a, vlen v = 1 -> is_same_cone true dist angle c v a c v a = true) /\
  (forall c r, 0 < r -> is_same_sphere true dist c r c r = true) /\
  (forall c v ra rb, vlen v = 1 -> 0 < ra -> 0 < rb -> is_same_torus true dist angle c v ra rb c v ra rb = true).
Proof.
  intros angle dist A D.
  assert (Z : forall t, 0 < t -> rltb (Rabs 0) t = true) by (intros t T; unfold rltb; rewrite Rabs_R0; destruct (Rlt_dec 0 t); [reflexivity|lra]).
  split; [|split; [|split; [|split]]].
  - intros [a q l1 l2] P L. unfold good_plane in P; cbn [d_axis d_l1 d_l2] in P, L. unfold is_same_plane; cbn [d_axis d_pos d_l1 d_l2]. rewrite parallel_self by (auto; lra). rewrite tol_fst, Rabs_Rabsolu.
    destruct (opposite_tol angle a a) eqn:O.
    + exfalso. apply opposite_true in O; auto; [|unfold visible; rewrite P; lra]. rewrite ang_opp, ang_self in O by (auto; apply len_nz; lra). lra.
    + replace (dot a q - dot a q) with 0 by ring. apply Z. nra.
  - intros c v r V1 R0 C. pose proof (vlen_pos c C) as LC. unfold is_same_cylinder. rewrite !tol_fst. replace (r - r) with 0 by ring.
    rewrite !Rmax_left by lra. rewrite Z by nra. rewrite parallel_self by (auto; lra).
    replace (cross v (vsub c c)) with vzero by (unfold cross, vsub, vzero; cbn [vx vy vz]; f_equal; ring). rewrite vlen_zero. apply Z. nra.
  - intros c v a V1. unfold is_same_cone. rewrite value_self, parallel_self by (auto; lra). apply equal_self. rewrite Rmax_left by lra. pose proof (vlen_nn c). nra.
  - intros c r R0. unfold is_same_sphere. rewrite !Rmax_left by lra. rewrite value_self by nra. apply equal_self. pose proof (vlen_nn c). nra.
  - intros c v ra rb V1 RA RB. unfold is_same_torus. rewrite !Rmax_left by lra. rewrite parallel_self by (auto; lra).
    assert (P : rltb (dot v v) 0 = false). { unfold rltb. destruct (Rlt_dec (dot v v) 0); auto. pose proof (dot_nonneg v). lra. }
    rewrite P, !value_self by nra. cbn [andb]. apply equal_self. pose proof (vlen_nn c). nra.
Qed.
(** The tolerance for the axis of a cylinder is zero at the origin: such a cylinder is
    never the same as itself, so it gets a new surface each time it is met. *)
Theorem C33_cylinder_relative_refuted : forall angle dist v r, is_same_cylinder true angle dist vzero v r vzero v r = false.
Proof.
  intros. unfold is_same_cylinder. rewrite !tol_fst. destruct (rltb _ _); auto. destruct (parallel_tol angle v v); auto.
  rewrite vlen_zero, Rmax_left by lra. rewrite Rmult_0_r. unfold rltb. destruct (Rlt_dec _ 0) as [L|]; auto. pose proof (Rabs_pos (vlen (cross v (vsub vzero vzero)))). lra.
Qed.

(** ** Symmetry *)
Theorem C33_symmetric : forall angle dist,
  (forall p1 p2, good_plane p1 -> good_plane p2 -> is_same_plane false angle dist p1 p2 = is_same_plane false angle dist p2 p1) /\
  (forall rel c1 v1 a1 c2 v2 a2, vlen v1 = 1 -> vlen v2 = 1 -> is_same_cone rel dist angle c1 v1 a1 c2 v2 a2 = is_same_cone rel dist angle c2 v2 a2 c1 v1 a1) /\
  (forall rel c1 r1 c2 r2, is_same_sphere rel dist c1 r1 c2 r2 = is_same_sphere rel dist c2 r2 c1 r1) /\
  (forall rel c1 v1 ra1 rb1 c2 v2 ra2 rb2, vlen v1 = 1 -> vlen v2 = 1 ->
     is_same_torus rel dist angle c1 v1 ra1 rb1 c2 v2 ra2 rb2 = is_same_torus rel dist angle c2 v2 ra2 rb2 c1 v1 ra1 rb1) /\
  (forall rel c1 v1 r1 c2 v2 r2, vlen v1 = 1 -> v2 = v1 \/ v2 = vopp v1 ->
     is_same_cylinder rel angle dist c1 v1 r1 c2 v2 r2 = is_same_cylinder rel angle dist c2 v2 r2 c1 v1 r1).
Proof.
  intros angle dist. split; [|split; [|split; [|split]]].
  - intros [a1 q1 k1 k2] [a2 q2 k3 k4] P1 P2. unfold good_plane in *. cbn [d_axis] in *. unfold is_same_plane. cbn [d_axis d_pos d_l1 d_l2].
    rewrite (parallel_comm angle a1 a2), (opposite_comm angle a1 a2) by auto. destruct (parallel_tol angle a2 a1); auto. rewrite !tol_fst, !Rabs_Rabsolu.
    destruct (opposite_tol angle a2 a1).
    + replace (dot a2 q2 - - dot a1 q1) with (dot a1 q1 - - dot a2 q2) by ring. reflexivity.
    + rewrite Rabs_minus_sym. reflexivity.
  - intros rel c1 v1 a1 c2 v2 a2 P1 P2. unfold is_same_cone. rewrite value_comm, (parallel_comm angle v1 v2), equal_comm, (Rmax_comm (vlen c1)) by auto. reflexivity.
  - intros rel c1 r1 c2 r2. unfold is_same_sphere. rewrite value_comm, equal_comm, (Rmax_comm (vlen c1)), (Rmax_comm r1) by auto. reflexivity.
  - intros rel c1 v1 ra1 rb1 c2 v2 ra2 rb2 P1 P2. unfold is_same_torus.
    rewrite (parallel_comm angle v1 v2), equal_comm, (Rmax_comm (vlen c1)), (Rmax_comm ra1), (Rmax_comm rb1), (value_comm ra1), (value_comm rb1), (dot_comm v1) by auto. reflexivity.
  - intros rel c1 v1 r1 c2 v2 r2 P1 E. assert (P2 : vlen v2 = 1) by (destruct E as [-> | ->]; rewrite ?vopp_len; auto).
    unfold is_same_cylinder. rewrite !tol_fst. rewrite (Rabs_minus_sym r2 r1), (Rmax_comm r2 r1), (parallel_comm angle v1 v2), (Rmax_comm (vlen c1)) by auto.
    replace (vlen (cross v2 (vsub c2 c1))) with (vlen (cross v1 (vsub c1 c2))); [reflexivity|].
    destruct E as [-> | ->].
    + rewrite <- vopp_len. f_equal. unfold vopp, cross, vsub. cbn [vx vy vz]. f_equal; ring.
    + f_equal. unfold vopp, cross, vsub. cbn [vx vy vz]. f_equal; ring.
Qed.
(** With axes that are only nearly parallel the cylinders may be the same in one order and
    different in the other, for all tolerances: the distance is measured from one axis. *)
Theorem C33_cylinder_symmetric_refuted : forall angle dist, 0 < angle < PI / 2 -> 0 < dist ->
  exists c1 c2 v1 v2 r, vlen v1 = 1 /\ vlen v2 = 1 /\ 0 < r /\
    is_same_cylinder false angle dist c1 v1 r c2 v2 r = true /\ is_same_cylinder false angle dist c2 v2 r c1 v1 r = false.
Proof.
  intros angle dist A D. set (e := angle / 2). assert (SE : 0 < sin e) by (apply sin_gt_0; unfold e; pose proof PI_RGT_0; lra).
  set (L := 2 * dist / sin e).
  exists vzero, (V 0 0 L), (V 0 0 1), (V (sin e) 0 (cos e)), 1.
  assert (U1 : vlen (V 0 0 1) = 1) by (unfold vlen, dot; cbn [vx vy vz]; replace (0 * 0 + 0 * 0 + 1 * 1) with 1 by ring; apply sqrt_1).
  assert (U2 : vlen (V (sin e) 0 (cos e)) = 1).
  { unfold vlen, dot; cbn [vx vy vz]. replace (sin e * sin e + 0 * 0 + cos e * cos e) with 1; [apply sqrt_1|]. pose proof (sin2_cos2 e) as S. unfold Rsqr in S. lra. }
  assert (AN : ang (V 0 0 1) (V (sin e) 0 (cos e)) = e).
  { unfold ang. rewrite U1, U2. unfold dot; cbn [vx vy vz]. replace ((0 * sin e + 0 * 0 + 1 * cos e) / (1 * 1)) with (cos e) by field. apply acos_cos. unfold e. pose proof PI_RGT_0. lra. }
  assert (PT : parallel_tol angle (V 0 0 1) (V (sin e) 0 (cos e)) = true).
  { apply parallel_true; auto; [unfold visible; rewrite U1; lra|]. left. rewrite AN. unfold e. lra. }
  assert (Z : rltb (Rabs 0) dist = true) by (unfold rltb; rewrite Rabs_R0; destruct (Rlt_dec 0 dist); [reflexivity|lra]).
  split; auto. split; auto. split; [lra|]. split.
  - unfold is_same_cylinder. rewrite !tol_fst. replace (1 - 1) with 0 by ring. rewrite Z, PT.
    replace (cross (V 0 0 1) (vsub vzero (V 0 0 L))) with vzero by (unfold cross, vsub, vzero; cbn [vx vy vz]; f_equal; ring). rewrite vlen_zero. exact Z.
  - unfold is_same_cylinder. rewrite !tol_fst. replace (1 - 1) with 0 by ring. rewrite Z, parallel_comm, PT by auto.
    assert (LL : vlen (cross (V (sin e) 0 (cos e)) (vsub (V 0 0 L) vzero)) = 2 * dist).
    { unfold vlen, dot, cross, vsub, vzero; cbn [vx vy vz].
      replace (sqrt _) with (sqrt ((2 * dist) * (2 * dist))); [apply sqrt_square; lra|]. f_equal. unfold L. field. lra. }
    rewrite LL. unfold rltb. destruct (Rlt_dec _ dist) as [Q|]; auto. rewrite Rabs_right in Q by lra. lra.
Qed.
(** With a relative tolerance two planes may be the same in one order only: the size is
    that of the second face. *)
Theorem C33_plane_relative_refuted : forall angle dist, 0 < angle <= PI -> 0 < dist ->
  exists p1 p2, good_plane p1 /\ good_plane p2 /\ is_same_plane true angle dist p1 p2 = true /\ is_same_plane true angle dist p2 p1 = false.
Proof.
  intros angle dist A D. exists (DPlane (V 0 0 1) vzero 1 1), (DPlane (V 0 0 1) (V 0 0 (2 * dist)) 4 4).
  assert (U1 : vlen (V 0 0 1) = 1) by (unfold vlen, dot; cbn [vx vy vz]; replace (0 * 0 + 0 * 0 + 1 * 1) with 1 by ring; apply sqrt_1).
  split; [exact U1|]. split; [exact U1|]. unfold is_same_plane; cbn [d_axis d_pos d_l1 d_l2]. rewrite parallel_self by (auto; lra).
  destruct (opposite_tol angle (V 0 0 1) (V 0 0 1)) eqn:O.
  { exfalso. apply opposite_true in O; auto; [|unfold visible; rewrite U1; lra]. rewrite ang_opp, ang_self in O by (auto; apply len_nz; lra). lra. }
  rewrite !tol_fst, !Rabs_Rabsolu, !Rmax_left by lra. unfold dot, vzero; cbn [vx vy vz]. unfold rltb.
  replace (0 * 0 + 0 * 0 + 1 * 0 - (0 * 0 + 0 * 0 + 1 * (2 * dist))) with (- (2 * dist)) by ring.
  replace (0 * 0 + 0 * 0 + 1 * (2 * dist) - (0 * 0 + 0 * 0 + 1 * 0)) with (2 * dist) by ring.
  rewrite Rabs_Ropp, Rabs_right by lra. destruct (Rlt_dec (2 * dist) (dist * 4)); [|lra]. destruct (Rlt_dec (2 * dist) (dist * 1)); [lra|]. auto.
Qed.

(** ** Two surfaces that are the same are close: their signed distances (negative on the
    inner side) differ by the tolerances at every point. *)
Theorem C33_signed : forall c v r ra, vlen v = 1 -> 0 < r ->
  signs (HSph c r) (sd_sphere c r) /\ signs (HCyl c v r) (sd_cyl c v r) /\ signs (HTor c v ra r r) (sd_torus c v ra r).
Proof.
  intros c v r ra V1 R0.
  assert (G : forall y, 0 <= y -> (y < r ^ 2 <-> sqrt y - r < 0) /\ (r ^ 2 < y <-> 0 < sqrt y - r)).
  { intros y Y. pose proof (sqrt_sqrt y Y) as S. pose proof (sqrt_pos y). split; split; intros; nra. }
  split; [|split]; intros x.
  - unfold neg, pos, sd_sphere, vlen. apply G. apply dot_nonneg.
  - unfold neg, pos, sd_cyl. apply G. apply SurfCardProofs.dist2_nn.
  - unfold neg, pos, sd_torus. assert (AX : 0 <= axial2 c v x) by (destruct (dist_axis c v x V1) as [_ ->]; apply pow2_ge_0).
    pose proof (pow2_ge_0 (sqrt (dist2 c v x) - ra)) as P2.
    replace (axial2 c v x / r ^ 2 + (sqrt (dist2 c v x) - ra) ^ 2 / r ^ 2) with ((axial2 c v x + (sqrt (dist2 c v x) - ra) ^ 2) / r ^ 2) by (field; lra).
    set (y := axial2 c v x + (sqrt (dist2 c v x) - ra) ^ 2). assert (Y : 0 <= y) by (unfold y; lra). destruct (G y Y) as [G1 G2]. rewrite <- G1, <- G2.
    assert (R2 : 0 < r ^ 2) by nra. assert (E : y = y / r ^ 2 * r ^ 2) by (field; lra). split; split; intros H; nra.
Qed.
Theorem C33_close_sphere : forall tol c1 r1 c2 r2 x, is_same_sphere false tol c1 r1 c2 r2 = true ->
  Rabs (sd_sphere c1 r1 x - sd_sphere c2 r2 x) < 2 * tol.
Proof.
  intros tol c1 r1 c2 r2 x H. unfold is_same_sphere, same_value, rltb, is_equal in H. destruct (Rlt_dec (Rabs (r1 - r2)) tol) as [R1|]; [|discriminate].
  destruct (Rle_dec (vlen (vsub c1 c2)) tol) as [C|]; [|discriminate].
  pose proof (rtri (vsub x c1) (vsub x c2)) as T.
  replace (vsub (vsub x c1) (vsub x c2)) with (vopp (vsub c1 c2)) in T by (unfold vopp, vsub; cbn [vx vy vz]; f_equal; ring). rewrite vopp_len in T.
  unfold sd_sphere. replace (vlen (vsub x c1) - r1 - (vlen (vsub x c2) - r2)) with ((vlen (vsub x c1) - vlen (vsub x c2)) + - (r1 - r2)) by ring.
  refine (Rle_lt_trans _ _ _ (Rabs_triang _ _) _). rewrite Rabs_Ropp. lra.
Qed.
Theorem C33_close_plane : forall angle dist p1 p2, good_plane p1 -> good_plane p2 -> is_same_plane false angle dist p1 p2 = true ->
  (forall x, Rabs (sd_plane p1 x - sd_plane p2 x) <= dist + angle * vlen x) \/
  (forall x, Rabs (sd_plane p1 x + sd_plane p2 x) <= dist + angle * vlen x).
Proof.
  intros angle dist [a1 q1 k1 k2] [a2 q2 k3 k4] P1 P2 H. unfold good_plane in *. cbn [d_axis] in *. unfold is_same_plane in H. cbn [d_axis d_pos] in H.
  destruct (parallel_tol angle a1 a2) eqn:P; [|discriminate]. rewrite tol_fst, Rabs_Rabsolu in H.
  apply parallel_pm in P; auto. unfold sd_plane; cbn [d_axis d_pos].
  pose proof (opposite_true angle a1 a2 ltac:(unfold visible; rewrite P1; lra) P2) as OP. unfold rltb in H.
  destruct (opposite_tol angle a1 a2) eqn:O.
  - right. intros x. destruct (Rlt_dec _ dist) as [L|]; [|discriminate]. pose proof (proj1 OP eq_refl) as AN.
    replace (dot a1 (vsub x q1) + dot a2 (vsub x q2)) with (dot (vsub a1 (vopp a2)) x + - (dot a1 q1 - - dot a2 q2)) by (unfold dot, vsub, vopp; cbn [vx vy vz]; ring).
    refine (Rle_trans _ _ _ (Rabs_triang _ _) _). rewrite Rabs_Ropp. pose proof (dot_len (vsub a1 (vopp a2)) x) as DL.
    pose proof (chord a1 (vopp a2) P1 ltac:(rewrite vopp_len; auto)). pose proof (vlen_nn x). nra.
  - left. intros x. destruct (Rlt_dec _ dist) as [L|]; [|discriminate].
    assert (AN : ang a1 a2 < angle). { destruct P as [P|P]; auto. apply OP in P. discriminate. }
    replace (dot a1 (vsub x q1) - dot a2 (vsub x q2)) with (dot (vsub a1 a2) x + - (dot a1 q1 - dot a2 q2)) by (unfold dot, vsub; cbn [vx vy vz]; ring).
    refine (Rle_trans _ _ _ (Rabs_triang _ _) _). rewrite Rabs_Ropp. pose proof (dot_len (vsub a1 a2) x) as DL.
    pose proof (chord a1 a2 P1 P2). pose proof (vlen_nn x). nra.
Qed.
Theorem C33_close_cylinder : forall angle dist c1 v1 r1 c2 v2 r2 x, vlen v1 = 1 -> vlen v2 = 1 ->
  is_same_cylinder false angle dist c1 v1 r1 c2 v2 r2 = true ->
  Rabs (sd_cyl c1 v1 r1 x - sd_cyl c2 v2 r2 x) < 2 * dist + angle * vlen (vsub x c2).
Proof.
  intros angle dist c1 v1 r1 c2 v2 r2 x V1 V2 H. unfold is_same_cylinder in H. rewrite !tol_fst in H. unfold rltb in H.
  destruct (Rlt_dec (Rabs (r2 - r1)) dist) as [R1|]; [|discriminate]. destruct (parallel_tol angle v1 v2) eqn:P; [|discriminate].
  destruct (Rlt_dec (Rabs (vlen _)) dist) as [L|]; [|discriminate]. rewrite Rabs_right in L by apply Rle_ge, vlen_nn.
  assert (T : Rabs (sqrt (dist2 c1 v1 x) - sqrt (dist2 c2 v2 x)) <= dist + angle * vlen (vsub x c2)).
  { apply parallel_pm in P; auto. destruct P as [P|P].
    - apply axis_close; auto; lra.
    - rewrite <- (dist2_opp c2 v2). apply axis_close; auto; try lra. rewrite vopp_len; auto. }
  unfold sd_cyl. replace (sqrt (dist2 c1 v1 x) - r1 - (sqrt (dist2 c2 v2 x) - r2)) with ((sqrt (dist2 c1 v1 x) - sqrt (dist2 c2 v2 x)) + (r2 - r1)) by ring.
  refine (Rle_lt_trans _ _ _ (Rabs_triang _ _) _). lra.
Qed.
Theorem C33_close_torus : forall angle dist c1 v1 ra1 rb1 c2 v2 ra2 rb2 x, vlen v1 = 1 -> vlen v2 = 1 ->
  is_same_torus false dist angle c1 v1 ra1 rb1 c2 v2 ra2 rb2 = true ->
  Rabs (sd_torus c1 v1 ra1 rb1 x - sd_torus c2 v2 ra2 rb2 x) < 4 * dist + 2 * angle * vlen (vsub x c2).
Proof.
  intros angle dist c1 v1 ra1 rb1 c2 v2 ra2 rb2 x V1 V2 H. unfold is_same_torus in H. destruct (parallel_tol angle v1 v2) eqn:P; [|discriminate].
  unfold rltb in H. destruct (Rlt_dec (dot v1 v2) 0) as [|DP]; [discriminate|]. unfold same_value, rltb in H.
  destruct (Rlt_dec (Rabs (ra1 - ra2)) dist) as [RA|]; [|discriminate]. destruct (Rlt_dec (Rabs (rb1 - rb2)) dist) as [RB|]; [|discriminate]. cbn [andb] in H.
  unfold is_equal in H. destruct (Rle_dec (vlen (vsub c1 c2)) dist) as [C|]; [|discriminate].
  assert (AN : ang v1 v2 <= angle).
  { apply parallel_pm in P; auto. destruct P as [P|P]; [lra|]. rewrite ang_opp in P by (apply len_nz; lra).
    assert (ang v1 v2 <= PI / 2); [|lra]. unfold ang. rewrite V1, V2. replace (dot v1 v2 / (1 * 1)) with (dot v1 v2) by field. rewrite <- acos_0.
    assert (B : -1 <= dot v1 v2 <= 1). { pose proof (cos_bound v1 v2 (len_nz v1 ltac:(lra)) (len_nz v2 ltac:(lra))) as B. rewrite V1, V2 in B. replace (dot v1 v2 / (1 * 1)) with (dot v1 v2) in B by field. exact B. }
    destruct (Req_EM_T (dot v1 v2) 0) as [-> |]; [apply Rle_refl|]. apply Rlt_le, acos_lt; lra. }
  assert (CX : vlen (cross v1 (vsub c1 c2)) <= dist). { refine (Rle_trans _ _ _ (cross_len _ _) _). rewrite V1. lra. }
  pose proof (axis_close c1 v1 c2 v2 dist angle x V1 V2 CX AN) as RHO. pose proof (vlen_nn (vsub x c2)) as L0.
  destruct (dist_axis c1 v1 x V1) as [_ A1]. destruct (dist_axis c2 v2 x V2) as [_ A2].
  set (h1 := dot v1 (vsub x c1)) in *. set (h2 := dot v2 (vsub x c2)) in *.
  assert (HH : Rabs (h1 - h2) <= dist + angle * vlen (vsub x c2)).
  { replace (h1 - h2) with (dot v1 (vopp (vsub c1 c2)) + dot (vsub v1 v2) (vsub x c2)) by (unfold h1, h2, dot, vsub, vopp; cbn [vx vy vz]; ring).
    refine (Rle_trans _ _ _ (Rabs_triang _ _) _). pose proof (dot_len v1 (vopp (vsub c1 c2))) as D1. rewrite vopp_len, V1 in D1.
    pose proof (dot_len (vsub v1 v2) (vsub x c2)) as D2. pose proof (chord v1 v2 V1 V2). nra. }
  unfold sd_torus. rewrite A1, A2. set (s1 := sqrt (dist2 c1 v1 x)) in *. set (s2 := sqrt (dist2 c2 v2 x)) in *.
  assert (E : forall h y, sqrt (h ^ 2 + y ^ 2) = vlen (V h y 0)) by (intros; unfold vlen, dot; cbn [vx vy vz]; f_equal; ring). rewrite !E.
  pose proof (rtri (V h1 (s1 - ra1) 0) (V h2 (s2 - ra2) 0)) as T.
  assert (T2 : vlen (vsub (V h1 (s1 - ra1) 0) (V h2 (s2 - ra2) 0)) <= Rabs (h1 - h2) + Rabs ((s1 - s2) + - (ra1 - ra2))).
  { replace (vsub (V h1 (s1 - ra1) 0) (V h2 (s2 - ra2) 0)) with (vadd (vscale (h1 - h2) (V 1 0 0)) (vscale ((s1 - s2) + - (ra1 - ra2)) (V 0 1 0))) by (unfold vadd, vsub, vscale; cbn [vx vy vz]; f_equal; ring).
    refine (Rle_trans _ _ _ (tri _ _) _). rewrite !vlen_scale.
    assert (U1 : vlen (V 1 0 0) = 1) by (unfold vlen, dot; cbn [vx vy vz]; replace (1 * 1 + 0 * 0 + 0 * 0) with 1 by ring; apply sqrt_1).
    assert (U2 : vlen (V 0 1 0) = 1) by (unfold vlen, dot; cbn [vx vy vz]; replace (0 * 0 + 1 * 1 + 0 * 0) with 1 by ring; apply sqrt_1). rewrite U1, U2. lra. }
  pose proof (Rabs_triang (s1 - s2) (- (ra1 - ra2))) as T3. rewrite Rabs_Ropp in T3.
  set (f1 := vlen (V h1 (s1 - ra1) 0)) in *. set (f2 := vlen (V h2 (s2 - ra2) 0)) in *.
  replace (f1 - rb1 - (f2 - rb2)) with ((f1 - f2) + - (rb1 - rb2)) by ring. refine (Rle_lt_trans _ _ _ (Rabs_triang _ _) _). rewrite Rabs_Ropp. lra.
Qed.
(** Two cones found the same are close, if one of them may be turned round. *)
Theorem C33_signed_cone : forall c v a, vlen v = 1 -> 0 < a < PI / 2 -> signs (HCone c v (tan a ^ 2) true) (sd_cone c v a).
Proof.
  intros c v a V1 A x. unfold sd_cone, neg, pos. destruct (dist_axis c v x V1) as [_ ->].
  assert (S : 0 < sin a) by (apply sin_gt_0; lra). assert (C : 0 < cos a) by (apply cos_gt_0; lra).
  pose proof (SurfCardProofs.dist2_nn c v x) as D. pose proof (sqrt_pos (dist2 c v x)) as P. pose proof (sqrt_sqrt _ D) as Q.
  set (r := sqrt (dist2 c v x)) in *. rewrite <- Q. set (h := dot v (vsub x c)).
  assert (E : forall y, 0 <= y -> (tan a * y < r <-> 0 < cos a * r - sin a * y) /\ (r < tan a * y <-> cos a * r - sin a * y < 0)).
  { intros y _. assert (T : cos a * (tan a * y) = sin a * y) by (unfold tan; field; lra). split; split; intros; nra. }
  assert (T0 : 0 < tan a) by (apply tan_gt_0; lra).
  split; split.
  - intros [L H]. specialize (H eq_refl). apply (E h); [lra|]. assert (0 < tan a * h) by nra. nra.
  - intros L. assert (H : 0 < h) by nra. apply (E h) in L; [|lra]. split; auto. assert (0 < tan a * h) by nra. nra.
  - intros [L|[_ H]]; [|nra]. destruct (Rle_dec 0 h) as [H|H]; [|assert (0 <= cos a * r) by nra; nra]. apply (E h); auto. assert (0 <= tan a * h) by nra. nra.
  - intros L. destruct (Rle_dec 0 h) as [H|H]; [|right; split; auto; lra]. left. apply (E h) in L; auto. assert (0 <= tan a * h) by nra. nra.
Qed.
Lemma cone_near c1 v1 a1 c2 v2 a2 dist angle x : vlen v1 = 1 -> vlen v2 = 1 -> 0 < a1 < PI / 2 -> 0 < a2 < PI / 2 ->
  Rabs (a1 - a2) <= angle -> vlen (vsub c1 c2) <= dist -> ang v1 v2 <= angle ->
  Rabs (sd_cone c1 v1 a1 x - sd_cone c2 v2 a2 x) <= 2 * dist + 3 * angle * vlen (vsub x c2).
Proof.
  intros V1 V2 A1 A2 A C AN. pose proof (vlen_nn (vsub x c2)) as L0.
  assert (CX : vlen (cross v1 (vsub c1 c2)) <= dist). { refine (Rle_trans _ _ _ (cross_len _ _) _). rewrite V1. lra. }
  pose proof (axis_close c1 v1 c2 v2 dist angle x V1 V2 CX AN) as RHO. unfold sd_cone.
  destruct (dist_axis c2 v2 x V2) as [D2 _].
  set (h1 := dot v1 (vsub x c1)) in *. set (h2 := dot v2 (vsub x c2)) in *.
  assert (HH : Rabs (h1 - h2) <= dist + angle * vlen (vsub x c2)).
  { replace (h1 - h2) with (dot v1 (vopp (vsub c1 c2)) + dot (vsub v1 v2) (vsub x c2)) by (unfold h1, h2, dot, vsub, vopp; cbn [vx vy vz]; ring).
    refine (Rle_trans _ _ _ (Rabs_triang _ _) _). pose proof (dot_len v1 (vopp (vsub c1 c2))) as D1. rewrite vopp_len, V1 in D1.
    pose proof (dot_len (vsub v1 v2) (vsub x c2)) as D3. pose proof (chord v1 v2 V1 V2). nra. }
  assert (W2 : vlen (V (sqrt (dist2 c2 v2 x)) h2 0) = vlen (vsub x c2)).
  { unfold vlen at 1. unfold dot; cbn [vx vy vz]. rewrite D2. unfold vlen at 1 2. rewrite sqrt_sqrt by apply dot_nonneg. rewrite cross_len2.
    assert (E : dot v2 v2 = 1) by (rewrite <- vlen_sq, V2; ring). rewrite E. unfold vlen. f_equal. unfold h2. ring. }
  set (s1 := sqrt (dist2 c1 v1 x)) in *. set (s2 := sqrt (dist2 c2 v2 x)) in *.
  set (u1 := V (cos a1) (- sin a1) 0). set (u2 := V (cos a2) (- sin a2) 0).
  assert (U : forall a, vlen (V (cos a) (- sin a) 0) = 1).
  { intros a. unfold vlen, dot; cbn [vx vy vz]. replace (cos a * cos a + - sin a * - sin a + 0 * 0) with 1; [apply sqrt_1|]. pose proof (sin2_cos2 a) as S. unfold Rsqr in S. lra. }
  assert (UU : vlen (vsub u1 u2) <= angle).
  { refine (Rle_trans _ _ _ (chord u1 u2 (U a1) (U a2)) _). unfold ang, u1, u2. rewrite (U a1), (U a2). unfold dot; cbn [vx vy vz].
    replace ((cos a1 * cos a2 + - sin a1 * - sin a2 + 0 * 0) / (1 * 1)) with (cos (Rabs (a1 - a2))).
    - rewrite acos_cos; auto. split; [apply Rabs_pos|]. apply Rabs_le. lra.
    - replace ((cos a1 * cos a2 + - sin a1 * - sin a2 + 0 * 0) / (1 * 1)) with (cos (a1 - a2)) by (rewrite cos_minus; field).
      unfold Rabs. destruct (Rcase_abs _); auto. apply cos_neg. }
  replace (cos a1 * s1 - sin a1 * h1 - (cos a2 * s2 - sin a2 * h2))
    with (dot u1 (V (s1 - s2) (h1 - h2) 0) + dot (vsub u1 u2) (V s2 h2 0)) by (unfold u1, u2, dot, vsub; cbn [vx vy vz]; ring).
  refine (Rle_trans _ _ _ (Rabs_triang _ _) _).
  pose proof (dot_len u1 (V (s1 - s2) (h1 - h2) 0)) as P1. pose proof (dot_len (vsub u1 u2) (V s2 h2 0)) as P2. unfold u1 in P1 at 2. rewrite (U a1) in P1. rewrite W2 in P2.
  assert (T2 : vlen (V (s1 - s2) (h1 - h2) 0) <= Rabs (s1 - s2) + Rabs (h1 - h2)).
  { replace (V (s1 - s2) (h1 - h2) 0) with (vadd (vscale (s1 - s2) (V 1 0 0)) (vscale (h1 - h2) (V 0 1 0))) by (unfold vadd, vscale; cbn [vx vy vz]; f_equal; ring).
    refine (Rle_trans _ _ _ (tri _ _) _). rewrite !vlen_scale.
    assert (E1 : vlen (V 1 0 0) = 1) by (unfold vlen, dot; cbn [vx vy vz]; replace (1 * 1 + 0 * 0 + 0 * 0) with 1 by ring; apply sqrt_1).
    assert (E2 : vlen (V 0 1 0) = 1) by (unfold vlen, dot; cbn [vx vy vz]; replace (0 * 0 + 1 * 1 + 0 * 0) with 1 by ring; apply sqrt_1). rewrite E1, E2. lra. }
  nra.
Qed.
Theorem C33_close_cone : forall angle dist c1 v1 a1 c2 v2 a2, vlen v1 = 1 -> vlen v2 = 1 -> 0 < a1 < PI / 2 -> 0 < a2 < PI / 2 ->
  is_same_cone false dist angle c1 v1 a1 c2 v2 a2 = true ->
  exists v, (v = v2 \/ v = vopp v2) /\
    forall x, Rabs (sd_cone c1 v1 a1 x - sd_cone c2 v a2 x) <= 2 * dist + 3 * angle * vlen (vsub x c2).
Proof.
  intros angle dist c1 v1 a1 c2 v2 a2 V1 V2 A1 A2 H. unfold is_same_cone, same_value, rltb, is_equal in H.
  destruct (Rlt_dec (Rabs (a1 - a2)) angle) as [A|]; [|discriminate]. destruct (parallel_tol angle v1 v2) eqn:P; [|discriminate].
  destruct (Rle_dec (vlen (vsub c1 c2)) dist) as [C|]; [|discriminate].
  apply parallel_pm in P; auto. destruct P as [P|P].
  - exists v2. split; auto. intros x. apply cone_near; auto; lra.
  - exists (vopp v2). split; auto. intros x. apply cone_near; auto; rewrite ?vopp_len; auto; lra.
Qed.
(** But a cone and the one in the opposite direction from the same apex are the
    same for all tolerances, although the inside of each is outside the other. *)
Theorem C33_cone_refuted : forall rel angle dist c v a, 0 < angle -> 0 < dist -> vlen v = 1 -> 0 < a < PI / 2 ->
  is_same_cone rel dist angle c v a c (vopp v) a = true /\
  neg (cad (SCone c v a)) (vadd c v) /\ pos (cad (SCone c (vopp v) a)) (vadd c v).
Proof.
  intros rel angle dist c v a A D V1 AA. split.
  - unfold is_same_cone. rewrite value_self by auto.
    assert (P : parallel_tol angle v (vopp v) = true).
    { apply parallel_true; [unfold visible; rewrite V1; lra|rewrite vopp_len; auto|]. right.
      replace (vopp (vopp v)) with v by (destruct v as [x y z]; unfold vopp; cbn [vx vy vz]; f_equal; ring). rewrite ang_self by auto. auto. }
    rewrite P. apply equal_self. destruct rel; [|lra]. rewrite Rmax_left by lra. pose proof (vlen_nn c). nra.
  - assert (V2 : dot v v = 1) by (rewrite <- vlen_sq, V1; ring). assert (T : 0 < tan a) by (apply tan_gt_0; lra).
    assert (E : vsub (vadd c v) c = v) by (destruct v as [x y z]; unfold vsub, vadd; cbn [vx vy vz]; f_equal; ring).
    cbn [cad neg pos]. unfold dist2, axial2. rewrite E. rewrite V2. split.
    + split; [|intros _; lra]. simpl. nra.
    + right. split; auto. replace (dot (vopp v) v) with (- dot v v) by (unfold dot, vopp; cbn [vx vy vz]; ring). lra.
Qed.
(** The relation is not transitive, whatever the tolerance. *)
Theorem C33_transitive_refuted : forall tol r, 0 < tol ->
  let c k := V (k * tol) 0 0 in
  is_same_sphere false tol (c 0) r (c 1) r = true /\ is_same_sphere false tol (c 1) r (c 2) r = true /\ is_same_sphere false tol (c 0) r (c 2) r = false.
Proof.
  intros tol r T c. assert (L : forall j k, vlen (vsub (c j) (c k)) = Rabs (j - k) * tol).
  { intros j k. unfold c. replace (vsub (V (j * tol) 0 0) (V (k * tol) 0 0)) with (vscale (j - k) (V tol 0 0)) by (unfold vsub, vscale; cbn [vx vy vz]; f_equal; ring).
    rewrite vlen_scale. f_equal. unfold vlen, dot; cbn [vx vy vz]. replace (tol * tol + 0 * 0 + 0 * 0) with (tol * tol) by ring. apply sqrt_square. lra. }
  unfold is_same_sphere. rewrite value_self by auto. unfold is_equal. rewrite !L.
  rewrite !Rabs_left by lra. destruct (Rle_dec (- (0 - 1) * tol) tol); [|lra]. destruct (Rle_dec (- (1 - 2) * tol) tol); [|lra]. destruct (Rle_dec (- (0 - 2) * tol) tol); [lra|]. auto.
Qed.
(** The answer logged for a fuzzy comparison is not always the answer taken. *)
Theorem C33_fuzzy_log_refuted : forall tol, 0 < tol ->
  is_in_tolerance tol tol (1/2 * tol) (2 * tol) = (false, true) /\ fuzzy_same tol tol = true.
Proof.
  intros tol T. unfold is_in_tolerance, fuzzy_same. rewrite Rabs_right by lra. destruct (Rlt_dec tol (1/2 * tol)); [lra|]. destruct (Rlt_dec tol tol); [lra|].
  destruct (Rlt_dec (2 * tol) tol); [lra|]. destruct (Rle_dec tol tol); [auto|lra].
Qed.

(** Cases: two spheres, two planes and two cylinders that differ and are the same. *)
Example C33_cases : is_same_sphere false 1 vzero 5 (V (1/2) 0 0) (11/2) = true /\
  is_same_plane false (1/10) 1 (DPlane (V 0 0 1) vzero 1 1) (DPlane (V 0 0 (-1)) (V 3 0 (1/2)) 1 1) = true.
Proof.
  split.
  - unfold is_same_sphere, same_value, rltb, is_equal. replace (5 - 11/2) with (-(1/2)) by field. rewrite Rabs_Ropp, Rabs_right by lra. destruct (Rlt_dec (1/2) 1); [|lra].
    assert (L : vlen (vsub vzero (V (1/2) 0 0)) = 1/2). { unfold vlen, dot, vsub, vzero; cbn [vx vy vz]. replace (sqrt _) with (sqrt (1/2 * (1/2))) by (f_equal; field). apply sqrt_square. lra. }
    rewrite L. destruct (Rle_dec (1/2) 1); [auto|lra].
  - assert (U1 : vlen (V 0 0 1) = 1) by (unfold vlen, dot; cbn [vx vy vz]; replace (0 * 0 + 0 * 0 + 1 * 1) with 1 by ring; apply sqrt_1).
    unfold is_same_plane; cbn [d_axis d_pos]. replace (V 0 0 (-1)) with (vopp (V 0 0 1)) by (unfold vopp; cbn [vx vy vz]; f_equal; ring).
    assert (A : ang (V 0 0 1) (vopp (vopp (V 0 0 1))) = 0). { replace (vopp (vopp (V 0 0 1))) with (V 0 0 1) by (unfold vopp; cbn [vx vy vz]; f_equal; ring). apply ang_self; auto. }
    assert (P : parallel_tol (1/10) (V 0 0 1) (vopp (V 0 0 1)) = true) by (apply parallel_true; [unfold visible; rewrite U1; lra|rewrite vopp_len; auto|right; rewrite A; lra]).
    assert (O : opposite_tol (1/10) (V 0 0 1) (vopp (V 0 0 1)) = true) by (apply opposite_true; [unfold visible; rewrite U1; lra|rewrite vopp_len; auto|rewrite A; lra]).
    rewrite P, O, tol_fst. unfold dot, vopp, vzero; cbn [vx vy vz]. rewrite Rabs_Rabsolu. unfold rltb.
    rewrite Rabs_left by lra. destruct (Rlt_dec _ 1) as [|N]; [auto|exfalso; apply N; lra].
Qed.
