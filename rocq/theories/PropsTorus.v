(** C54: the auxiliary surfaces of toroidal faces. *)
From Verif Require Import Prelude Vec3 Geom Prim PrimProofs SurfCards SurfCardSpec SurfCardProofs SameProofs.
From Verif Require Import AddPlane AddPlaneSpec AddPlaneProofs AddPlaneProofs2 AddPlaneProofs3 AddPlaneProofs4.
From Verif Require Import TorusAnnex TorusSpec TorusProofs TorusProofs2 TorusProofs3 TorusProofs4 TorusProofs5.
From Coq Require Import List Relations Permutation.
Open Scope R_scope.

(** *** The groups of faces *)

(** The toroidal faces of a solid are split into groups; when "is the same torus" is an
    equivalence and "touches" is symmetric, two faces are in the same group exactly when a chain of
    touching faces of the same torus joins them. *)
Theorem C54_groups (same near : nat -> nat -> bool) (l : list nat) :
  an_equivalence same -> (forall a b, near a b = near b a) -> NoDup l ->
  exists gs, torus_groups same near l = Ok gs /\ Permutation (concat gs) l
  /\ forall g i, In g gs -> In i g -> forall j, In j g <-> linked (fun a b => same a b && near a b) l i j.
Proof. intros H1 H2 H3. destruct (groups_classes same near l H1 H2 H3) as (gs & E & P & Cl). exists gs. auto. Qed.

(** faces 2 and 7 of one torus touch, 4 is another piece of it, 5 is on another torus *)
Example C54_groups_ex :
  torus_groups (fun a b => Bool.eqb (Nat.eqb a 5) (Nat.eqb b 5)) (fun a b => Bool.eqb (Nat.eqb a 4) (Nat.eqb b 4)) [2; 4; 5; 7]%nat
  = Ok [[2; 7]; [4]; [5]]%nat.
Proof. reflexivity. Qed.

(** *** The merged range *)

(** The ranges of the faces of a group, when they are in one turn and do not overlap, are merged
    without error.  If the merged range is said to be closed, every angle is within the tolerance of
    some face; if not, it is at most a turn long, it has every face, and when the faces together are
    one arc that leaves out at least twice the tolerance, it has nothing else. *)
Theorem C54_merge (rp : R) (ranges : list (R * R)) : 0 < rp -> ranges <> [] -> apart ranges ->
  exists closed a b, merge_periodic rp ranges = Ok (closed, (a, b)) /\
  (closed = true -> forall u, exists e, covered ranges e /\ Rabs (u - e) <= 2 * PI * rp) /\
  (closed = false -> b - a <= 2 * PI /\ (forall u, covered ranges u -> turn_between a b u) /\
     forall x y, x <= y <= x + 2 * PI - 2 * rp -> (forall u, covered ranges u <-> turn_between x y u) ->
       forall u, turn_between a b u -> covered ranges u).
Proof. apply merge_ok. Qed.

Lemma pi_b : 3 < PI <= 4.
Proof. pose proof PI2_3_2. pose proof PI_4. lra. Qed.
Ltac cmp := match goal with
  | |- context [Rlt_dec ?a ?b] => destruct (Rlt_dec a b); try lra
  | |- context [Rle_dec ?a ?b] => destruct (Rle_dec a b); try lra
  end.

Ltac rab := match goal with |- context [Rabs ?x] =>
  let H := fresh in assert (H : Rabs x = x \/ Rabs x = - x) by (unfold Rabs; destruct (Rcase_abs x); auto);
  let H' := fresh in assert (H' : 0 <= Rabs x) by apply Rabs_pos;
  let r := fresh in set (r := Rabs x) in *; clearbody r end.
Ltac mgo := repeat (try unfold rltb; (rab || cmp); cbn [last fst snd first_gap andb bind]); try (exfalso; lra); try reflexivity.

(** two faces on both sides of the seam: [0, 1] and [5, 2 pi] become [5 - 2 pi, 1] *)
Example C54_merge_ex : apart [(5, 2 * PI); (0, 1)]
  /\ merge_periodic (1 / 10 ^ 6) [(5, 2 * PI); (0, 1)] = Ok (false, (5 - 2 * PI, 1))
  /\ forall u, covered [(5, 2 * PI); (0, 1)] u <-> turn_between (5 - 2 * PI) 1 u.
Proof.
  pose proof pi_b as P. split; [|split].
  - split; [intros p [<-|[<-|[]]]; cbn; lra|]. repeat constructor; cbn; lra.
  - unfold merge_periodic. cbn [total sort_pairs insert_pair fst snd]. unfold pair_leb. cbn [fst snd]. mgo.
  - intros u. split.
    + intros (p & [<-|[<-|[]]] & z & Hz); cbn in Hz.
      * exists (z - 1)%Z. rewrite minus_IZR. lra.
      * exists z. lra.
    + intros [z Hz]. destruct (Rle_dec 0 (u + 2 * PI * IZR z)).
      * exists (0, 1). split; [right; left; auto|]. exists z. cbn. lra.
      * exists (5, 2 * PI). split; [left; auto|]. exists (z + 1)%Z. rewrite plus_IZR. cbn. lra.
Qed.

(** Without "do not overlap" both claims fail.  Two faces stacked along the tube, each half a turn
    around the axis: the lengths are added and the half torus is said to go all around. *)
Theorem C54_merge_stacked_refuted : exists ranges,
  (forall p, In p ranges -> 0 <= fst p < snd p /\ snd p <= 2 * PI)
  /\ merge_periodic (1 / 10 ^ 6) ranges = Ok (true, (0, 0 + 2 * PI))
  /\ forall u, covered ranges u <-> turn_between 0 PI u.
Proof.
  pose proof pi_b as P. exists [(0, PI); (0, PI)]. split; [|split].
  - intros p [<-|[<-|[]]]; cbn; lra.
  - unfold merge_periodic. cbn [total sort_pairs insert_pair fst snd]. unfold pair_leb. cbn [fst snd]. mgo.
  - intros u. split; [intros (p & [<-|[<-|[]]] & H); auto|]. intros H. exists (0, PI). split; [left; auto|auto].
Qed.
(** A face whose range ends inside that of another: the merged range does not have all of them. *)
Theorem C54_merge_nested_refuted : exists ranges a b u,
  (forall p, In p ranges -> 0 <= fst p < snd p /\ snd p <= 2 * PI)
  /\ merge_periodic (1 / 10 ^ 6) ranges = Ok (false, (a, b)) /\ covered ranges u /\ ~ turn_between a b u.
Proof.
  pose proof pi_b as P. exists [(0, 3); (1, 2)], 0, 2, 3. split; [|split; [|split]].
  - intros p [<-|[<-|[]]]; cbn; lra.
  - unfold merge_periodic. cbn [total sort_pairs insert_pair fst snd]. unfold pair_leb. cbn [fst snd]. mgo.
  - exists (0, 3). split; [left; auto|]. exists 0%Z. cbn. lra.
  - intros [z Hz]. assert (z = 0%Z \/ (z <= -1)%Z \/ (1 <= z)%Z) as [-> | [Q|Q]] by lia; [lra|apply IZR_le in Q; nra..].
Qed.
(** A range that goes past the full turn: two faces that make one short arc are merged into almost
    the whole turn. *)
Theorem C54_merge_past_refuted : exists p q a b u, snd p = fst q + 2 * PI /\ 0 < fst p < snd p /\ fst q < snd q
  /\ snd q + 2 * PI - fst p = 3
  /\ merge_periodic (1 / 10 ^ 6) [p; q] = Ok (false, (a, b)) /\ turn_between a b u /\ ~ covered [p; q] u.
Proof.
  pose proof pi_b as P. exists (2 * PI - 1, 2 * PI + 1), (1, 2), 1, (2 * PI + 1), 4. cbn [fst snd]. repeat split; try lra.
  - unfold merge_periodic. cbn [total sort_pairs insert_pair fst snd]. unfold pair_leb. cbn [fst snd]. mgo.
  - exists 0%Z. lra.
  - intros (p & [<-|[<-|[]]] & z & Hz); cbn in Hz.
    + assert (z <= 0 \/ 1 <= z)%Z as [Q|Q] by lia; apply IZR_le in Q; nra.
    + assert (z <= -1 \/ 0 <= z)%Z as [Q|Q] by lia; apply IZR_le in Q; nra.
Qed.

(** *** The planes around the axis *)

(** A toroidal face that goes at most half a turn around the axis gets one plane, through the
    centre: every point of the torus less than a quarter turn from the middle of the face is on its
    positive side - all of the face but for its ends when it is half a turn - and every point
    more than a quarter turn away is on its negative side.  When the range exceeds half a turn by
    less than the tolerance, the face passes the plane by no more than that. *)
Theorem C54_u_narrow f X Y A C ro ri ta tv u1 u2 vm :
  torus_face f X Y A C ro ri -> 0 < ta <= PI / 2 -> 0 < u2 - u1 < 2 * PI ->
  Rabs (u2 - u1 - PI) < tv \/ u2 - u1 < PI ->
  eps_len <= 2 * (ro + ri * cos vm) * sin ((u2 - u1) / 2) ->
  exists d, u_planes ta tv f u1 u2 vm = Ok ((C, d), None, false) /\ vlen d = 1 /\ dot d A = 0
  /\ (forall u v, (exists z : Z, Rabs (u + 2 * PI * IZR z - (u1 + u2) / 2) < PI / 2) -> 0 < side C d (torus_point X Y A C ro ri u v))
  /\ (forall u v, (exists z : Z, Rabs (u + 2 * PI * IZR z - (u1 + u2) / 2 - PI) < PI / 2) -> side C d (torus_point X Y A C ro ri u v) < 0)
  /\ (forall u v, turn_between u1 u2 u ->
        - (ro + ri * cos v) * Rmax 0 ((u2 - u1 - PI) / 2) <= side C d (torus_point X Y A C ro ri u v)).
Proof.
  intros T Hta Hu Hb He. pose proof PI_RGT_0 as PP. pose proof (half_pos _ Hu) as Sp.
  exists (polar X Y A 1 (1 / 2 * (u1 + u2))).
  destruct T as (F & HA & rr & Ef). split; [|split; [|split]].
  - apply (u_narrow_eq f X Y A C ro ri); [split; auto|auto| |]; [|rewrite (Rabs_right (sin _)) by lra; auto].
    rewrite (Rabs_right (u2 - u1)) by lra. auto.
  - unfold polar. rewrite (comb_len_polar X Y A F). apply Rabs_R1.
  - unfold polar. replace A with (vscale 1 A) at 2 by (destruct A; unfold vscale; cbn; apply vec_eq; cbn; ring).
    rewrite (comb_A X Y A F), (comb_dot X Y A F). ring.
  - assert (E : forall u v, side C (polar X Y A 1 (1 / 2 * (u1 + u2))) (torus_point X Y A C ro ri u v) = (ro + ri * cos v) * cos (u - (u1 + u2) / 2)).
    { intros u v. rewrite (polar_side X Y A C ro ri F). rewrite Rmult_1_l. f_equal. f_equal. field. }
    split; [|split]; intros u v [z Hz]; rewrite E; pose proof (tube_pos ro ri rr v) as Pv.
    + apply Rabs_def2 in Hz. rewrite <- (cos_turn (u - (u1 + u2) / 2) z). apply Rmult_lt_0_compat; auto. apply cos_gt_0; lra.
    + apply Rabs_def2 in Hz. assert (0 < cos (u + 2 * PI * IZR z - (u1 + u2) / 2 - PI)) by (apply cos_gt_0; lra).
      rewrite <- (cos_turn (u - (u1 + u2) / 2) z). assert (Q : cos (u - (u1 + u2) / 2 + 2 * PI * IZR z) = - cos (u + 2 * PI * IZR z - (u1 + u2) / 2 - PI)).
      { rewrite <- neg_cos. f_equal. ring. }
      rewrite Q. nra.
    + rewrite <- (cos_turn (u - (u1 + u2) / 2) z). replace (u - (u1 + u2) / 2 + 2 * PI * IZR z) with (u + 2 * PI * IZR z - (u1 + u2) / 2) by ring.
      set (x := u + 2 * PI * IZR z - (u1 + u2) / 2). set (h := (u2 - u1) / 2). assert (Hx : - h <= x <= h) by (unfold x, h; lra).
      assert (Q : - Rmax 0 ((u2 - u1 - PI) / 2) <= cos x).
      { destruct (Rle_dec h (PI / 2)) as [L|L].
        - assert (0 <= cos x) by (apply cos_ge_0; lra). pose proof (Rmax_l 0 ((u2 - u1 - PI) / 2)). lra.
        - assert (Ch : cos h <= cos x).
          { assert (Hh : 0 <= h <= PI) by (unfold h; lra). destruct (Rle_dec 0 x).
            - apply cos_decr_1; lra.
            - rewrite <- (cos_neg x). apply cos_decr_1; lra. }
          set (g := h - PI / 2). assert (Hg : 0 < g) by (unfold g; lra).
          assert (Eh : cos h = - sin g). { replace h with (PI / 2 + g) by (unfold g; ring). rewrite cos_plus, cos_PI2, sin_PI2. ring. }
          pose proof (sin_lt_x g Hg). replace ((u2 - u1 - PI) / 2) with g by (unfold g, h; field). rewrite Rmax_right by lra. lra. }
      nra.
Qed.

(** A face that goes further around the axis of a torus whose centre is on the coordinate axis
    through the origin: a point of the torus is on the positive side of one of the two planes exactly
    when its angle is in the range of the face.  Missing: other centres, see the refutation. *)
Theorem C54_u_wide_partial f X Y A C ro ri ta tv u1 u2 vm h :
  torus_face f X Y A C ro ri -> 0 < ta <= PI / 2 -> C = vscale h A ->
  0 < tv -> PI + tv <= u2 - u1 < 2 * PI -> eps_len <= ro + ri * cos vm ->
  exists d1 d2, u_planes ta tv f u1 u2 vm = Ok ((C, d1), Some (C, d2), true)
  /\ forall u v, (0 <= side C d1 (torus_point X Y A C ro ri u v) \/ 0 <= side C d2 (torus_point X Y A C ro ri u v))
                 <-> turn_between u1 u2 u.
Proof.
  intros T Hta HC Htv Hu He. pose proof PI_RGT_0 as PP.
  exists (polar X Y A 1 (u1 + PI / 2)), (polar X Y A (-1) (u2 + PI / 2)). split; [eapply u_wide_eq; eauto|].
  destruct T as (F & HA & rr & _). intros u v. rewrite !(polar_side X Y A C ro ri F). pose proof (tube_pos ro ri rr v) as Pv.
  assert (E1 : cos (u - (u1 + PI / 2)) = sin (u - u1)).
  { rewrite <- sin_shift, <- (sin_PI_x (u - u1)). f_equal. field. }
  assert (E2 : cos (u - (u2 + PI / 2)) = - sin (u2 - u)).
  { rewrite <- sin_neg, <- sin_shift. replace (PI / 2 - (u - (u2 + PI / 2))) with (PI - - (u2 - u)) by field. apply sin_PI_x. }
  rewrite E1, E2.
  assert (K : forall z, sin (u - u1) = sin (u + 2 * PI * IZR z - u1) /\ sin (u2 - u) = sin (u2 - (u + 2 * PI * IZR z))).
  { intros z. split; [rewrite <- (sin_turn (u - u1) z)|rewrite <- (sin_turn (u2 - u) (- z)), opp_IZR]; f_equal; ring. }
  split.
  - intros H. destruct (reduce_turn u1 u) as [z Hz]. exists z. destruct (K z) as [K1 K2]. rewrite K1, K2 in H.
    destruct (Rle_dec (u + 2 * PI * IZR z) u2) as [|N]; [lra|exfalso].
    assert (S1 : sin (u + 2 * PI * IZR z - u1) < 0) by (apply sin_lt_0; lra).
    assert (S2 : sin (u2 - (u + 2 * PI * IZR z)) < 0) by (apply sin_lt_0_var; lra). nra.
  - intros [z Hz]. destruct (K z) as [K1 K2]. rewrite K1, K2.
    destruct (Rle_dec (u + 2 * PI * IZR z) (u1 + PI)) as [L|L].
    + left. assert (0 <= sin (u + 2 * PI * IZR z - u1)) by (apply sin_ge_0; lra). nra.
    + right. assert (0 <= sin (u2 - (u + 2 * PI * IZR z))) by (apply sin_ge_0; lra). nra.
Qed.

(** a torus around the z axis with its centre at (x, 0, 0) *)
Definition ztor (x ro ri : R) : tface := TFace EZ (V x 0 0) ro (torus_point EX EY EZ (V x 0 0) ro ri).
Lemma ztor_ok x ro ri : 0 < ri < ro -> torus_face (ztor x ro ri) EX EY EZ (V x 0 0) ro ri.
Proof.
  intros H. split; [|split; [|split; [auto|reflexivity]]].
  - unfold frame, dot, cross, EX, EY, EZ. cbn. repeat split; try ring. apply vec_eq; cbn; ring.
  - unfold coordinate. cbn. auto.
Qed.
Lemma ztor_axis x ro ri ta : 0 < ta <= PI / 2 -> tor_axis ta (tf_axis (ztor x ro ri)) = Ok EZ.
Proof.
  intros H. unfold tor_axis. cbn [tf_axis ztor]. destruct exyz as (N1 & N2 & N3).
  rewrite (par_no ta EZ EX EZ), (par_no ta EZ EY EZ), (par_yes ta EZ EZ); auto; unfold unit_axis; auto; lra.
Qed.
Lemma pi_half : 1 / 10 ^ 4 <= PI / 2. Proof. pose proof pi_b. lra. Qed.
Lemma sqrt2_b : 1.4 < sqrt 2 < 1.5.
Proof.
  assert (H : sqrt 2 * sqrt 2 = 2) by (apply sqrt_sqrt; lra). pose proof (sqrt_lt_R0 2 ltac:(lra)). split; nra.
Qed.
Lemma c34 : cos (3 * (PI / 4)) = - (/ sqrt 2) /\ sin (3 * (PI / 4)) = / sqrt 2.
Proof.
  replace (3 * (PI / 4)) with (PI / 2 + PI / 4) by field. rewrite cos_plus, sin_plus, cos_PI2, sin_PI2, cos_PI4, sin_PI4.
  split; field; pose proof sqrt2_b; lra.
Qed.

Example C54_u_narrow_ex : exists d, u_planes (1 / 10 ^ 4) (1 / 10 ^ 6) (ztor 7 5 1) 0 (PI / 2) 0 = Ok ((V 7 0 0, d), None, false) /\ vlen d = 1.
Proof.
  pose proof pi_b as P. destruct (C54_u_narrow (ztor 7 5 1) EX EY EZ (V 7 0 0) 5 1 (1 / 10 ^ 4) (1 / 10 ^ 6) 0 (PI / 2) 0) as (d & H1 & H2 & _); try lra.
  - apply ztor_ok. lra.
  - replace ((PI / 2 - 0) / 2) with (PI / 4) by field. rewrite cos_0, sin_PI4. pose proof sqrt2_b.
    assert (eps_len <= 1). { unfold eps_len. rewrite <- Rinv_1. apply Rinv_le_contravar; [lra|]. apply pow_R1_Rle. lra. }
    assert (1 / 2 < 1 / sqrt 2). { apply Rmult_lt_reg_r with (sqrt 2); [lra|]. field_simplify; lra. } lra.
  - exists d. auto.
Qed.
Example C54_u_wide_ex : exists d1 d2, u_planes (1 / 10 ^ 4) (1 / 10 ^ 6) (ztor 0 5 1) 0 (3 * (PI / 2)) 0 = Ok ((V 0 0 0, d1), Some (V 0 0 0, d2), true).
Proof.
  pose proof pi_b as P. destruct (C54_u_wide_partial (ztor 0 5 1) EX EY EZ (V 0 0 0) 5 1 (1 / 10 ^ 4) (1 / 10 ^ 6) 0 (3 * (PI / 2)) 0 0) as (d1 & d2 & H & _); try lra.
  - apply ztor_ok. lra.
  - unfold vscale, EZ. cbn. apply vec_eq; cbn; ring.
  - rewrite cos_0. assert (eps_len <= 1). { unfold eps_len. rewrite <- Rinv_1. apply Rinv_le_contravar; [lra|]. apply pow_R1_Rle. lra. } lra.
  - exists d1, d2. auto.
Qed.

Lemma toward_keep d m : eps_len <= vlen d -> 0 <= dot d m -> toward d m = Ok (vscale (/ vlen d) d).
Proof.
  intros H1 H2. pose proof eps_pos as E0. unfold toward, normalize. destruct (rltb (vlen d) eps_len) eqn:E; [apply rltb_true in E; lra|]. cbn [bind].
  destruct (rltb (dot _ m) 0) eqn:L; auto. apply rltb_true in L. exfalso.
  assert (Q : dot (vscale (/ vlen d) d) m = / vlen d * dot d m) by (destruct d, m; unfold dot, vscale; cbn; ring).
  rewrite Q in L. assert (0 < / vlen d) by (apply Rinv_0_lt_compat; lra). nra.
Qed.
Lemma side_scale c k d x : side c (vscale k d) x = k * side c d x.
Proof. destruct c, d, x. unfold side, dot, vscale, vsub. cbn. ring. Qed.
Lemma eps_le1 : eps_len <= 1.
Proof. unfold eps_len. rewrite <- Rinv_1. apply Rinv_le_contravar; [lra|]. apply pow_R1_Rle. lra. Qed.
Lemma vlen_ge d x : 0 <= x -> x * x <= dot d d -> x <= vlen d.
Proof. intros H1 H2. unfold vlen. rewrite <- (sqrt_square x) by auto. apply sqrt_le_1_alt. auto. Qed.

(** Away from the coordinate axis the normals are computed from the positions of the ends and not from
    their directions seen from the centre: three quarters of a torus with centre (10, 0, 0) get two
    planes that both leave out the middle of its last quarter. *)
Theorem C54_u_wide_refuted : exists p1 n1 p2 n2 u v,
  u_planes (1 / 10 ^ 4) (1 / 10 ^ 6) (ztor 10 5 1) 0 (3 * (PI / 2)) 0 = Ok ((p1, n1), Some (p2, n2), true)
  /\ 0 < u < 3 * (PI / 2)
  /\ side p1 n1 (torus_point EX EY EZ (V 10 0 0) 5 1 u v) < 0 /\ side p2 n2 (torus_point EX EY EZ (V 10 0 0) 5 1 u v) < 0.
Proof.
  pose proof pi_b as P. pose proof pi_half as Ph. pose proof eps_le1 as E1. destruct c34 as [C3 S3]. pose proof sqrt2_b as S2.
  assert (Q2 : 0 < / sqrt 2) by (apply Rinv_0_lt_compat; lra).
  set (d1 := V 0 16 0). set (d2 := V 6 10 0).
  exists (V 10 0 0), (vscale (/ vlen d1) d1), (V 10 0 0), (vscale (/ vlen d2) d2), (PI / 4 + PI), 0.
  assert (M : vsub (tf_value (ztor 10 5 1) (1 / 2 * (0 + 3 * (PI / 2))) 0) (tf_center (ztor 10 5 1)) = V (- (6 * / sqrt 2)) (6 * / sqrt 2) 0).
  { replace (1 / 2 * (0 + 3 * (PI / 2))) with (3 * (PI / 4)) by field. cbn [tf_value tf_center ztor].
    unfold torus_point, vsub, vadd, vscale, EX, EY, EZ. cbn [vx vy vz]. rewrite C3, S3, cos_0, sin_0. apply vec_eq; cbn; ring. }
  assert (W1 : cross EZ (tf_value (ztor 10 5 1) 0 0) = d1).
  { cbn [tf_value ztor]. unfold d1, torus_point, cross, vsub, vadd, vscale, EX, EY, EZ. cbn [vx vy vz]. rewrite cos_0, sin_0. apply vec_eq; cbn; ring. }
  assert (W2 : cross EZ (tf_value (ztor 10 5 1) (3 * (PI / 2)) 0) = d2).
  { cbn [tf_value ztor]. unfold d2, torus_point, cross, vsub, vadd, vscale, EX, EY, EZ. cbn [vx vy vz].
    replace (cos (3 * (PI / 2))) with 0 by (symmetry; apply cos_3PI2). replace (sin (3 * (PI / 2))) with (-1) by (symmetry; apply sin_3PI2).
    rewrite cos_0, sin_0. apply vec_eq; cbn; ring. }
  assert (L1 : 1 <= vlen d1) by (apply vlen_ge; unfold d1, dot; cbn; lra).
  assert (L2 : 1 <= vlen d2) by (apply vlen_ge; unfold d2, dot; cbn; lra).
  split; [|split; [lra|]].
  - unfold u_planes. rewrite ztor_axis by lra. cbn [bind]. rewrite M, W1, W2.
    destruct (rltb (Rabs _) (1 / 10 ^ 6)) eqn:B1; [exfalso; apply rltb_true in B1; rewrite (Rabs_right (3 * (PI / 2) - 0)) in B1 by lra; rewrite Rabs_right in B1; lra|].
    destruct (rltb (3 * (PI / 2) - 0) PI) eqn:B2; [exfalso; apply rltb_true in B2; lra|].
    rewrite !toward_keep; try lra.
    + reflexivity.
    + unfold d2, dot. cbn. lra.
    + unfold d1, dot. cbn. lra.
  - assert (I1 : 0 < / vlen d1) by (apply Rinv_0_lt_compat; lra). assert (I2 : 0 < / vlen d2) by (apply Rinv_0_lt_compat; lra).
    assert (Pt : torus_point EX EY EZ (V 10 0 0) 5 1 (PI / 4 + PI) 0 = V (10 - 6 * / sqrt 2) (- (6 * / sqrt 2)) 0).
    { unfold torus_point, vadd, vscale, EX, EY, EZ. cbn [vx vy vz]. rewrite neg_cos, neg_sin, cos_PI4, sin_PI4, cos_0, sin_0. apply vec_eq; cbn; field; lra. }
    rewrite Pt, !side_scale. unfold side, d1, d2, dot, vsub. cbn [vx vy vz]. fold d1 d2. split; nra.
Qed.

(** *** The surface along the tube *)

(** For a concave toroidal face that does not close around the tube the added surface is a
    plane, a cylinder or a cone through both end circles of the face; the face is, strictly between its
    ends, on the side that the code reports, and the rest of the torus is on the other side.  The
    ends of the face must be told apart by the tolerance, and a cylinder is right only for a face of at
    most half a turn (see the refutation).  Missing: options.forceCylinder. *)
Theorem C54_v_partial f X Y A C ro ri ta td v1 v2 :
  torus_face f X Y A C ro ri -> 0 < ta <= PI / 2 -> 0 < td -> 0 < v2 - v1 < 2 * PI ->
  clear_cut td (ri * sin v1) (ri * sin v2) -> clear_cut td (ri * cos v1) (ri * cos v2) -> clear_cut td (ri * cos v1) 0 ->
  (cos v1 = cos v2 -> v2 - v1 <= PI) ->
  exists s inn, v_surface ta td false f v1 v2 = Ok (s, inn)
  /\ (forall u, beyond s (torus_point X Y A C ro ri u v1) = 0 /\ beyond s (torus_point X Y A C ro ri u v2) = 0)
  /\ (forall u v, v1 < v < v2 -> if inn then beyond s (torus_point X Y A C ro ri u v) < 0 else 0 < beyond s (torus_point X Y A C ro ri u v))
  /\ (forall u v, v2 < v < v1 + 2 * PI -> if inn then 0 < beyond s (torus_point X Y A C ro ri u v) else beyond s (torus_point X Y A C ro ri u v) < 0).
Proof.
  intros T Hta Htd Hv Cz Cd Cm Hc.
  destruct (v_surface_good f X Y A C ro ri ta td v1 v2 T Hta Htd Hv Cz Cd Cm Hc) as (s & inn & E & G1 & G2).
  exists s, inn. split; [auto|]. split; [auto|]. split; intros u; apply (G2 u).
Qed.

(** a quarter of the tube, from the outermost circle to the top: a cone *)
Example C54_v_ex : exists s inn, v_surface (1 / 10 ^ 4) (1 / 10 ^ 4) false (ztor 7 5 1) 0 (PI / 2) = Ok (s, inn)
  /\ (exists p a t, s = NCone p a t) /\ forall v, 0 < v < PI / 2 -> if inn then beyond s (torus_point EX EY EZ (V 7 0 0) 5 1 0 v) < 0 else 0 < beyond s (torus_point EX EY EZ (V 7 0 0) 5 1 0 v).
Proof.
  pose proof pi_b as P. pose proof pi_half as Ph.
  destruct (C54_v_partial (ztor 7 5 1) EX EY EZ (V 7 0 0) 5 1 (1 / 10 ^ 4) (1 / 10 ^ 4) 0 (PI / 2)) as (s & inn & E & _ & G & _); try lra.
  - apply ztor_ok. lra.
  - right. rewrite sin_0, sin_PI2. rewrite Rabs_left; lra.
  - right. rewrite cos_0, cos_PI2. rewrite Rabs_right; lra.
  - right. rewrite cos_0. rewrite Rabs_right; lra.
  - exists s, inn. split; auto. split; [|intros; apply G; auto].
    unfold v_surface in E. rewrite ztor_axis in E by lra. cbn [bind] in E.
    assert (F := proj1 (ztor_ok 7 5 1 ltac:(lra))).
    replace EZ with (vscale 1 EZ) in E by (unfold vscale, EZ; apply vec_eq; cbn; ring).
    cbn [tf_value tf_center tf_major ztor] in E.
    rewrite !(tor_z EX EY EZ (V 7 0 0) 5 1 F), !(tor_d EX EY EZ (V 7 0 0) 5 1 F ltac:(lra) 1) in E by auto.
    rewrite sin_0, cos_0, sin_PI2, cos_PI2 in E.
    destruct (rltb (Rabs (1 * (1 * 0) - 1 * (1 * 1))) _) eqn:B; [apply rltb_true in B; rewrite Rabs_left in B; lra|].
    destruct (rltb (Rabs (5 + 1 * 1 - (5 + 1 * 0))) _) eqn:B'; [apply rltb_true in B'; rewrite Rabs_right in B'; lra|].
    cbn [orb] in E. destruct (Req_EM_T _ 0); [discriminate|]. destruct (Req_EM_T _ 0); [discriminate|]. injection E as <- _. eauto.
Qed.

(** The cylinder: the side is read from the radius of the ends and not from the middle of the
    face, so a face of more than half a turn around the tube is put on the wrong side. *)
Theorem C54_v_wide_refuted : exists s,
  v_surface (1 / 10 ^ 4) (1 / 10 ^ 4) false (ztor 0 5 1) (- (3 * (PI / 4))) (3 * (PI / 4)) = Ok (s, true)
  /\ - (3 * (PI / 4)) < 0 < 3 * (PI / 4) /\ 0 < beyond s (torus_point EX EY EZ (V 0 0 0) 5 1 0 0).
Proof.
  pose proof pi_b as P. pose proof pi_half as Ph. destruct c34 as [C3 S3]. pose proof sqrt2_b as S2.
  assert (Q2 : 0 < / sqrt 2) by (apply Rinv_0_lt_compat; lra).
  assert (Q3 : 2 / 3 < / sqrt 2). { apply Rmult_lt_reg_r with (sqrt 2); [lra|]. rewrite Rinv_l by lra. lra. }
  assert (F := proj1 (ztor_ok 0 5 1 ltac:(lra))).
  exists (NCyl (V 0 0 0) EZ (5 + 1 * - (/ sqrt 2))). split; [|split; [lra|]].
  - unfold v_surface. rewrite ztor_axis by lra. cbn [bind].
    cbn [tf_value tf_center tf_major ztor].
    assert (EE : EZ = vscale 1 EZ) by (unfold vscale, EZ; apply vec_eq; cbn; ring).
    assert (D : forall v, vlen (cross (vsub (torus_point EX EY EZ (V 0 0 0) 5 1 0 v) (V 0 0 0)) EZ) = 5 + 1 * cos v).
    { intros v. rewrite EE at 2. apply (tor_d EX EY EZ (V 0 0 0) 5 1 F ltac:(lra) 1). auto. }
    assert (Z : forall v, dot (vsub (torus_point EX EY EZ (V 0 0 0) 5 1 0 v) (V 0 0 0)) EZ = 1 * (1 * sin v)).
    { intros v. rewrite EE at 2. apply (tor_z EX EY EZ (V 0 0 0) 5 1 F). }
    rewrite !D, !Z, cos_neg, sin_neg, C3, S3.
    destruct (rltb (Rabs (1 * (1 * - / sqrt 2) - 1 * (1 * / sqrt 2))) _) eqn:B; [apply rltb_true in B; rewrite Rabs_left in B; lra|].
    destruct (rltb (Rabs (5 + 1 * - / sqrt 2 - (5 + 1 * - / sqrt 2))) _) eqn:B'; [|apply rltb_false in B'; replace (5 + 1 * - / sqrt 2 - (5 + 1 * - / sqrt 2)) with 0 in B' by ring; rewrite Rabs_R0 in B'; lra].
    cbn [orb].
    destruct (rltb (Rabs (5 + 1 * - / sqrt 2 - 5)) _) eqn:B2; [apply rltb_true in B2; rewrite Rabs_left in B2; lra|].
    destruct (rltb (5 + 1 * - / sqrt 2) 5) eqn:B3; [|apply rltb_false in B3; lra].
    rewrite Rmax_left by lra. reflexivity.
  - cbn [beyond]. unfold off_line.
    assert (EE : EZ = vscale 1 EZ) by (unfold vscale, EZ; apply vec_eq; cbn; ring). rewrite EE at 2.
    rewrite (tor_d EX EY EZ (V 0 0 0) 5 1 F ltac:(lra) 1) by auto. rewrite cos_0. lra.
Qed.

(** With options.forceCylinder a cylinder stands for the cone; points of a face of less than half a
    turn are left outside of it although the code says inside. *)
Theorem C54_v_force_refuted : exists s,
  v_surface (1 / 10 ^ 4) (1 / 10 ^ 4) true (ztor 0 5 1) (- (2 * (PI / 3))) (PI / 6) = Ok (s, true)
  /\ - (2 * (PI / 3)) < 0 < PI / 6 /\ 0 < beyond s (torus_point EX EY EZ (V 0 0 0) 5 1 0 0).
Proof.
  pose proof pi_b as P. pose proof pi_half as Ph. 
  assert (S3 : sqrt 3 * sqrt 3 = 3) by (apply sqrt_sqrt; lra). assert (S0 : 0 < sqrt 3) by (apply sqrt_lt_R0; lra).
  assert (Sb : 1.7 < sqrt 3 < 1.8) by (split; nra).
  assert (F := proj1 (ztor_ok 0 5 1 ltac:(lra))).
  assert (EE : EZ = vscale 1 EZ) by (unfold vscale, EZ; apply vec_eq; cbn; ring).
  assert (D : forall v, vlen (cross (vsub (torus_point EX EY EZ (V 0 0 0) 5 1 0 v) (V 0 0 0)) EZ) = 5 + 1 * cos v).
  { intros v. rewrite EE at 2. apply (tor_d EX EY EZ (V 0 0 0) 5 1 F ltac:(lra) 1). auto. }
  assert (Z : forall v, dot (vsub (torus_point EX EY EZ (V 0 0 0) 5 1 0 v) (V 0 0 0)) EZ = 1 * (1 * sin v)).
  { intros v. rewrite EE at 2. apply (tor_z EX EY EZ (V 0 0 0) 5 1 F). }
  exists (NCyl (V 0 0 0) EZ (5 + 1 * (sqrt 3 / 2))). split; [|split; [lra|]].
  - unfold v_surface. rewrite ztor_axis by lra. cbn [bind tf_value tf_center tf_major ztor].
    rewrite !D, !Z, cos_neg, sin_neg, cos_2PI3, sin_2PI3, cos_PI6, sin_PI6.
    destruct (rltb (Rabs (1 * (1 * - (sqrt 3 / 2)) - 1 * (1 * (1 / 2)))) _) eqn:B; [apply rltb_true in B; rewrite Rabs_left in B; lra|].
    rewrite orb_true_r.
    destruct (rltb (Rabs (5 + 1 * (-1 / 2) - 5)) _) eqn:B2; [apply rltb_true in B2; rewrite Rabs_left in B2; lra|].
    destruct (rltb (5 + 1 * (-1 / 2)) 5) eqn:B3; [|apply rltb_false in B3; lra].
    rewrite Rmax_right by lra. reflexivity.
  - cbn [beyond]. unfold off_line. rewrite D, cos_0. lra.
Qed.

(** *** Axis and sheet *)

(** The caller accepts an axis within tolerances.angle of a coordinate axis, the two functions look
    for it with tolerances.tor_angle: between the two a variable is read before it is set. *)
Theorem C54_axis_refuted : exists A angle tor_angle, 0 < tor_angle < angle /\ vlen A = 1 /\ parallel_tol angle A EZ = true
  /\ forall C ro value tv u1 u2 vm, u_planes tor_angle tv (TFace A C ro value) u1 u2 vm = Err UnboundLocal.
Proof.
  pose proof pi_b as P. set (e := 1 / 20). set (A := V (sin e) 0 (cos e)).
  assert (LA : vlen A = 1). { unfold vlen, A, dot. cbn. pose proof (sin2_cos2 e) as Q. unfold Rsqr in Q. replace (_ + _) with 1 by lra. apply sqrt_1. }
  assert (VA : visible A) by (unfold visible; rewrite LA; lra).
  assert (AZ : ang A EZ = e).
  { rewrite ang_unit; auto; [|apply unit_len; unfold unit_axis; auto]. unfold A, dot, EZ. cbn. replace (_ + _) with (cos e) by ring. apply acos_cos. unfold e. lra. }
  assert (AX : ang A EX = PI / 2 - e).
  { rewrite ang_unit; auto; [|apply unit_len; unfold unit_axis; auto]. unfold A, dot, EX. cbn. replace (_ + _) with (sin e) by ring. rewrite <- cos_shift. apply acos_cos. unfold e. lra. }
  assert (AY : ang A EY = PI / 2).
  { rewrite ang_unit; auto; [|apply unit_len; unfold unit_axis; auto]. unfold A, dot, EY. cbn. replace (_ + _) with 0 by ring. apply acos_0. }
  assert (No : forall E, unit_axis E -> e <= ang A E <= PI / 2 -> parallel_tol (1 / 100) A E = false).
  { intros E HE HA. destruct (unit_len E HE) as (L1 & _ & _). destruct (parallel_tol (1 / 100) A E) eqn:Q; auto.
    apply parallel_true in Q; auto. rewrite ang_opp in Q by (apply len_nz; lra). unfold e in HA. lra. }
  exists A, (1 / 10), (1 / 100). split; [lra|]. split; [auto|]. split.
  - apply parallel_true; auto; [apply unit_len; unfold unit_axis; auto|]. left. rewrite AZ. unfold e. lra.
  - intros. unfold u_planes, tor_axis. cbn [tf_axis]. rewrite !No; unfold unit_axis; auto; rewrite ?AX, ?AY, ?AZ; unfold e; lra.
Qed.

(** The sheet of a torus that crosses itself, from the first vertex of the face: right whenever that
    vertex is not on the axis. *)
Theorem C54_sheet_partial X Y A C ro ri u v : frame X Y A -> 0 < ro < ri ->
  (0 < ro + ri * cos v -> degenerate_sign C ro ri (torus_point X Y A C ro ri u v) = 1)
  /\ (ro + ri * cos v <= 0 -> degenerate_sign C ro ri (torus_point X Y A C ro ri u v) = -1).
Proof.
  intros F Hr. unfold degenerate_sign.
  assert (E : vlen (vsub (torus_point X Y A C ro ri u v) C) = sqrt (ri ^ 2 - ro ^ 2 + 2 * ro * (ro + ri * cos v))).
  { rewrite (tor_rel X Y A C ro ri F). unfold vlen. rewrite (comb_dot X Y A F). f_equal.
    pose proof (sin2_cos2 u) as Q. pose proof (sin2_cos2 v) as Q'. unfold Rsqr in *.
    transitivity ((ro + ri * cos v) ^ 2 * (sin u * sin u + cos u * cos u) + ri ^ 2 * (sin v * sin v + cos v * cos v) - ri ^ 2 * (cos v * cos v)); [ring|rewrite Q, Q'; ring]. }
  rewrite E. split; intros H.
  - destruct (rltb _ _) eqn:B; auto. apply rltb_false in B. exfalso. apply sqrt_le_0 in B; nra.
  - destruct (rltb _ _) eqn:B; auto. apply rltb_true in B. exfalso. apply sqrt_lt_0_alt in B. nra.
Qed.
(** The outer sheet ends on the axis: seen from such a vertex it is taken for the inner one. *)
Theorem C54_sheet_refuted : exists ro ri v1, 0 < ro < ri /\ 0 < v1
  /\ (forall v, 0 <= v < v1 -> 0 < ro + ri * cos v)
  /\ degenerate_sign vzero ro ri (torus_point EX EY EZ vzero ro ri 0 v1) = -1.
Proof.
  pose proof pi_b as P. exists 1, 2, (2 * (PI / 3)). split; [lra|]. split; [lra|]. split.
  - intros v Hv. assert (cos (2 * (PI / 3)) < cos v) by (apply cos_decreasing_1; lra). rewrite cos_2PI3 in H. lra.
  - apply C54_sheet_partial; [apply (ztor_ok 0 5 1); lra|lra|]. rewrite cos_2PI3. lra.
Qed.
Example C54_sheet_ex : degenerate_sign vzero 1 2 (torus_point EX EY EZ vzero 1 2 0 0) = 1
  /\ degenerate_sign vzero 1 2 (torus_point EX EY EZ vzero 1 2 0 PI) = -1.
Proof.
  split; apply C54_sheet_partial; try lra; try (apply (ztor_ok 0 5 1); lra); rewrite ?cos_0, ?cos_PI; lra.
Qed.
