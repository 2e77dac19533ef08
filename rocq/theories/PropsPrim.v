(** C46 (side of a primitive surface), C47 (MCNP surface cards), C48 (GQ and SQ cards). *)
From Coq Require Import String.
From Verif Require Import Prelude Vec3 Geom GeomSpec Prim PrimSpec PrimProofs Cards CardsSpec CardsProofs
  Quadric QuadricSpec QuadricProofs.
Open Scope string_scope.
Open Scope list_scope.
Open Scope R_scope.

(** C46.  For every primitive of the kinds other than elliptic cone, hyperboloid and
    ellipsoid, and every point off the surface, [surface_side] tells the side. *)
Theorem C46_surface_side_partial : forall s x, proper s -> supported_side s ->
  (inside s x -> surface_side x s = Ok false) /\
  (outside s x -> ~ blind s x -> surface_side x s = Ok true).
Proof.
  intros s x P U. destruct (side_spec s x P U) as (A & B). split; auto. intros O N. destruct (B O); auto. contradiction.
Qed.
(** a cone of half-angle 45 degrees and a point inside it, one outside *)
Example C46_case : let s := PCone vzero (V 0 0 1) 1 false in
  proper s /\ supported_side s /\ inside s (V 0 1 2) /\ outside s (V 0 3 2) /\ ~ blind s (V 0 3 2).
Proof.
  assert (U : vlen (V 0 0 1) = 1) by (unfold vlen, dot; simpl; replace (0 * 0 + 0 * 0 + 1 * 1) with 1 by ring; apply sqrt_1).
  cbn. unfold radial2, height, dot, vsub, vzero; simpl. repeat split; auto; try lra.
Qed.

Theorem C46_elliptic_cone_refuted : exists s x, proper s /\ inside s x /\ surface_side x s = Ok true.
Proof.
  exists (PECone vzero (V 0 0 1) 1 1 1 (V 1 0 0) (V 0 1 0) true), (V (3 / 2) 0 2).
  assert (U : forall a b c, a * a + b * b + c * c = 1 -> vlen (V a b c) = 1) by (intros a b c E; unfold vlen, dot; simpl; rewrite E; apply sqrt_1).
  split; [repeat split; try apply U; lra|]. split.
  - cbn. unfold height, dot, vsub, vzero; simpl. split; [lra|auto].
  - cbn [surface_side]. rewrite !rdiv_ok by lra. cbn [bind]. f_equal. apply rltb_true. unfold rsq, dot, vsub, vzero; simpl.
    replace ((3 / 2 - 0) * 0 + (0 - 0) * 0 + (2 - 0) * 1) with 2 by field. rewrite Rabs_pos_eq by lra. lra.
Qed.
Theorem C46_hyperboloid_refuted : exists s x, proper s /\ inside s x /\ surface_side x s = Ok true.
Proof.
  exists (PHyper (V 10 0 0) (V 0 0 1) 1 1 (V 1 0 0) (V 0 0 1) true), (V 10 0 0).
  assert (U : forall a b c, a * a + b * b + c * c = 1 -> vlen (V a b c) = 1) by (intros a b c E; unfold vlen, dot; simpl; rewrite E; apply sqrt_1).
  split; [repeat split; try apply U; lra|]. split.
  - cbn [inside]. unfold radial2, height, dot, vsub; simpl. lra.
  - cbn [surface_side]. rewrite !rdiv_ok by lra. cbn [bind]. unfold rsq.
    set (k := dot _ _ / 1). assert (K : k = 0) by (unfold k, dot, vsub; simpl; field). rewrite K.
    replace (0 * 0 + 1) with 1 by ring. destruct (Rlt_dec 0 1); [|lra]. f_equal. apply rltb_true. rewrite sqrt_1.
    set (w := vsub _ _). assert (1 < vlen w); [|lra]. apply len_gt; [lra|]. unfold w, dot, vsub, vadd, vscale; simpl. lra.
Qed.
(** an ellipsoid has no side test: every inner point raises *)
Theorem C46_ellipsoid_refuted : forall c v r0 r1 a0 a1 x, proper (PEllip c v r0 r1 a0 a1) -> v = a0 ->
  inside (PEllip c v r0 r1 a0 a1) x -> surface_side x (PEllip c v r0 r1 a0 a1) = Err TypeError.
Proof.
  intros c v r0 r1 a0 a1 x (V1 & _ & _ & _ & R0 & R1) -> (I & _). specialize (I eq_refl). apply vlen_unit in V1.
  pose proof (radial2_nonneg c a0 x V1) as RN. cbn [surface_side].
  assert (E : vlen (vadd a0 (vopp a0)) = 0). { unfold vlen. replace (dot _ _) with 0 by (unfold dot, vadd, vopp; simpl; ring). apply sqrt_0. }
  rewrite E. assert (P : 0 < 1 / 10 ^ 5) by (apply Rmult_lt_0_compat; [lra|apply Rinv_0_lt_compat, pow_lt; lra]).
  destruct (Rlt_dec 0 (1 / 10 ^ 5)); [|contradiction]. rewrite rdiv_ok by lra. cbn [bind]. fold (height c a0 x).
  destruct (Rlt_dec _ _) as [L|L]; [reflexivity|]. exfalso. apply L. rewrite rsq_pow. unfold Rdiv at 1. rewrite Rpow_mult_distr, pow_inv.
  assert (0 <= radial2 c a0 x / r1 ^ 2). { apply Rmult_le_pos; auto. left. apply Rinv_0_lt_compat, pow_lt; auto. }
  unfold Rdiv in *. lra.
Qed.
Example C46_ellipsoid_case : exists c v r0 r1 a0 a1 x, proper (PEllip c v r0 r1 a0 a1) /\ v = a0 /\ inside (PEllip c v r0 r1 a0 a1) x.
Proof.
  assert (U : forall a b c, a * a + b * b + c * c = 1 -> vlen (V a b c) = 1) by (intros a b c E; unfold vlen, dot; simpl; rewrite E; apply sqrt_1).
  exists vzero, (V 0 0 1), 1, 2, (V 0 0 1), (V 1 0 0), vzero. split; [|split; auto].
  - repeat split; auto; try apply U; lra.
  - split; intros; [|contradiction]. unfold height, radial2, height, dot, vsub, vzero; simpl. lra.
Qed.
(** the apex of a truncated cone raises, a point beyond the end of an elliptic can on its
    extended side is taken as inside *)
Theorem C46_blind_refuted :
  (exists s x, proper s /\ outside s x /\ surface_side x s = Err ValueError) /\
  (exists s x, proper s /\ outside s x /\ surface_side x s = Ok false).
Proof.
  assert (U : forall a b c, a * a + b * b + c * c = 1 -> vlen (V a b c) = 1) by (intros a b c E; unfold vlen, dot; simpl; rewrite E; apply sqrt_1).
  split.
  - exists (PTCone vzero (V 0 0 1) 2 1), (V 0 0 2). split; [split; [apply nz_unit, U; lra|lra]|]. split.
    + right. right. unfold dot, vsub, vzero; simpl. lra.
    + cbn [surface_side]. rewrite rdiv_ok by lra. cbn [bind]. unfold normalize. destruct (Req_EM_T _ 0) as [E|E]; [reflexivity|]. exfalso. apply E.
      apply vlen_eq0. unfold dot, vsub, vadd, vscale, vzero; simpl. field.
  - exists (PECan vzero (V 0 0 1) 1 1 (V 1 0 0) (V 0 1 0)), (V 1 0 5). split; [repeat split; try apply U; try (apply nz_unit, U); lra|]. split.
    + right. right. unfold dot, vsub, vzero; simpl. lra.
    + cbn [surface_side]. rewrite !rdiv_ok by lra. cbn [bind]. f_equal. unfold rsq, dot, vsub, vzero; simpl.
      rewrite (proj2 (rltb_false _ 0)) by lra. apply rltb_false. lra.
Qed.

(** C47.  A deck of legal surface cards, possibly transformed: the surfaces that are
    built have the two sides of the cards (card in cm, surface in mm, and a card with a
    TR describes the points in the auxiliary system). *)
Theorem C47_surface_cards_partial : forall cards : list (mcnp * option trcard), Forall handled cards ->
  exists deck surfs, mapM in_deck cards = Ok deck /\
    get_primitive_surfaces deck = Ok (map (fun s => Some (Some s)) surfs) /\
    Forall2 (fun q s => forall y,
      (neg (fst q) y <-> inside s (main_mm (snd q) y)) /\ (pos_ (fst q) y <-> outside s (main_mm (snd q) y)) /\
      (neg (fst q) y -> surface_side (main_mm (snd q) y) s = Ok false) /\
      (pos_ (fst q) y -> ~ blind s (main_mm (snd q) y) -> surface_side (main_mm (snd q) y) s = Ok true)) cards surfs.
Proof.
  intros cards H. destruct (deck_total cards) as (ds & E). destruct (deck_loop cards ds (Loc None None) [] H E) as (ss & P & F).
  exists ds, ss. split; auto. split; [exact P|]. clear - F. induction F as [|q s qs ss (A & B & C) F IH]; constructor; auto.
  intros y. destruct (C y) as (I1 & O1). destruct (C46_surface_side_partial s (main_mm (snd q) y) A B) as (S1 & S2). tauto.
Qed.
(** a rotated and displaced cylinder, a one-sheet cone and a truncated cone *)
Definition quarter : trcard := Tr (V 1 2 3) (V 0 1 0, V (-1) 0 0, V 0 0 1) None.
Example C47_case : Forall handled [(MCP AZ 1 2 3, Some quarter); (MK AX 5 4 (Some (-1)), None); (MTRC vzero (V 0 0 4) 3 1, Some quarter); (MX2 AY 0 1 2 3, None)].
Proof.
  assert (Q : tr_legal quarter /\ tr_m quarter <> Some (-1)).
  { unfold tr_legal, quarter, orthonormal, dot; cbn [tr_b tr_m vx vy vz]. repeat split; auto; try lra. discriminate. }
  assert (N : V 0 0 4 <> vzero) by (intros E; injection E; lra).
  repeat (apply Forall_cons || apply Forall_nil); unfold handled; cbn [fst snd legal read_well moved_well]; repeat split; try tauto; try apply Q; try lra.
  unfold eps12. rewrite Rabs_left by lra. apply (Rmult_lt_reg_r (10 ^ 12)); [apply pow_lt; lra|]. replace (1 / 10 ^ 12 * 10 ^ 12) with 1 by (field; apply pow_nonzero; lra).
  simpl. lra.
Qed.
(** the nine cosines of the theorem above are the matrix: displacement and rotation *)
Theorem C47_transformation : forall t M, get_trans_matrix (tr_nums t) false = Ok M -> tr_m t <> Some (-1) ->
  forall y, mult_vec M (vscale 10 y) = vscale 10 (tr_place t y).
Proof. intros t M E N y. apply (tr_mult t M y E N). Qed.
Example C47_transformation_case : exists M, get_trans_matrix (tr_nums quarter) false = Ok M /\ tr_m quarter <> Some (-1) /\ tr_place quarter (V 1 0 0) = V 1 3 3.
Proof. eexists. split; [reflexivity|]. split; [discriminate|]. unfold tr_place, placed, quarter, tr_rows, vadd; cbn. f_equal; ring. Qed.

(** the plane 2 z = 4 displaced by (0,0,1): should be z = 3 cm, is z = 9 cm *)
Definition lift : matrix := Mat (V 1 0 0) (V 0 1 0) (V 0 0 1) (V 0 0 10).
Theorem C47_plane_normal_refuted : exists s, get_trans_matrix [0; 0; 1] false = Ok (Mat (V 1 0 0) (V 0 1 0) (V 0 0 1) (V (0 * 10) (0 * 10) (1 * 10))) /\
  get_primitive_surfaces [(written (MP 0 0 2 4), Some lift)] = Ok [Some (Some s)] /\
  ~ neg (MP 0 0 2 4) (V 0 0 4) /\ inside s (mult_vec lift (V 0 0 40)).
Proof.
  exists (PPlane (V 0 0 1) 90). split; [reflexivity|]. split; [|split].
  - unfold get_primitive_surfaces. cbn [primitives written read_card app List.length]. unfold keep. cbn [bind rd_prim apply_tr transform].
    assert (L : vlen (rotv lift (V 0 0 2)) = 2).
    { unfold vlen, rotv, lift, dot, vadd, vscale; cbn. replace (_ + _ + _) with (2 * 2) by ring. apply sqrt_square. lra. }
    unfold normalize. rewrite L. destruct (Req_EM_T 2 0); [lra|]. cbn [bind hit app primitives rd_hit]. do 4 f_equal.
    assert (E : vscale (/ 2) (rotv lift (V 0 0 2)) = V 0 0 1) by (apply vec_eq; unfold vscale, rotv, lift, vadd; cbn; field).
    rewrite E. f_equal. unfold dot, mult_vec, rotv, lift, vadd, vscale, scale; cbn. ring.
  - cbn. lra.
  - cbn. unfold dot, mult_vec, rotv, lift, vadd, vscale; cbn. lra.
Qed.
(** a displaced RPP: its edges are displaced too *)
Theorem C47_box_refuted : exists s, get_primitive_surfaces [(written (MRPP 0 1 0 1 0 1), Some lift)] = Ok [Some (Some s)] /\
  ~ neg (MRPP 0 1 0 1 0 1) (V (1 / 2) (1 / 2) (6 / 5)) /\ inside s (mult_vec lift (V 5 5 12)).
Proof.
  exists (PBox (V 0 0 10) (V 10 0 10) (V 0 10 10) (V 0 0 20)). split; [|split].
  - unfold get_primitive_surfaces. cbn [primitives written read_card app List.length]. unfold with_p. cbn [bind rd_prim apply_tr transform hit app primitives rd_hit].
    do 4 f_equal. f_equal; apply vec_eq; unfold mult_vec, rotv, lift, vadd, vscale, scale; cbn; ring.
  - cbn. lra.
  - cbn. unfold slab, dot, mult_vec, rotv, lift, vadd, vsub, vscale; cbn. lra.
Qed.
(** a cylinder given by two points: it fails when it comes first; after another cylinder
    it moves that one (1, 2) -> (10, 20) cm, and its own radius is in mm *)
Theorem C47_point_cylinder_refuted :
  get_primitive_surfaces [(written (MX2 AZ 0 5 10 5), None)] = Err UnboundLocal /\
  exists s t, get_primitive_surfaces [(written (MCP AZ 1 2 3), None); (written (MX2 AZ 0 5 10 5), None)] = Ok [Some (Some s); Some (Some t)] /\
    neg (MCP AZ 1 2 3) (V 1 2 0) /\ ~ inside s (V 10 20 0) /\ neg (MX2 AZ 0 5 10 5) (V 4 0 0) /\ ~ inside t (V 40 0 0).
Proof.
  assert (P : 0 < eps12) by (unfold eps12; apply Rmult_lt_0_compat; [lra|apply Rinv_0_lt_compat, pow_lt; lra]).
  assert (E1 : rltb eps12 (Rabs (5 - 5)) = false) by (apply rltb_false; rewrite Rminus_diag_eq, Rabs_R0 by auto; lra).
  assert (E2 : rltb (Rabs 5) eps12 = false).
  { apply rltb_false. rewrite Rabs_pos_eq by lra. unfold eps12. apply (Rmult_le_reg_r (10 ^ 12)); [apply pow_lt; lra|]. replace (1 / 10 ^ 12 * 10 ^ 12) with 1 by (field; apply pow_nonzero; lra). simpl. lra. }
  assert (U : vlen Z_vec = 1) by apply (uax_len AZ).
  split.
  - unfold get_primitive_surfaces. cbn [primitives written letter read_card points_read]. rewrite E1, E2. reflexivity.
  - exists (PCyl (vscale 10 (vscale 10 (V 1 2 0))) Z_vec (3 * 10)), (PCyl vzero Z_vec 5). split.
    + unfold get_primitive_surfaces. cbn [primitives written letter String.append read_card points_read List.length cyl_read bind rd_prim apply_tr rd_hit rd_loc unshare hit app]. unfold points_read. rewrite E1, E2. reflexivity.
    + cbn [neg inside]. unfold radial2, height, dot, vsub, vscale, line2, vzero, Z_vec; cbn. repeat split; lra.
Qed.
(** a cone of the card Z through a point of the axis gives a surface without parameters *)
Theorem C47_point_cone_refuted : get_primitive_surfaces [(written (MX2 AZ 0 0 1 1), None)] = Ok [Some None].
Proof.
  assert (E1 : rltb eps12 (Rabs (0 - 1)) = true).
  { apply rltb_true. rewrite Rabs_left by lra. unfold eps12. apply (Rmult_lt_reg_r (10 ^ 12)); [apply pow_lt; lra|]. replace (1 / 10 ^ 12 * 10 ^ 12) with 1 by (field; apply pow_nonzero; lra). simpl. lra. }
  unfold get_primitive_surfaces. cbn [primitives written letter read_card points_read List.length]. rewrite E1.
  rewrite rdiv_ok by lra. cbn [bind]. rewrite rdiv_ok by lra. cbn [bind].
  assert (E2 : rltb 0 ((0 - (0 - 0 / ((1 - 0) / (1 - 0)))) * (1 - (0 - 0 / ((1 - 0) / (1 - 0))))) = false).
  { apply rltb_false. replace (0 / ((1 - 0) / (1 - 0))) with 0 by (field; lra). lra. }
  rewrite E2. reflexivity.
Qed.
(** a TR with m = -1 is read as one with m = 1; a TR with two cosine vectors fails *)
Theorem C47_tr_refuted :
  (exists M, let t := Tr (V 1 0 0) (V 0 1 0, V (-1) 0 0, V 0 0 1) (Some (-1)) in
     tr_legal t /\ get_trans_matrix (tr_nums t) false = Ok M /\ mult_vec M vzero <> vscale 10 (tr_place t vzero)) /\
  (forall o b1 b2, get_trans_matrix (nums o ++ nums b1 ++ nums b2) false = Err TypeError).
Proof.
  split; [|reflexivity]. eexists. cbn zeta. split; [|split; [reflexivity|]].
  - unfold tr_legal, orthonormal, dot; cbn. repeat split; auto; lra.
  - unfold tr_place, placed. cbn [tr_m tr_o tr_b]. destruct (Req_EM_T (-1) (-1)); [|lra]. cbn. unfold mult_vec, rotv, tr_rows, vadd, vsub, vscale, vzero, scale; cbn.
    intros E. injection E. lra.
Qed.

(** C48.  GQ and SQ: for every card whose quadratic part is diagonalised by the result of
    eigh, the elliptic, circular and hyperbolic cylinders with a negative axis and the
    hyperboloids of revolution keep both sides. *)
Theorem C48_gq_partial : forall q g i, eig_of q g -> central q g -> separated g -> (i < 3)%nat ->
  cylindrical q g i \/ hyperbolic q g i ->
  exists s, gq_primitive q g = QPrim s /\ proper s /\ same_sides q s.
Proof.
  intros q g i D C S L [Y|Y].
  - destruct (cylinder_read q g i D C S L Y) as (s & A & B & _ & E). eauto.
  - apply (hyperboloid_read q g i); auto.
Qed.
Theorem C48_sq : forall a b c d e f g x0 y0 z0 x, qval (sq2gq a b c d e f g x0 y0 z0) x = sqval a b c d e f g x0 y0 z0 x.
Proof. exact sq_ok. Qed.

(** x2 + y2 = 4, with its eigenvalues in increasing order *)
Definition zxy (e0 e1 e2 : R) : eig :=
  Eig (fun i => match i with 0 => e0 | 1 => e1 | _ => e2 end%nat) (fun i => match i with 0 => V 0 0 1 | 1 => V 0 1 0 | _ => V 1 0 0 end%nat).
Definition round_q (e f k : R) : gq := GQ e e f 0 0 0 0 0 0 k.
Lemma zxy_eig e f k : eig_of (round_q e f k) (zxy f e e).
Proof. split; [unfold orthonormal, dot; cbn; lra|]. intros x. unfold quad, sum3, dot, round_q, zxy; cbn. ring. Qed.
Lemma zxy_xd e f k i : xd (round_q e f k) (zxy f e e) i = 0.
Proof. unfold xd, round_q, zxy; cbn. destruct i as [|[|i]]; unfold dot; cbn; field. Qed.
Lemma zxy_k e f k : kval (round_q e f k) (zxy f e e) = k.
Proof. unfold kval, sum3, td0. rewrite !zxy_xd. cbn. ring. Qed.
Lemma big x : 1 <= Rabs x -> 1 / 10 ^ 8 <= Rabs x /\ 1 / 10 ^ 5 <= Rabs x.
Proof.
  intros H. assert (A : forall n, 1 / 10 ^ n <= 1). { intros n. apply (Rmult_le_reg_r (10 ^ n)); [apply pow_lt; lra|]. replace (1 / 10 ^ n * 10 ^ n) with 1 by (field; apply pow_nonzero; lra). rewrite Rmult_1_l. apply pow_R1_Rle. lra. }
  pose proof (A 8%nat). pose proof (A 5%nat). lra.
Qed.
Lemma abs1 a : 1 <= a \/ a <= -1 -> 1 <= Rabs a. Proof. intros [H|H]; [rewrite Rabs_pos_eq by lra|rewrite Rabs_left by lra]; lra. Qed.
Example C48_case : exists q g, eig_of q g /\ central q g /\ separated g /\ cylindrical q g 0.
Proof.
  exists (round_q 1 0 (-4)), (zxy 0 1 1). split; [apply zxy_eig|]. split.
  - intros i _. rewrite zxy_xd. destruct i as [|[|i]]; cbn; [auto|right|right]; apply big; apply abs1; lra.
  - split.
    + intros i j _ _. destruct i as [|[|i]], j as [|[|j]]; cbn; auto; right; apply big; apply abs1; lra.
    + unfold cylindrical. rewrite zxy_k. cbn. lra.
Qed.
(** a one-sheet hyperboloid *)
Example C48_case_hyperboloid : exists q g, eig_of q g /\ central q g /\ separated g /\ hyperbolic q g 0.
Proof.
  exists (round_q 1 (-1) (-4)), (zxy (-1) 1 1). split; [apply zxy_eig|]. split.
  - intros i _. right. destruct i as [|[|i]]; cbn; apply big; apply abs1; lra.
  - split.
    + intros i j _ _. destruct i as [|[|i]], j as [|[|j]]; cbn; auto; right; apply big; apply abs1; lra.
    + unfold hyperbolic. rewrite zxy_k. cbn [zxy ev nx nx2]. unfold nx2; cbn [nx]. repeat split; try lra.
      replace (-4 / 1) with (-4) by field. rewrite Rabs_left by lra. lra.
Qed.

Lemma zxy_central e f k : (1 <= Rabs e) -> (f = 0 \/ 1 <= Rabs f) -> central (round_q e f k) (zxy f e e).
Proof.
  intros E F i _. rewrite zxy_xd. destruct i as [|[|i]]; cbn; [|right; apply big; auto|right; apply big; auto].
  destruct F as [->|F]; [auto|right; apply big; auto].
Qed.
Lemma small_big x : 1 <= Rabs x -> rltb (Rabs x) (1 / 10 ^ 5) = false.
Proof. intros H. apply rltb_false, big, H. Qed.
Lemma zxy_axis e f : 1 <= Rabs (f - e) -> gq_axis_index (zxy f e e) = 0%nat.
Proof.
  intros H. unfold gq_axis_index; cbn [zxy ev]. rewrite small_big by auto. rewrite (proj2 (rltb_true _ _)); auto.
  rewrite Rminus_diag_eq, Rabs_R0 by auto. apply eps5.
Qed.
(** the card with the opposite sign has the same sides: - (x2 + y2) + 4 is read as x2 + y2 - 4 *)
Theorem C48_sense_refuted : exists q g s, eig_of q g /\ central q g /\ separated g /\ gq_primitive q g = QPrim s /\
  0 < qval q vzero /\ inside s (vscale 10 vzero).
Proof.
  exists (round_q (-1) 0 4), (zxy 0 (-1) (-1)), (PCyl (vscale 10 (centre (zxy 0 (-1) (-1)) (td0 (round_q (-1) 0 4) (zxy 0 (-1) (-1))))) (V 0 0 1) (2 * 10)).
  assert (C : central (round_q (-1) 0 4) (zxy 0 (-1) (-1))) by (apply zxy_central; [apply abs1; lra|auto]).
  split; [apply zxy_eig|]. split; auto. split.
  { intros i j _ _. destruct i as [|[|i]], j as [|[|j]]; cbn; auto; right; apply big; apply abs1; lra. }
  split; [|split].
  - unfold gq_primitive. rewrite (gq_conic _ _ C). unfold conic. rewrite zxy_axis by (apply abs1; lra). rewrite zxy_k.
    unfold gq_kind. cbn [zxy ev nx nx2]. unfold nx2; cbn [nx]. destruct (Req_EM_T 4 0); [lra|]. rewrite (sgn_pos 4), (sgn_neg (-1)) by lra. cbn [Z.eqb].
    destruct (Req_EM_T 0 0); [|contradiction]. unfold get_cylinder, nx2. cbn [zxy ev vv nx].
    assert (Z : Rabs (-1 - -1) = 0) by (rewrite Rminus_diag_eq, Rabs_R0; auto). rewrite Z. pose proof eps5. destruct (Rlt_dec 0 (1 / 10 ^ 5)); [|contradiction].
    cbn [mm]. do 2 f_equal. f_equal. replace (- (4) / -1) with (2 * 2) by field. apply sqrt_square. lra.
  - unfold qval, quad, round_q, vzero; cbn. lra.
  - cbn [inside]. assert (E : forall T, T = vzero -> radial2 (vscale 10 T) (V 0 0 1) (vscale 10 vzero) < (2 * 10) ^ 2).
    { intros T ->. unfold radial2, height, dot, vsub, vscale, vzero; cbn. lra. }
    apply E. unfold centre, vsum3, td0. rewrite !zxy_xd. apply vec_eq; unfold vadd, vscale, vzero; cbn; ring.
Qed.
(** x2 + y2 - 4 z2 = 0 becomes the cone of tangent 1/2 instead of 2 *)
Theorem C48_cone_refuted : exists q g s, eig_of q g /\ central q g /\ separated g /\ gq_primitive q g = QPrim s /\
  qval q (V 1 0 1) < 0 /\ ~ inside s (vscale 10 (V 1 0 1)).
Proof.
  exists (round_q 1 (-4) 0), (zxy (-4) 1 1), (PCone (vscale 10 (centre (zxy (-4) 1 1) (td0 (round_q 1 (-4) 0) (zxy (-4) 1 1)))) (V 0 0 1) (1 / 2) true).
  assert (C : central (round_q 1 (-4) 0) (zxy (-4) 1 1)) by (apply zxy_central; [apply abs1; lra|right; apply abs1; lra]).
  split; [apply zxy_eig|]. split; auto. split.
  { intros i j _ _. destruct i as [|[|i]], j as [|[|j]]; cbn; auto; right; apply big; apply abs1; lra. }
  split; [|split].
  - unfold gq_primitive. rewrite (gq_conic _ _ C). unfold conic. rewrite zxy_axis by (apply abs1; lra). rewrite zxy_k.
    unfold gq_kind. cbn [zxy ev nx nx2]. unfold nx2; cbn [nx]. destruct (Req_EM_T 0 0); [|contradiction]. destruct (Req_EM_T (-4) 0); [lra|].
    rewrite (sgn_pos 1), (sgn_neg (-4)) by lra. cbn [Z.eqb andb]. unfold get_cone, nx2. cbn [zxy ev vv nx].
    assert (Z : Rabs (1 - 1) = 0) by (rewrite Rminus_diag_eq, Rabs_R0; auto). rewrite Z. pose proof eps5. destruct (Rlt_dec 0 (1 / 10 ^ 5)); [|contradiction].
    cbn [mm]. do 2 f_equal. replace (- (1) / -4) with (1 / 2 * (1 / 2)) by field. apply sqrt_square. lra.
  - unfold qval, quad, round_q; cbn. lra.
  - cbn [inside]. assert (E : forall T, T = vzero -> ~ (radial2 (vscale 10 T) (V 0 0 1) (vscale 10 (V 1 0 1)) < (1 / 2) ^ 2 * height (vscale 10 T) (V 0 0 1) (vscale 10 (V 1 0 1)) ^ 2 /\
      (true = true \/ 0 < height (vscale 10 T) (V 0 0 1) (vscale 10 (V 1 0 1))))).
    { intros T ->. unfold radial2, height, dot, vsub, vscale, vzero; cbn. lra. }
    apply E. unfold centre, vsum3, td0. rewrite !zxy_xd. apply vec_eq; unfold vadd, vscale, vzero; cbn; ring.
Qed.
(** the unit sphere becomes an ellipsoid whose axis is a number *)
Theorem C48_sphere_refuted : exists q g, eig_of q g /\ central q g /\ separated g /\
  (forall x, qval q x = vx x ^ 2 + vy x ^ 2 + vz x ^ 2 - 1) /\ forall s, gq_primitive q g <> QPrim s.
Proof.
  exists (round_q 1 1 (-1)), (zxy 1 1 1).
  assert (C : central (round_q 1 1 (-1)) (zxy 1 1 1)) by (apply zxy_central; [apply abs1; lra|right; apply abs1; lra]).
  split; [apply zxy_eig|]. split; auto. split.
  { intros i j _ _. left. destruct i as [|[|i]], j as [|[|j]]; reflexivity. }
  split; [intros x; unfold qval, quad, round_q; cbn; ring|].
  intros s. unfold gq_primitive. rewrite (gq_conic _ _ C). unfold conic.
  assert (Z : Rabs (1 - 1) = 0) by (rewrite Rminus_diag_eq, Rabs_R0; auto). pose proof eps5.
  assert (A : gq_axis_index (zxy 1 1 1) = 2%nat). { unfold gq_axis_index; cbn [zxy ev]. rewrite Z, (proj2 (rltb_true _ _) H). reflexivity. }
  rewrite A, zxy_k. unfold gq_kind. cbn [zxy ev nx nx2]. unfold nx2; cbn [nx]. destruct (Req_EM_T (-1) 0); [lra|]. destruct (Req_EM_T 1 0); [lra|].
  rewrite (sgn_pos 1), (sgn_neg (-1)) by lra. cbn [Z.eqb andb Pos.eqb]. unfold get_ellipsoid. cbn [zxy ev].
  rewrite Z. assert (E3 : 0 < 1 / 10 ^ 3) by (apply Rmult_lt_0_compat; [lra|apply Rinv_0_lt_compat, pow_lt; lra]). rewrite (proj2 (rltb_true _ _) E3). cbn [nx].
  destruct (Rlt_dec 1 1); [lra|]. set (r := sqrt _). assert (R : 0 < r) by (apply rad_pos; lra).
  assert (Q : rltb (10 ^ 3) (r / r) = false). { apply rltb_false. replace (r / r) with 1 by (field; lra). simpl. lra. }
  rewrite Q. discriminate.
Qed.
(** x2 + y2 - 4 z = 0 becomes the paraboloid that opens to the other side *)
Theorem C48_paraboloid_refuted : exists q g s, eig_of q g /\ separated g /\ gq_primitive q g = QPrim s /\
  qval q (V 0 0 1) < 0 /\ outside s (vscale 10 (V 0 0 1)).
Proof.
  set (q := GQ 1 1 0 0 0 0 0 0 (-4) 0). set (g := zxy 0 1 1).
  assert (X0 : xd q g 0 = -2) by (unfold xd, q, g, dot; cbn; field).
  assert (X1 : forall i, xd q g (S i) = 0) by (intros i; unfold xd, q, g, dot; destruct i; cbn; field).
  assert (K : kval q g = 0). { unfold kval, sum3, td0. rewrite X0, !X1. cbn [g zxy ev]. unfold small. rewrite Rabs_R0, (proj2 (rltb_true _ _) eps8). cbn. ring. }
  exists q, g, (PPara (vscale 10 (centre g (fun i => if Nat.eqb i 0 then - 0 / (2 * -2) else td0 q g i))) (vopp (V 0 0 1)) (1 * 10)).
  split. { split; [unfold orthonormal, dot; cbn; lra|]. intros x. unfold quad, sum3, dot, q, g; cbn. ring. }
  split. { intros i j _ _. destruct i as [|[|i]], j as [|[|j]]; cbn; auto; right; apply big; apply abs1; lra. }
  split; [|split].
  - unfold gq_primitive, gq2params. unfold first_zero. cbn [g zxy ev]. unfold small at 1. rewrite Rabs_R0, (proj2 (rltb_true _ _) eps8). fold g. rewrite X0, K.
    assert (B : rltb (1 / 10 ^ 6) (Rabs (2 * -2)) = true).
    { apply rltb_true. rewrite Rabs_left by lra. apply (Rmult_lt_reg_r (10 ^ 6)); [apply pow_lt; lra|]. replace (1 / 10 ^ 6 * 10 ^ 6) with 1 by (field; apply pow_nonzero; lra). simpl. lra. }
    rewrite B. unfold get_parabola. cbn [g zxy ev nx]. fold g. destruct (Rlt_dec (2 * -2 / (4 * 1)) 0); [|lra]. cbn [mm].
    assert (RW : row g 0 = V 0 0 1) by reflexivity. rewrite RW. do 2 f_equal. f_equal. field.
  - unfold qval, quad, q; cbn. lra.
  - cbn [outside]. assert (E : forall T, T = vzero -> 4 * (1 * 10) * height (vscale 10 T) (vopp (V 0 0 1)) (vscale 10 (V 0 0 1)) < radial2 (vscale 10 T) (vopp (V 0 0 1)) (vscale 10 (V 0 0 1))).
    { intros T ->. unfold radial2, height, dot, vsub, vscale, vopp, vzero; cbn. lra. }
    apply E. unfold centre, vsum3, td0. cbn [Nat.eqb]. rewrite !X1. apply vec_eq; unfold vadd, vscale, vzero; cbn; field.
Qed.
