(** C31 (coefficients of the general quadrics) and C49 (surface cards denote the surfaces
    of the CAD model).  The meaning of the cards is in SurfCardSpec.v. *)
From Verif Require Import Prelude Vec3 Geom Prim PrimSpec PrimProofs CardsProofs Quadric QuadricSpec SurfCards SurfCardSpec SurfCardProofs SurfCardProofs2 SurfCardProofs3.
From Coq Require Import String List.
Import ListNotations.
Open Scope R_scope.

(** ** C31 *)
(** For every axis (of any length) that is not along X, every position and radius, the ten
    coefficients give the squared distance to the axis minus the squared radius. *)
Theorem C31_cylinder : forall axis pos rad, cross (V 1 0 0) axis <> vzero ->
  exists q, q_form_cyl axis pos rad = Ok q /\ forall x, qval q x = dist2 pos axis x - rad ^ 2.
Proof. exact q_form_cyl_ok. Qed.
(** The same for a cone with apex [pos]: squared distance to the axis minus the square of
    the tangent times the distance from the apex along the axis. *)
Theorem C31_cone : forall axis pos t, cross (V 1 0 0) axis <> vzero ->
  exists q, q_form_cone axis pos t = Ok q /\
    forall x, qval q x = dist2 pos axis x - t ^ 2 * ((dot axis (vsub x pos)) ^ 2 / dot axis axis).
Proof. exact q_form_cone_ok. Qed.
(** Along X there is no result: the rotation axis is the null vector. *)
Theorem C31_x_axis_refuted : forall axis pos r, cross (V 1 0 0) axis = vzero ->
  q_form_cyl axis pos r = Err ValueError /\ q_form_cone axis pos r = Err ValueError.
Proof. exact q_form_x. Qed.
Example C31_cases : cross (V 1 0 0) (V 0 0 2) <> vzero /\ cross (V 1 0 0) (V 1 (-2) 3) <> vzero /\ cross (V 1 0 0) (V (-5) 0 0) = vzero.
Proof.
  unfold cross, vzero. cbn [vx vy vz]. split; [|split].
  - intros E. injection E. intros. lra.
  - intros E. injection E. intros. lra.
  - f_equal; ring.
Qed.

(** ** C49: MCNP and PHITS *)
(** A surface along a coordinate direction (within the tolerance), or a sphere: one card,
    with the right number, that has the two sides of the surface, or of the surface moved
    onto the coordinate direction or the origin within the tolerance. *)
Theorem C49_mcnp : forall t id s, proper_cad s -> 0 < t_angle t -> along t s ->
  exists s' toks h, (s' = s \/ snap t s s') /\ mcnp_surface t id s = Ok toks /\ mcnp_card toks id h /\ sides h (cad s').
Proof.
  intros t id s P T A. destruct s as [c v r|c v a|c r|c v ra rb sg].
  - destruct (mcnp_cyl t id c v r P T) as [(e & toks & h & N & H)|[N _]]; [|destruct A as [e A]; destruct (N e A)].
    exists (SCyl c e r), toks, h. split; auto. right. constructor. auto.
  - destruct (mcnp_cone t id c v a P T) as [(e & toks & h & N & H)|[N _]]; [|destruct A as [e A]; destruct (N e A)].
    exists (SCone c e a), toks, h. split; auto. right. constructor. auto.
  - destruct (mcnp_sph t id c r P) as (c' & toks & h & [-> | [-> L]] & H).
    + exists (SSph c r), toks, h. auto.
    + exists (SSph vzero r), toks, h. split; auto. right. constructor. auto.
  - destruct (mcnp_tor t id c v ra rb sg P) as [(e & toks & h & N & H)|[N _]]; [|destruct A as [e A]; destruct (N e A)].
    exists (STor c e ra rb sg), toks, h. split; auto. right. constructor. auto.
Qed.
(** Otherwise a cylinder has its exact general quadric, and a cone that of its two sheets. *)
Theorem C49_mcnp_tilted : forall t id s, proper_cad s -> 0 < t_angle t -> ~ along t s ->
  match s with
  | STor _ _ _ _ _ => True
  | _ => exists toks h, mcnp_surface t id s = Ok toks /\ mcnp_card toks id h /\ sides h (both_sheets (cad s))
  end.
Proof.
  intros t id s P T A. destruct s as [c v r|c v a|c r|c v ra rb sg]; auto.
  - destruct (mcnp_cyl t id c v r P T) as [(e & toks & h & N & H)|[N H]]; [destruct A; exists e; auto|]. exact H.
  - destruct (mcnp_cone t id c v a P T) as [(e & toks & h & N & H)|[N H]]; [destruct A; exists e; auto|]. exact H.
  - destruct (A Logic.I).
Qed.
(** Away from the tolerances (exactly aligned, or clearly tilted) the card is exact. *)
Theorem C49_mcnp_exact : forall t id s, proper_cad s -> 0 < t_angle t -> clear t s ->
  match s with SCyl _ _ _ | SSph _ _ => True | _ => along t s end ->
  exists toks h, mcnp_surface t id s = Ok toks /\ mcnp_card toks id h /\ sides h (cad s).
Proof.
  intros t id s P T C A. destruct (Classical_Prop.classic (along t s)) as [Y|Y].
  - destruct (C49_mcnp t id s P T Y) as (s' & toks & h & [-> | N] & H); [exists toks, h; auto|].
    rewrite (C s' N) in H. exists toks, h. auto.
  - pose proof (C49_mcnp_tilted t id s P T Y) as H. destruct s; try (destruct (Y A)). exact H.
Qed.
(** In the half space of the sheet a tilted cone also has the right sides. *)
Theorem C49_mcnp_cone_sheet : forall t id c v a, proper_cad (SCone c v a) -> 0 < t_angle t -> ~ along t (SCone c v a) ->
  exists toks h, mcnp_surface t id (SCone c v a) = Ok toks /\ mcnp_card toks id h /\
    forall x, 0 < dot v (vsub (vscale 10 x) c) ->
      (neg h x <-> neg (cad (SCone c v a)) (vscale 10 x)) /\ (pos h x <-> pos (cad (SCone c v a)) (vscale 10 x)).
Proof.
  intros t id c v a P T A. destruct (C49_mcnp_tilted t id _ P T A) as (toks & h & H1 & H2 & H3).
  exists toks, h. split; auto. split; auto. intros x L. destruct (H3 x) as [N Q]. rewrite N, Q. cbn [cad both_sheets neg pos].
  split; split; intros H.
  - destruct H. split; auto.
  - destruct H. split; [assumption|discriminate].
  - destruct H as [H | [O _]]; [auto|discriminate].
  - destruct H as [H | [_ O]]; [auto|lra].
Qed.

(** ** C49: OpenMC *)
(** OpenMC has no one-sheet cones: both sheets, always. *)
Theorem C49_openmc : forall t s, proper_cad s -> 0 < t_angle t -> (match s with STor _ _ _ _ _ => along t s | _ => True end) ->
  exists s' k l h, (s' = s \/ snap t s s') /\ omc_xml t s = Ok (Some k, l) /\ omc_means k l h /\ sides h (both_sheets (cad s')).
Proof.
  intros t s P T A. destruct s as [c v r|c v a|c r|c v ra rb sg].
  - destruct (xml_cyl t c v r P T) as [(e & k & l & h & N & H)|[_ (k & l & h & H)]].
    + exists (SCyl c e r), k, l, h. split; auto. right. constructor. auto.
    + exists (SCyl c v r), k, l, h. auto.
  - destruct (xml_cone t c v a P T) as [(e & k & l & h & N & H)|[_ (k & l & h & H)]].
    + exists (SCone c e a), k, l, h. split; auto. right. constructor. auto.
    + exists (SCone c v a), k, l, h. auto.
  - destruct (xml_sph t c r) as (k & l & h & H). exists (SSph c r), k, l, h. auto.
  - destruct (xml_tor t c v ra rb sg P) as [(e & k & l & h & N & H)|[N _]]; [|destruct A as [e A]; destruct (N e A)].
    exists (STor c e ra rb sg), k, l, h. split; auto. right. constructor. auto.
Qed.
Theorem C49_openmc_py : forall quadric t s, proper_cad s -> 0 < t_angle t -> (match s with STor _ _ _ _ _ => False | _ => True end) ->
  exists s' k l h, (s' = s \/ snap t s s') /\ omc_py quadric t s = Ok (Some k, l) /\ omcpy_means k l h /\ sides h (both_sheets (cad s')).
Proof.
  intros qd t s P T A. destruct s as [c v r|c v a|c r|c v ra rb sg].
  - destruct (py_cyl qd t c v r P T) as [(e & k & l & h & N & H)|[_ (k & l & h & H)]].
    + exists (SCyl c e r), k, l, h. split; auto. right. constructor. auto.
    + exists (SCyl c v r), k, l, h. auto.
  - destruct (py_cone qd t c v a P T) as [(e & k & l & h & N & H)|[_ (k & l & h & H)]].
    + exists (SCone c e a), k, l, h. split; auto. right. constructor. auto.
    + exists (SCone c v a), k, l, h. auto.
  - destruct (py_sph qd t c r) as (k & l & h & H). exists (SSph c r), k, l, h. auto.
  - contradiction.
Qed.
(** No torus can be read back by OpenMC's Python classes (their arguments are a, b, c). *)
Theorem C49_openmc_py_torus_refuted : forall quadric t c v ra rb sg k l h,
  omc_py quadric t (STor c v ra rb sg) = Ok (Some k, l) -> ~ omcpy_means k l h.
Proof. exact py_tor. Qed.

(** Only the names are wrong: with them put right the call means the torus. *)
Theorem C49_openmc_py_torus : forall quadric t c v ra rb sg, proper_cad (STor c v ra rb sg) -> along t (STor c v ra rb sg) ->
  exists s' k l h, snap t (STor c v ra rb sg) s' /\ omc_py quadric t (STor c v ra rb sg) = Ok (Some k, l) /\ omcpy_means k (torus_names l) h /\ sides h (cad s').
Proof.
  intros qd t c v ra rb sg P A. destruct (py_tor_values qd t c v ra rb sg P) as [(e & k & l & h & N & H)|[N _]]; [|destruct A as [e A]; destruct (N e A)].
  exists (STor c e ra rb sg), k, l, h. split; auto. constructor. auto.
Qed.

(** ** C49: Serpent *)
Theorem C49_serpent : forall t id s, proper_cad s -> 0 < t_angle t ->
  match s with
  | SSph _ _ => True
  | STor _ _ _ _ _ => along t s
  | SCyl _ v _ => exists e, near (t_angle t) v e /\ In e [EX; EY; vopp EX; vopp EY]
  | SCone _ _ _ => False
  end ->
  exists s' toks h, (s' = s \/ snap t s s') /\ serpent_surface t id s = Ok toks /\ serpent_card toks id h /\ sides h (cad s').
Proof.
  intros t id s P T A. destruct s as [c v r|c v a|c r|c v ra rb sg].
  - destruct (ser_cyl t id c v r P T) as [(e & toks & h & N & _ & H)|[N _]].
    + exists (SCyl c e r), toks, h. split; auto. right. constructor. auto.
    + destruct A as (e & A & B). exfalso. destruct (N e A) as [-> | ->]; cbn in B; unfold EX, EY, EZ, vopp in B; cbn in B;
        repeat (destruct B as [B|B]; [injection B; intros; lra|]); exact B.
  - contradiction.
  - destruct (ser_sph t id c r) as (toks & h & H). exists (SSph c r), toks, h. auto.
  - destruct (ser_tor t id c v ra rb sg P) as [(e & toks & h & N & H)|[N _]]; [|destruct A as [e A]; destruct (N e A)].
    exists (STor c e ra rb sg), toks, h. split; auto. right. constructor. auto.
Qed.
(** Every other cylinder (along Z, tilted) and every cone has a text that is not a card:
    [cylz] without the position of the axis, no number of surface, or no text at all. *)
Theorem C49_serpent_cylinder_refuted : forall t id c v r, proper_cad (SCyl c v r) -> 0 < t_angle t ->
  (forall e, near (t_angle t) v e -> e = EZ \/ e = vopp EZ) ->
  exists toks, serpent_surface t id (SCyl c v r) = Ok toks /\ forall id' h, ~ serpent_card toks id' h.
Proof.
  intros t id c v r P T N. destruct (ser_cyl t id c v r P T) as [(e & toks & h & A & B & H)|[_ H]]; auto.
  exfalso. destruct (N e A) as [-> | ->]; cbn in B; unfold EX, EY, EZ, vopp in B; cbn in B;
    repeat (destruct B as [B|B]; [injection B; intros; lra|]); exact B.
Qed.
Theorem C49_serpent_cone_refuted : forall t id c v a, proper_cad (SCone c v a) -> 0 < t_angle t ->
  exists toks, serpent_surface t id (SCone c v a) = Ok toks /\ forall id' h, ~ serpent_card toks id' h.
Proof. intros. apply ser_cone; auto. Qed.

(** ** C49: surfaces that are lost or changed *)
(** A torus not along a coordinate direction: no MCNP/PHITS card, no Serpent card, and the
    type None for OpenMC; the cells that use it are written all the same. *)
Theorem C49_tilted_torus_refuted : forall t id c v ra rb sg, proper_cad (STor c v ra rb sg) -> ~ along t (STor c v ra rb sg) ->
  mcnp_surface t id (STor c v ra rb sg) = Ok [] /\ serpent_surface t id (STor c v ra rb sg) = Ok [] /\
  exists l, omc_xml t (STor c v ra rb sg) = Ok (None, l).
Proof.
  intros t id c v ra rb sg P A.
  destruct (mcnp_tor t id c v ra rb sg P) as [(e & _ & _ & N & _)|[_ H1]]; [destruct A; exists e; auto|].
  destruct (ser_tor t id c v ra rb sg P) as [(e & _ & _ & N & _)|[_ H2]]; [destruct A; exists e; auto|].
  destruct (xml_tor t c v ra rb sg P) as [(e & _ & _ & _ & N & _)|[_ H3]]; [destruct A; exists e; auto|]. auto.
Qed.
Lemma mirror c v a : proper_cad (SCone c v a) -> forall one,
  let x := vscale (1/10) (vsub c v) in
  neg (HCone c v (tan a ^ 2) one) (vscale 10 x) <-> one = false.
Proof.
  intros [U A] one x. assert (E : vscale 10 x = vsub c v).
  { unfold x. destruct c as [c1 c2 c3], v as [v1 v2 v3]. unfold vscale, vsub. cbn [vx vy vz]. f_equal; lra. }
  rewrite E. cbn [neg]. assert (V1 : dot v v = 1) by (rewrite <- vlen_sq, U; ring).
  assert (D : vsub (vsub c v) c = vopp v) by (destruct c as [c1 c2 c3], v as [v1 v2 v3]; unfold vsub, vopp; cbn [vx vy vz]; f_equal; ring).
  unfold dist2, axial2. rewrite D, V1.
  replace (dot (vopp v) (vopp v)) with 1 by (rewrite <- V1; unfold dot, vopp; cbn [vx vy vz]; ring).
  replace (dot v (vopp v)) with (- (1)) by (rewrite <- V1; unfold dot, vopp; cbn [vx vy vz]; ring).
  assert (0 < tan a) by (apply tan_gt_0; lra).
  split.
  - intros [_ H1]. destruct one; auto. specialize (H1 eq_refl). lra.
  - intros ->. split; [|discriminate]. simpl. nra.
Qed.
(** The second sheet: every cone that is not along a coordinate direction in MCNP and
    PHITS, every cone in OpenMC.  The mirror point of the axis is outside the cone of the
    CAD model and on the inner side of the card. *)
Theorem C49_tilted_cone_refuted : forall t id c v a, proper_cad (SCone c v a) -> 0 < t_angle t -> ~ along t (SCone c v a) ->
  exists toks h x, mcnp_surface t id (SCone c v a) = Ok toks /\ mcnp_card toks id h /\ neg h x /\ ~ neg (cad (SCone c v a)) (vscale 10 x).
Proof.
  intros t id c v a P T A. destruct (C49_mcnp_tilted t id _ P T A) as (toks & h & H1 & H2 & H3).
  exists toks, h, (vscale (1/10) (vsub c v)). split; auto. split; auto. split.
  - apply H3. cbn [cad both_sheets]. apply (mirror c v a P false). reflexivity.
  - intros H. cbn [cad] in H. apply (mirror c v a P true) in H. discriminate.
Qed.
Theorem C49_openmc_cone_refuted : forall t c v a, proper_cad (SCone c v a) -> 0 < t_angle t -> clear t (SCone c v a) ->
  exists k l h x, omc_xml t (SCone c v a) = Ok (Some k, l) /\ omc_means k l h /\ neg h x /\ ~ neg (cad (SCone c v a)) (vscale 10 x).
Proof.
  intros t c v a P T C. destruct (C49_openmc t (SCone c v a) P T Logic.I) as (s' & k & l & h & S & H1 & H2 & H3).
  assert (E : s' = SCone c v a) by (destruct S; auto). subst s'.
  exists k, l, h, (vscale (1/10) (vsub c v)). split; auto. split; auto. split.
  - apply H3. cbn [cad both_sheets]. apply (mirror c v a P false). reflexivity.
  - intros H. cbn [cad] in H. apply (mirror c v a P true) in H. discriminate.
Qed.
(** With an angular tolerance of zero (accepted by Tolerances) a cylinder along X stops the
    export with an error. *)
Theorem C49_zero_tolerance_refuted : forall t id c r, t_angle t = 0 ->
  mcnp_surface t id (SCyl c EX r) = Err ValueError /\ omc_xml t (SCyl c EX r) = Err ValueError /\ serpent_surface t id (SCyl c EX r) = Err ValueError.
Proof.
  intros t id c r T. assert (U : vlen EX = 1) by (apply unit_e; cbn; auto).
  assert (N : forall e, parallel_tol (t_angle t) EX e = false).
  { intros e. unfold parallel_tol. destruct (get_angle EX e) as [x|]; auto. rewrite T. unfold rltb.
    destruct (Rlt_dec (Rabs x) 0) as [L|_]; [pose proof (Rabs_pos x); lra|]. destruct (Rlt_dec (Rabs (Rabs x - PI)) 0) as [L|_]; auto.
    pose proof (Rabs_pos (Rabs x - PI)). lra. }
  assert (X : cross EX EX = vzero) by (unfold cross, EX, vzero; cbn; f_equal; ring).
  cbn [mcnp_surface omc_xml serpent_surface]. rewrite normalize_unit by auto. cbn [bind]. rewrite !N.
  destruct (q_form_x EX (vscale (1/10) c) (r * (1/10)) X) as [-> _]. cbn [bind]. auto.
Qed.

(** ** Cases *)
Lemma ang_big v e k : vlen v = 1 -> vlen e = 1 -> dot v e <= k -> 0 <= k < 1 -> sqrt (1 - k²) <= ang v e.
Proof.
  intros V1 E1 D K. unfold ang. rewrite V1, E1. replace (dot v e / (1 * 1)) with (dot v e) by field.
  assert (B : -1 <= dot v e <= 1). { pose proof (cos_bound v e (len_nz v ltac:(lra)) (len_nz e ltac:(lra))) as B. rewrite V1, E1 in B. replace (dot v e / (1 * 1)) with (dot v e) in B by field. exact B. }
  assert (L : acos k <= acos (dot v e)).
  { destruct (Req_EM_T (dot v e) k) as [-> | N]; [apply Rle_refl|]. apply Rlt_le, acos_lt; lra. }
  refine (Rle_trans _ _ _ _ L). rewrite <- sin_acos by lra. pose proof (acos_bound k).
  destruct (Req_EM_T (acos k) 0) as [Z|Z].
  - rewrite Z, sin_0. lra.
  - apply Rlt_le, sin_lt_x. lra.
Qed.
Definition t0 := Tols (1 / 10 ^ 4) (1 / 10 ^ 6).
Lemma sqrt_3_5 : sqrt (1 - (4 / 5)²) = 3 / 5.
Proof. replace (1 - (4/5)²) with (3 / 5 * (3 / 5)) by (unfold Rsqr; field). apply sqrt_square. lra. Qed.
Lemma coord_unit e : coord e -> vlen e = 1.
Proof. unfold coord; cbn. intros H. unfold vlen. replace (dot e e) with 1; [apply sqrt_1|]. destruct H as [<- | [<- | [<- | [<- | [<- | [<- | []]]]]]]; unfold dot, EX, EY, EZ, vopp; cbn; ring. Qed.
Definition tilt := V (3/5) 0 (4/5).
Lemma tilt_unit : vlen tilt = 1.
Proof. unfold vlen, tilt, dot; cbn [vx vy vz]. replace (3 / 5 * (3 / 5) + 0 * 0 + 4 / 5 * (4 / 5)) with 1 by field. apply sqrt_1. Qed.
Lemma tilt_far e : coord e -> ~ ang tilt e < t_angle t0.
Proof.
  intros C. assert (B : sqrt (1 - (4/5)²) <= ang tilt e).
  { apply ang_big; [apply tilt_unit|apply coord_unit; auto| |lra]. unfold coord in C; cbn in C.
    destruct C as [<- | [<- | [<- | [<- | [<- | [<- | []]]]]]]; unfold dot, tilt, EX, EY, EZ, vopp; cbn; lra. }
  rewrite sqrt_3_5 in B. unfold t0; cbn [t_angle]. lra.
Qed.
(** A tilted cylinder, cone and torus; a cylinder and a cone along -Y. *)
Example C49_tilted_case : forall c, proper_cad (SCyl c tilt 2) /\ clear t0 (SCyl c tilt 2) /\ proper_cad (SCone c tilt (PI / 4)) /\
  ~ along t0 (SCone c tilt (PI / 4)) /\ clear t0 (SCone c tilt (PI / 4)) /\ proper_cad (STor c tilt 5 1 1) /\ ~ along t0 (STor c tilt 5 1 1) /\ 0 < t_angle t0.
Proof.
  intros c. pose proof tilt_unit. pose proof PI_RGT_0. repeat split; auto; try lra.
  - intros s' S. inversion S as [? ? e ? N| | |]; subst. destruct N as [C N]. destruct (tilt_far e C N).
  - intros [e [C N]]. destruct (tilt_far e C N).
  - intros s' S. inversion S as [|? ? e ? N| |]; subst. destruct N as [C N]. destruct (tilt_far e C N).
  - intros [e [C N]]. destruct (tilt_far e C N).
  - unfold t0; cbn [t_angle]. lra.
Qed.
Lemma y_only e : near (t_angle t0) (vopp EY) e -> e = vopp EY.
Proof.
  intros [C N]. pose proof (coord_unit e C) as E. assert (Y : vlen (vopp EY) = 1) by (apply coord_unit; unfold coord; cbn; tauto).
  assert (K : dot (vopp EY) e <= 0 -> e = vopp EY).
  { intros D. exfalso. assert (B : sqrt (1 - 0²) <= ang (vopp EY) e) by (apply ang_big; auto; lra).
    replace (1 - 0²) with 1 in B by (unfold Rsqr; ring). rewrite sqrt_1 in B. unfold t0 in N; cbn [t_angle] in N. lra. }
  unfold coord in C; cbn in C.
  destruct C as [<- | [<- | [<- | [<- | [<- | [<- | []]]]]]]; auto; apply K; unfold dot, EX, EY, EZ, vopp; cbn; lra.
Qed.
Lemma y_near : near (t_angle t0) (vopp EY) (vopp EY).
Proof.
  assert (Y : vlen (vopp EY) = 1) by (apply coord_unit; unfold coord; cbn; tauto).
  split; [unfold coord; cbn; tauto|]. unfold ang. rewrite Y. replace (dot (vopp EY) (vopp EY) / (1 * 1)) with 1 by (unfold dot, EY, vopp; cbn; field).
  rewrite acos_1. unfold t0; cbn [t_angle]. lra.
Qed.
Example C49_aligned_case : forall c, proper_cad (SCyl c (vopp EY) 2) /\ clear t0 (SCyl c (vopp EY) 2) /\ along t0 (SCyl c (vopp EY) 2) /\
  proper_cad (SCone c (vopp EY) (PI / 4)) /\ along t0 (SCone c (vopp EY) (PI / 4)) /\ clear t0 (SCone c (vopp EY) (PI / 4)) /\
  proper_cad (STor c (vopp EY) 1 2 (-1)) /\ along t0 (STor c (vopp EY) 1 2 (-1)).
Proof.
  intros c. assert (Y : vlen (vopp EY) = 1) by (apply coord_unit; unfold coord; cbn; tauto). pose proof PI_RGT_0.
  repeat split; auto; try lra; try (exists (vopp EY); exact y_near).
  - intros s' S. inversion S as [? ? e ? N| | |]; subst. rewrite (y_only e N). reflexivity.
  - intros s' S. inversion S as [|? ? e ? N| |]; subst. rewrite (y_only e N). reflexivity.
Qed.
