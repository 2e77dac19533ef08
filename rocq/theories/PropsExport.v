(** Properties C28, C29, C32: exporting a model. *)
From Coq Require Import String.
From Verif Require Import Prelude BoolSpec BoolSeq BoolProofs SurfDict Vec3 Geom GeomSpec GeomProofs Export ExportSpec ExportProofs ExportProofs2
  ExportProofs3 ExportProofs4.
Open Scope R_scope.

(* ------------------------------------------------------------------ *)
(** * C32 plane through three points *)

(** For every non collinear triple: a unit normal, a plane containing the points
    and the sense of the MCNP manual (real arithmetic). *)
Theorem C32_points_to_coeffs : forall p1 p2 p3, ~ collinear p1 p2 p3 ->
  exists n d, points_to_coeffs p1 p2 p3 = Ok (n, d) /\ vlen n = 1 /\ three_point_plane p1 p2 p3 n d.
Proof. exact points_to_coeffs_spec. Qed.
(** The specification leaves no choice of the side. *)
Theorem C32_side_unique : forall p1 p2 p3 n d x, ~ collinear p1 p2 p3 -> three_point_plane p1 p2 p3 n d ->
  (card_pos (Card3 p1 p2 p3) x <-> d < dot n x).
Proof. intros. eapply three_point_pos; eauto. Qed.
Theorem C32_collinear : forall p1 p2 p3, collinear p1 p2 p3 -> points_to_coeffs p1 p2 p3 = Err ZeroDivision.
Proof. exact points_to_coeffs_collinear. Qed.
Example C32_ex : ~ collinear (V 1 0 (-2)) (V 0 3 (-2)) (V 4 1 (-2)) /\ three_point_plane (V 1 0 (-2)) (V 0 3 (-2)) (V 4 1 (-2)) (V 0 0 (-1)) 2.
Proof.
  split.
  - unfold collinear, cross, vsub, vzero; simpl. intros H. injection H. intros. lra.
  - unfold three_point_plane, dot, vzero; simpl. split; [intros H; injection H; lra|]. repeat split; try ring. left; lra.
Qed.
Print Assumptions C32_points_to_coeffs.

(* ------------------------------------------------------------------ *)
(** * C28 normalisation of the planes *)

Lemma built_good d : built d -> good d.
Proof. intros (cls & same & o & h & P & ND & R). eapply run_is_good; eauto. Qed.
Lemma ready_defs st : ready st -> good (surfaces st) /\ defs_ok (cells st) /\
  forall c, In c (cells st) -> has_id c = true -> defok (def c) /\ registered_def (surfaces st) (def c).
Proof.
  intros (B & D). split; [apply built_good; auto|]. split.
  - intros c I H. destruct (D c I H) as (? & ? & ? & ?). repeat split; auto.
  - intros c I H. destruct (D c I H) as (? & ? & ? & ?). repeat split; auto.
Qed.
Lemma parity_even o ws : prnt3 o = false \/ Nat.Even (three_point_writers ws) -> parity o ws = false.
Proof.
  intros H. assert (Q : parity o ws = prnt3 o && Nat.odd (three_point_writers ws)).
  { clear H. unfold parity, three_point_writers. assert (G : forall b, fold_left (fun b w => xorb b (three_of o w)) ws b =
      xorb b (prnt3 o && Nat.odd (List.length (filter (fun w => match w with OPENMC => false | _ => true end) ws)))).
    { induction ws as [|w ws IH]; intros b; cbn [fold_left filter].
      - simpl. rewrite andb_false_r, xorb_false_r. auto.
      - rewrite IH. destruct w; cbn [three_of List.length filter]; rewrite ?xorb_false_r; auto;
          rewrite Nat.odd_succ, <- Nat.negb_odd; destruct b, (prnt3 o), (Nat.odd _); auto. }
    rewrite G. apply xorb_false_l. }
  rewrite Q. destruct H as [->|H]; auto. apply Nat.even_spec in H. rewrite <- Nat.negb_even, H. apply andb_false_r.
Qed.

(** After any history of writers (PHITS without merging the void cells), a file
    describes every cell with the same set of points as the CAD definition;
    with three point planes the number of earlier writers that print them must be even. *)
Theorem C28_regions_partial : forall o w ws st0 st out st',
  ready st0 -> aligned (pln_tol o) (surfaces st0) -> (prnt3 o = true -> points_ok (surfaces st0)) ->
  (In PHITS (w :: ws) -> uni_void o = false) ->
  prnt3 o = false \/ Nat.Even (three_point_writers ws) ->
  writers o ws st0 = Ok st -> write_one o w st = Ok (out, st') ->
  (forall lab m g n ex cm inf, In (OCell lab m g n ex cm inf) (o_cells out) -> ex = [] /\
     exists c, In c (cells st0) /\ has_id c = true /\ label c = lab /\ mat c = m /\ same_region st0 out (def c) n) /\
  (forall c, In c (cells st0) -> has_id c = true -> (w = OPENMC -> info c <> "Graveyard"%string) ->
     exists g n cm inf, In (OCell (label c) (mat c) g n [] cm inf) (o_cells out) /\ same_region st0 out (def c) n).
Proof.
  intros o w ws st0 st out st' R A PO U E HW H1. destruct (ready_defs _ R) as (G & D & RD).
  destruct (export_regions o w ws st0 st out st' G A PO RD) as (X & Y); auto.
  - apply Forall_forall. intros c I ->. apply U. right; auto.
  - intros ->. apply U. left; auto.
  - apply parity_even; auto.
  - split; auto. intros c I ID GV. apply Y; auto. intros W. unfold is_graveyard. destruct (String.eqb_spec (info c) "Graveyard"); auto.
    exfalso. apply GV; auto.
Qed.

(** The exports of such models do not fail. *)
Theorem C28_total : forall o w st, ready st -> (prnt3 o = true -> points_ok (surfaces st)) ->
  (void_gen o = true -> group (surfaces st) Sph <> []) -> (w = PHITS -> uni_void o = false) ->
  exists out st', write_one o w st = Ok (out, st').
Proof. intros o w st R PO SO K. destruct (ready_defs _ R) as (G & D & _). apply write_one_total; auto. Qed.

(** ** Examples and counter-examples *)
Definition cls1 (g : geom) : key :=
  match g with
  | GPlane p => if Req_EM_T (vy (axis p)) 0 then if Req_EM_T (vz (axis p)) 0 then PX else PP else PP
  | GOther _ => Sph
  end.
Definition opt1 (p3 uni : bool) : opts := Opts p3 (1/1000) false false 1 uni true.
Definition model1 (k : key) (g : geom) (cs : list cell) : state :=
  St cs (fst (add geom (fun _ => k) (fun _ _ => false) g (empty 0))).
Lemma model1_built k g cs : built (surfaces (model1 k g cs)).
Proof. exists (fun _ => k), (fun _ _ => false), 0%Z, [Add g]. split; [lia|]. split; [intros i [C|[]]; discriminate|reflexivity]. Qed.

Definition cell1 (n : node) : cell := Cell true 1 7 false "steel" "solid" n.

(** a plane x = -5 mm with normal (-1,0,0), cell on the side of the normal *)
Definition planeX : plane := Plane (V (-1) 0 0) (V (-5) 0 0) None.
Definition modelX : state := model1 PX (GPlane planeX) [cell1 (Seq AND 0 [Lit 1])].
Lemma modelX_ready : ready modelX.
Proof.
  split; [apply model1_built|]. intros c [<-|[]] _. simpl. repeat split; auto; try (repeat constructor; lia).
  intros z [<-|[]]. exists PX. eexists. split; [left; reflexivity|reflexivity].
Qed.
Lemma modelX_aligned : aligned (1/1000) (surfaces modelX).
Proof.
  repeat split; simpl; try (intros; contradiction); try lra.
  - intros s [<-|[]]. exists planeX, (-1). simpl. repeat split; auto. lra.
  - intros k s [<-|[<-|[<-|[<-|[]]]]] H; simpl in H; contradiction.
Qed.
(** the card is PX and the definition has changed sign, whatever was written before *)
Example C28_ex : forall w out st', write_one (opt1 false false) w modelX = Ok (out, st') -> w = MCNP ->
  o_cells out = [OCell 1 7 false (Seq AND 0 [Lit (-1)]) [] "solid" "steel"] /\
  exists cd, o_surfs out = [(1%Z, OPlane cd)].
Proof.
  intros w out st' H ->. unfold write_one, modelX, model1, simplify_planes in H.
  cbn -[plane_card negb_R] in H. replace (negb_R (-1)) with true in H by (symmetry; apply negb_R_true; lra).
  cbn -[plane_card negb_R] in H. injection H as <- <-. split; [reflexivity|]. eexists. reflexivity.
Qed.

(** The three point planes are compared with the axis at each export: the second
    file with such planes describes the wrong side. *)
Definition pts5 : vec * vec * vec := (V (-3) (-4) 0, V (-3) (-4) 5, V (-7) (-1) 0).
Definition plane5 : plane := Plane (V (3/5) (4/5) 0) (V (-3) (-4) 0) (Some pts5).
Definition model5 : state := model1 PP (GPlane plane5) [cell1 (Seq AND 0 [Lit 1])].
Lemma model5_ready : ready model5.
Proof.
  split; [apply model1_built|]. intros c [<-|[]] _. simpl. repeat split; auto; try (repeat constructor; lia).
  intros z [<-|[]]. exists PP. eexists. split; [left; reflexivity|reflexivity].
Qed.
Lemma is_equal_false tol a b : 0 <= tol < 1 -> tol * tol < dot (vsub a b) (vsub a b) -> is_equal tol a b = false.
Proof.
  intros T H. destruct (is_equal tol a b) eqn:E; auto. apply is_equal_true in E. pose proof (vlen_sq (vsub a b)).
  assert (0 <= vlen (vsub a b)) by apply sqrt_pos. nra.
Qed.
Lemma model5_aligned : aligned (1/1000) (surfaces model5).
Proof.
  repeat split; simpl; try (intros; contradiction); try lra.
  - intros s [<-|[]]. exists plane5. split; auto. intros e U H. exfalso. revert H. rewrite is_equal_false; try discriminate; try lra.
    destruct U as [-> | [-> | ->]]; unfold dot, vsub; simpl; lra.
  - intros k s [<-|[<-|[<-|[<-|[]]]]] H; simpl in H; contradiction.
Qed.
Lemma vlen_one v : dot v v = 1 -> vlen v = 1.
Proof. intros H. unfold vlen. rewrite H. apply sqrt_1. Qed.
Lemma plane5_good : good_points plane5 pts5.
Proof.
  unfold good_points, pts5, plane5, on_plane, collinear, cross, vsub, dot, vzero; simpl.
  split; [intros H; injection H; intros; lra|]. repeat split; field.
Qed.
Lemma model5_points : points_ok (surfaces model5).
Proof.
  split; [|split; [|split; [|split]]].
  - intros k s p q H E EP. destruct k; simpl in H; try contradiction. destruct H as [<-|[]]. simpl in E. injection E as <-. simpl in EP. injection EP as <-. apply plane5_good.
  - intros s p q [<-|[]] E EP. simpl in E. injection E as <-. apply vlen_one. unfold dot, plane5; simpl. field.
  - intros s p q [].
  - intros s p q [].
  - intros s p q [].
Qed.
Lemma plane5_opp i : is_opp (Surf i (GPlane plane5)) = true.
Proof.
  destruct plane5_good as (N & O1 & O2 & O3). unfold is_opp, plane5, pts5. simpl.
  destruct (points_to_coeffs_spec (V (-3) (-4) 0) (V (-3) (-4) 5) (V (-7) (-1) 0) N) as (n & d & E & L & T). rewrite E.
  assert (T' : three_point_plane (V (-3) (-4) 0) (V (-3) (-4) 5) (V (-7) (-1) 0) (V (-3/5) (-4/5) 0) 5).
  { unfold three_point_plane, dot, vzero; simpl. split; [intros H; injection H; lra|]. repeat split; try field. left; lra. }
  destruct (three_point_unique _ _ _ _ _ _ _ N T T') as (k & K & EN & _).
  assert (EK : V (3/5) (4/5) 0 = vscale (- k) n).
  { pose proof (f_equal vx EN) as X. pose proof (f_equal vy EN) as Y. pose proof (f_equal vz EN) as Z. apply vec_eq; simpl in *; lra. }
  rewrite EK, is_opposite_scale; auto.
  - destruct (Rlt_dec (- k) 0); auto. lra.
  - assert (L2 : vlen (V (3/5) (4/5) 0) = 1) by (apply vlen_one; unfold dot; simpl; field).
    rewrite EK, vlen_scale, L in L2. replace (Rabs (- k)) with 1 by lra. simpl. lra.
Qed.
Lemma coeffs5 : exists n d, points_to_coeffs (V (-3) (-4) 0) (V (-3) (-4) 5) (V (-7) (-1) 0) = Ok (n, d) /\ is_opposite n (V (3/5) (4/5) 0) = true.
Proof.
  pose proof (plane5_opp 1) as H. unfold is_opp, plane5, pts5 in H. simpl in H.
  destruct (points_to_coeffs _ _ _) as [[n d]|e|]; try discriminate. eauto.
Qed.
Lemma write5 sg (z : Z) : sg = z -> Z.abs z = 1%Z -> forall uni,
  write_one (opt1 true uni) MCNP (St [cell1 (Seq AND 0 [Lit sg])] (surfaces model5)) =
  Ok (Out [OCell 1 7 false (Seq AND 0 [Lit (- z)]) [] "solid" "steel"] [(1%Z, OPlane (plane_card true (1/1000) plane5))],
      St [cell1 (Seq AND 0 [Lit (- z)])] (surfaces model5)).
Proof.
  intros -> A uni. destruct coeffs5 as (n & d & E & O). unfold write_one, simplify_planes.
  unfold model5, model1, plane5, pts5. cbn -[plane_card points_to_coeffs is_opposite surface_table flip_surface sorted_surfaces Z.abs Z.opp].
  rewrite E. cbn -[plane_card points_to_coeffs is_opposite surface_table flip_surface sorted_surfaces Z.abs Z.opp].
  rewrite O. assert (C : z = 1%Z \/ z = (-1)%Z) by lia.
  assert (FE : forall f g : key -> list (surf geom), (forall k, f k = g k) -> f = g) by (intros; apply FunctionalExtensionality.functional_extensionality; auto).
  destruct C as [-> | ->]; cbn -[plane_card]; unfold set_group; change (Pos.to_nat 1) with 1%nat; cbn -[plane_card]; f_equal; f_equal; f_equal; f_equal; apply FE; intros []; reflexivity.
Qed.
Theorem C28_three_points_refuted : exists o st0 st out st' n,
  ready st0 /\ aligned (pln_tol o) (surfaces st0) /\ points_ok (surfaces st0) /\ prnt3 o = true /\
  writers o [MCNP] st0 = Ok st /\ write_one o MCNP st = Ok (out, st') /\
  In (OCell 1 7 false n [] "solid" "steel") (o_cells out) /\ ~ same_region st0 out (Seq AND 0 [Lit 1]) n.
Proof.
  exists (opt1 true false), model5. do 4 eexists. split; [apply model5_ready|]. split; [apply model5_aligned|]. split; [apply model5_points|].
  split; [reflexivity|]. split.
  { cbn [writers]. change model5 with (St [cell1 (Seq AND 0 [Lit 1])] (surfaces model5)). rewrite (write5 1 1) by reflexivity. reflexivity. }
  split; [rewrite (write5 (-(1)) (-1)) by reflexivity; reflexivity|]. split; [left; reflexivity|].
  intros S. pose (v0 := fun _ : Z => true). pose (v1 := fun _ : Z => false).
  enough (X : eval v1 (Seq AND 0 [Lit (- -1)]) = eval v0 (Seq AND 0 [Lit 1])) by discriminate X.
  apply (S (fun _ => true) (V 0 0 0)); clear S.
  - intros k s p H E. destruct k; simpl in H; try contradiction. destruct H as [<-|[]]. simpl in E. injection E as <-.
    unfold on_plane, plane5, dot, vsub; simpl. lra.
  - intros k s H. destruct k; simpl in H; try contradiction. destruct H as [<-|[]]. simpl.
    unfold plane_pos, plane5, dot, vsub; simpl. split; intros; [lra|reflexivity].
  - intros i c [H|[]]. injection H as <- <-. unfold v1. split; [discriminate|]. intros H. exfalso. revert H.
    destruct plane5_good as (N & _). unfold plane_card, plane5, pts5. cbn [points].
    rewrite (card_three_pos _ _ _ (V (-3/5) (-4/5) 0) 5); auto.
    + unfold dot; simpl. lra.
    + unfold three_point_plane, dot, vzero; simpl. split; [intros H; injection H; lra|]. repeat split; try field. left; lra.
Qed.

(** Planes normal to an axis are only normalised by the sign of the axis: a plane
    of the group PX given by three points (cuboid translation) is written with the
    wrong sense when it cuts the negative half axis, already in the first file. *)
Definition ptsN : vec * vec * vec := (V (-5) 0 0, V (-5) 1 0, V (-5) 0 1).
Definition planeN : plane := Plane (V 1 0 0) (V (-5) 0 0) (Some ptsN).
Definition modelN : state := model1 PX (GPlane planeN) [cell1 (Seq AND 0 [Lit 1])].
Lemma modelN_ready : ready modelN.
Proof.
  split; [apply model1_built|]. intros c [<-|[]] _. simpl. repeat split; auto; try (repeat constructor; lia).
  intros z [<-|[]]. exists PX. eexists. split; [left; reflexivity|reflexivity].
Qed.
Lemma modelN_aligned : aligned (1/1000) (surfaces modelN).
Proof.
  repeat split; simpl; try (intros; contradiction); try lra.
  - intros s [<-|[]]. exists planeN, 1. simpl. repeat split; auto; try lra.
  - intros k s [<-|[<-|[<-|[<-|[]]]]] H; simpl in H; contradiction.
Qed.
Lemma planeN_good : good_points planeN ptsN.
Proof.
  unfold good_points, ptsN, planeN, on_plane, collinear, cross, vsub, dot, vzero; simpl.
  split; [intros H; injection H; intros; lra|]. repeat split; field.
Qed.
Theorem C28_axis_points_refuted : exists o st0 out st' n,
  ready st0 /\ aligned (pln_tol o) (surfaces st0) /\ prnt3 o = true /\
  (forall k s p q, In s (group (surfaces st0) k) -> geo s = GPlane p -> points p = Some q -> good_points p q /\ vlen (axis p) = 1) /\
  write_one o MCNP st0 = Ok (out, st') /\
  In (OCell 1 7 false n [] "solid" "steel") (o_cells out) /\ ~ same_region st0 out (Seq AND 0 [Lit 1]) n.
Proof.
  exists (opt1 true false), modelN. do 3 eexists. split; [apply modelN_ready|]. split; [apply modelN_aligned|]. split; [reflexivity|].
  split. { intros k s p q H E EP. destruct k; simpl in H; try contradiction. destruct H as [<-|[]]. simpl in E. injection E as <-.
    simpl in EP. injection EP as <-. split; [apply planeN_good|]. apply vlen_one. unfold dot; simpl. ring. }
  split.
  { unfold write_one, modelN, model1, simplify_planes. cbn -[plane_card negb_R].
    replace (negb_R 1) with false by (symmetry; apply negb_R_false; lra). cbn -[plane_card negb_R].
    change (Pos.to_nat 1) with 1%nat. cbn -[plane_card negb_R]. reflexivity. }
  split; [left; reflexivity|]. intros S.
  pose (v0 := fun _ : Z => true). pose (v1 := fun _ : Z => false).
  enough (X : eval v1 (Seq AND 0 [Lit 1]) = eval v0 (Seq AND 0 [Lit 1])) by discriminate X.
  apply (S (fun _ => true) (V 0 0 0)); clear S.
  - intros k s p H E. destruct k; simpl in H; try contradiction. destruct H as [<-|[]]. simpl in E. injection E as <-.
    unfold on_plane, planeN, dot, vsub; simpl. lra.
  - intros k s H. destruct k; simpl in H; try contradiction. destruct H as [<-|[]]. simpl.
    unfold plane_pos, planeN, dot, vsub; simpl. split; intros; [lra|reflexivity].
  - intros i c [H|[]]. injection H as <- <-. unfold v1. split; [discriminate|]. intros H. exfalso. revert H.
    destruct planeN_good as (N & _). unfold plane_card, planeN, ptsN. cbn [points geo].
    rewrite (card_three_pos _ _ _ (V (-1) 0 0) 5); auto.
    + unfold dot; simpl. lra.
    + unfold three_point_plane, dot, vzero; simpl. split; [intros H; injection H; lra|]. repeat split; try field. left; lra.
Qed.
Print Assumptions C28_regions_partial.
Print Assumptions C28_three_points_refuted.
Print Assumptions C28_axis_points_refuted.

(* ------------------------------------------------------------------ *)
(** * C29 one format does not change another one *)

(** Without three point planes and without PHITS in the earlier calls: every file
    of any later call is the one a single export of its format from the initial
    model writes. *)
Theorem C29_independent_partial : forall o calls fs st0 st files st',
  prnt3 o = false -> (forall c, In c calls -> ~ In PHITS c) ->
  exports o calls st0 = Ok st -> write_geometry o fs st = Ok (files, st') ->
  (forall w, In w (map fst files) <-> In w fs) /\
  forall w f, In (w, f) files -> exists st1, write_geometry o [w] st0 = Ok ([(w, f)], st1).
Proof.
  intros o calls fs st0 st files st' P NP HE HW.
  assert (S : settled st0 st) by (eapply settled_exports; [exact P|left; reflexivity|exact NP|exact HE]).
  unfold write_geometry in *. destruct (supported o) eqn:SU; try discriminate.
  destruct (write_list_files o st0 P _ _ _ _ S (phits_last fs) HW) as (M & W). split.
  - intros w. rewrite M. apply in_requested.
  - intros w f I. destruct (W _ _ I) as (s & E). exists s.
    destruct w; cbn [requested filter existsb code_eqb orb write_list]; rewrite E; reflexivity.
Qed.

(** A model with a sphere inside the outer sphere. *)
Definition spheres : sdict geom :=
  fst (add geom (fun _ => Sph) (fun _ _ => false) (GOther 2) (fst (add geom (fun _ => Sph) (fun _ _ => false) (GOther 1) (empty 0)))).
Definition modelS : state := St
  [Cell true 1 7 false "steel" "solid" (Seq AND 0 [Lit (-1)]);
   Cell true 2 0 true "Graveyard_in" "" (Seq AND 1 [Lit (-2); Seq AND 0 [Lit 1]]);
   Cell true 3 0 true "Graveyard" "" (Seq AND 0 [Lit 2])] spheres.
Lemma modelS_ready : ready modelS.
Proof.
  split. { exists (fun _ => Sph), (fun _ _ => false), 0%Z, [Add (GOther 1); Add (GOther 2)]. split; [lia|].
    split; [intros i [C|[C|[]]]; discriminate|reflexivity]. }
  intros c IC _.
  assert (R : forall z, z = 1%Z \/ z = (-1)%Z \/ z = 2%Z \/ z = (-2)%Z -> exists k s, In s (group spheres k) /\ index s = Z.abs z).
  { intros z H. exists Sph. simpl. destruct H as [-> | [-> | [-> | ->]]].
    1, 2: exists (Surf 1 (GOther 1)); split; [left|]; reflexivity.
    all: exists (Surf 2 (GOther 2)); split; [right; left|]; reflexivity. }
  assert (G : forall n, is_seq n -> no_const n -> wf n -> (forall z, In z (lits n) -> z = 1%Z \/ z = (-1)%Z \/ z = 2%Z \/ z = (-2)%Z) ->
    is_seq n /\ no_const n /\ wf n /\ registered_def (surfaces modelS) n).
  { intros n S N W L. repeat split; auto. intros z Z. apply R, L, Z. }
  destruct IC as [<-|[<-|[<-|[]]]]; apply G; simpl; auto; try (intros z Z; simpl in Z; intuition; fail); repeat split; auto; try lia; repeat constructor; try lia.
Qed.
Definition optS (uni : bool) : opts := Opts false (1/1000) false true 1 uni true.

Example C29_ex : exists st files st', exports (optS false) [[MCNP; OPENMC]; [SERPENT]] modelS = Ok st /\
  write_geometry (optS false) [MCNP; PHITS] st = Ok (files, st') /\ map fst files = [MCNP; PHITS].
Proof. do 3 eexists. split; [reflexivity|]. split; reflexivity. Qed.

(** After PHITS the graveyard of an MCNP file has the importance of a normal cell
    and OpenMC gets a cell it does not have otherwise. *)
Theorem C29_phits_first_refuted : exists o st0 st1 f g f' g' s2 s3 s4 s5,
  ready st0 /\ prnt3 o = false /\
  write_geometry o [MCNP] st0 = Ok ([(MCNP, f)], s2) /\ write_geometry o [OPENMC] st0 = Ok ([(OPENMC, g)], s3) /\
  exports o [[PHITS]] st0 = Ok st1 /\
  write_geometry o [MCNP] st1 = Ok ([(MCNP, f')], s4) /\ write_geometry o [OPENMC] st1 = Ok ([(OPENMC, g')], s5) /\
  In (OCell 3 0 true (Seq AND 0 [Lit 2]) [] "" "Graveyard") (o_cells f) /\
  (forall n ex cm inf, ~ In (OCell 3 0 true n ex cm inf) (o_cells f')) /\
  (forall m out n ex cm inf, ~ In (OCell 3 m out n ex cm inf) (o_cells g)) /\
  In (OCell 3 0 false (Seq AND 0 [Lit 2]) [] "" "") (o_cells g').
Proof.
  exists (optS false), modelS. do 9 eexists. split; [apply modelS_ready|]. do 6 (split; [reflexivity|]).
  split; [simpl; auto|]. split; [|split; [|simpl; auto]].
  - intros n ex cm inf [H|[H|[H|[]]]]; discriminate.
  - intros m out n ex cm inf [H|[H|[]]]; discriminate.
Qed.

(** With merged void cells (no enclosures): after PHITS the void cell of an MCNP file
    also contains the solid; a second PHITS file has neither the void nor the
    outside cell. *)
Theorem C29_phits_merged_refuted : exists o st0 st1 f f' h' s2 s4 s5 n,
  ready st0 /\ prnt3 o = false /\
  write_geometry o [MCNP] st0 = Ok ([(MCNP, f)], s2) /\
  exports o [[PHITS]] st0 = Ok st1 /\
  write_geometry o [MCNP] st1 = Ok ([(MCNP, f')], s4) /\
  write_geometry o [PHITS] st1 = Ok ([(PHITS, h')], s5) /\
  In (OCell 2 0 false (Seq AND 1 [Lit (-2); Seq AND 0 [Lit 1]]) [] "" "Graveyard_in") (o_cells f) /\
  (exists cm inf, In (OCell 2 0 false n [] cm inf) (o_cells f')) /\
  (exists v, eval v (Seq AND 0 [Lit (-1)]) = true /\ eval v n = true) /\
  (forall l m out d ex cm inf, In (OCell l m out d ex cm inf) (o_cells h') -> l = 1%Z).
Proof.
  exists (optS true), modelS. do 7 eexists. exists (Seq AND 1 [Lit (-2)]). split; [apply modelS_ready|]. do 5 (split; [reflexivity|]).
  split; [simpl; auto|]. split; [|split].
  - do 2 eexists. right. left. reflexivity.
  - exists (fun _ => false). split; reflexivity.
  - intros l m out d ex cm inf H. simpl in H. destruct H as [H|[]]. injection H. auto.
Qed.

(** With three point planes the second file is written for the opposite sides: an
    OpenMC file after an MCNP file. *)
Theorem C29_three_points_refuted : exists o st0 st1 f f' s2 s3,
  ready st0 /\ aligned (pln_tol o) (surfaces st0) /\ points_ok (surfaces st0) /\
  write_geometry o [OPENMC] st0 = Ok ([(OPENMC, f)], s2) /\
  exports o [[MCNP]] st0 = Ok st1 /\
  write_geometry o [OPENMC] st1 = Ok ([(OPENMC, f')], s3) /\
  o_surfs f' = o_surfs f /\
  o_cells f = [OCell 1 7 false (Seq AND 0 [Lit 1]) [] "solid" ""] /\
  o_cells f' = [OCell 1 7 false (Seq AND 0 [Lit (-1)]) [] "solid" ""].
Proof.
  exists (opt1 true false), model5. do 5 eexists. split; [apply model5_ready|]. split; [apply model5_aligned|]. split; [apply model5_points|].
  split. { cbn -[plane_card]. change (Pos.to_nat 1) with 1%nat. cbn -[plane_card]. reflexivity. }
  split. { cbn [exports write_geometry supported opt1 requested filter existsb code_eqb orb write_list].
    change model5 with (St [cell1 (Seq AND 0 [Lit 1])] (surfaces model5)). rewrite (write5 1 1) by reflexivity. reflexivity. }
  split. { cbn -[plane_card]. change (Pos.to_nat 1) with 1%nat. cbn -[plane_card]. reflexivity. }
  split; [reflexivity|]. split; reflexivity.
Qed.
Print Assumptions C29_independent_partial.
Print Assumptions C29_phits_first_refuted.
Print Assumptions C29_phits_merged_refuted.
Print Assumptions C29_three_points_refuted.
