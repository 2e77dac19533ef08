(** C50: the solid GEOReverse builds for a cell is the cell (buildSolidCell.py).  The model is
    Build.v, the meaning of shapes and boxes BuildSpec.v.  The theorems are about every CAD kernel
    that does what its manual says ([good_cad]), every source of sound boxes ([boxes_ok], C38) and
    every definition. *)
From Verif Require Import Prelude BoolSpec BoolSeq BoolProofs BoolProofs2 BoolEditProofs RBool RBox RPlanes Build BuildSpec BuildProofs BuildProofs2 BuildProofs3 BuildTotal BuildVox.
Open Scope Z_scope.

(** The cell given to buildShape: its planes are those of its definition, its box covers it. *)
Definition ready {C : cad} (R : reading C) (ext : bx C) (c : bcell C) : Prop :=
  wf (b_def c) /\ fst (b_planes c) = b_def c /\ forall m, b_box c = Some m -> covers R ext m (holds R (b_def c)).
Definition first_forward {C : cad} (boxer : node * bx C -> Z -> res (abox (bx C))) : Prop := forall pl m, boxer pl 2 = Ok m -> a_or m = Fwd.

(** No point of the cell in the external box is lost.  Partial: the surfaces of a union of
    sub-sequences must not come back in a later factor ([separate]); see C50_lost_refuted. *)
Theorem C50_complete_partial (C : cad) (R : reading C) boxer order ext k un (c : bcell C) s :
  good_cad C R -> orders order -> boxes_ok R ext boxer (b_def c) -> ready R ext c -> separate (b_def c) ->
  build_shape C boxer order ext k un c = Ok s ->
  forall x, inb R ext x -> holds R (b_def c) x -> in_solid R s x.
Proof.
  intros G O1 B (W & P & Q) SP H. eapply solid_lower; eauto; rewrite P; [tauto|]. split; [exact W|apply incl_refl].
Qed.

(** No other point is in it.  Partial: [separate] again (C50_extra_refuted), and either the first
    boxes are Forward (bounded cells) or Reversed boxes meet every shape (C50_far_refuted). *)
Theorem C50_sound_partial (C : cad) (R : reading C) boxer order ext k un (c : bcell C) s :
  good_cad C R -> orders order -> boxes_ok R ext boxer (b_def c) -> ready R ext c -> separate (b_def c) ->
  first_forward boxer \/ meets_all C boxer ->
  build_shape C boxer order ext k un c = Ok s ->
  forall x, inb R ext x -> in_solid R s x -> holds R (b_def c) x.
Proof.
  intros G O1 B (W & P & Q) SP FM H. apply (solid_upper C R G boxer order O1 ext c B W SP) with (loud := meets_all C boxer) (k := k) (un := un); auto.
  - intros x _. rewrite P. tauto.
  - rewrite P. split; [exact W|apply incl_refl].
  - intros pl m E. destruct FM as [FM|FM]; [left; eapply FM; eauto|right; exact FM].
Qed.

(** A definition without constants and empty lists, whose boxes can be computed, is built without
    an exception.  (Fuel is the depth of the recursion.) *)
Theorem C50_total_partial (C : cad) boxer order (ext : bx C) k un (c : bcell C) :
  orders order -> same C ext ext = true -> (forall pl k, exists m, boxer pl k = Ok m) ->
  wf (b_def c) -> full (b_def c) -> is_seq (b_def c) -> (height (b_def c) < k)%nat -> (forall z, un z = false) ->
  exists s, build_shape C boxer order ext k un c = Ok s.
Proof.
  intros O1 SM BX W F SQ HK UN. unfold build_shape. assert (E : existsb un (surfs (b_def c)) = false).
  { destruct (existsb un (surfs (b_def c))) eqn:E; auto. apply existsb_exists in E as (z & _ & E). rewrite UN in E. discriminate. }
  rewrite E. destruct (depth_total C boxer order O1 ext SM BX k c None) as (r & ->); [split; [auto|]; split; [auto|]; split; auto|congruence|]. cbn [bind]. eauto.
Qed.

(** ** concrete cases *)
Ltac wf_tac := cbn; repeat split; try lia; try (intros _; repeat constructor); try discriminate.
Lemma surfs_orders : orders surfs. Proof. intros n z. tauto. Qed.
Lemma vready side n ext : wf n -> ready (vread side) ext (vcell side n ext).
Proof. intros W. split; [exact W|]. split; [reflexivity|]. discriminate. Qed.

(** ((1 -2) : (3 -4)) -5, surface z is the point 2z; the hypotheses are met and the solid is it *)
Definition ex1 : node := Seq AND 2 [Seq OR 1 [a0 [1; -2]; a0 [3; -4]]; Lit (-5)].
Definition halves (z x : Z) : bool := 2 * z <? x.
Example C50_example :
  good_cad (vox halves) (vread halves) /\ orders surfs /\ boxes_ok (vread halves) (0, 15) (vboxer halves (0, 15)) ex1 /\
  ready (vread halves) (0, 15) (vcell halves ex1 (0, 15)) /\ separate ex1 /\ full ex1 /\ is_seq ex1 /\
  vsolid halves ex1 (0, 15) = Ok (Some [3; 4; 7; 8]) /\ vtrue halves ex1 (0, 15) = [3; 4; 7; 8].
Proof.
  split; [apply vox_good|]. split; [apply surfs_orders|]. split; [apply vboxes_ok|]. split; [apply vready; wf_tac|].
  split; [|split; [|split; [exact Logic.I|split; vm_compute; reflexivity]]].
  - right. split; [intros _; repeat constructor|]. repeat split. right. split; [discriminate|]. repeat split; left; reflexivity.
  - cbn. intuition discriminate.
Qed.
(** an external box where no box is Reversed: the first boxes are Forward *)
Definition fbox (side : Z -> Z -> bool) (ext : Z * Z) (p : node * (Z * Z)) (k : Z) : res (abox (Z * Z)) :=
  Ok (AB (hullz k (filter (vin side (fst p)) (range (fst ext) (snd ext)))) Fwd).
Lemma fbox_ok side ext n : boxes_ok (vread side) ext (fbox side ext) n.
Proof.
  intros d out k m _ _ H. injection H as <-. intros x X. cbn in X. assert (RX : In x (range (fst ext) (snd ext))) by now apply range_In.
  cbn [a_or a_box fst]. destruct (vin side d x) eqn:I1.
  - destruct (hullz_ok k (filter (vin side d) (range (fst ext) (snd ext))) x) as (b & -> & B); [apply filter_In; auto|]. intros _. exact B.
  - destruct (hullz k _); unfold holds; cbn; change (eval _ d) with (vin side d x); rewrite I1; discriminate.
Qed.
Example C50_forward_example :
  first_forward (C := vox halves) (fbox halves (0, 15)) /\ boxes_ok (vread halves) (0, 15) (fbox halves (0, 15)) ex1 /\
  build_shape (vox halves) (fbox halves (0, 15)) surfs (0, 15) 10 (fun _ => false) (vcell halves ex1 (0, 15)) = Ok (Some [3; 4; 7; 8]).
Proof. split; [intros pl m [= <-]; reflexivity|]. split; [apply fbox_ok|]. vm_compute. reflexivity. Qed.

(** ** what goes wrong without the conditions *)
(** ((1 3) : (-1 4)) ((1 5) : (-1 6)): joining the union records the side of 1 as unknown and it is
    never asked again; the whole solid is lost, without a message. *)
Definition ex2 : node := Seq AND 2 [Seq OR 1 [a0 [1; 3]; a0 [-1; 4]]; Seq OR 1 [a0 [1; 5]; a0 [-1; 6]]].
Definition sides2 (z x : Z) : bool := match z with 1 => 8 <=? x | _ => z <=? x end.
Theorem C50_lost_refuted : exists (C : cad) (R : reading C) boxer order ext k un (c : bcell C) s x,
  good_cad C R /\ orders order /\ boxes_ok R ext boxer (b_def c) /\ ready R ext c /\ full (b_def c) /\
  build_shape C boxer order ext k un c = Ok s /\ inb R ext x /\ holds R (b_def c) x /\ ~ in_solid R s x.
Proof.
  exists (vox sides2), (vread sides2), (vboxer sides2 (0, 15)), surfs, (0, 15), 10%nat, (fun _ => false), (vcell sides2 ex2 (0, 15)), None, 10.
  split; [apply vox_good|]. split; [apply surfs_orders|]. split; [apply vboxes_ok|]. split; [apply vready; wf_tac|]. split; [cbn; intuition discriminate|].
  split; [vm_compute; reflexivity|]. split; [cbn; lia|]. split; [reflexivity|]. intros [].
Qed.
(** ((1 3) : (-1 4)) ((3 5) : (-5 6)): the side of 3, found for the first part of the union only,
    is taken for the whole union: points 4 and 5 are added. *)
Definition ex3 : node := Seq AND 2 [Seq OR 1 [a0 [1; 3]; a0 [-1; 4]]; Seq OR 1 [a0 [3; 5]; a0 [-5; 6]]].
Definition sides3 (z x : Z) : bool := match z with 1 => 8 <=? x | 3 => 6 <=? x | 4 => 2 <=? x | 5 => 4 <=? x | _ => x <=? 2 end.
Theorem C50_extra_refuted : exists (C : cad) (R : reading C) boxer order ext k un (c : bcell C) s x,
  good_cad C R /\ orders order /\ boxes_ok R ext boxer (b_def c) /\ ready R ext c /\ full (b_def c) /\ first_forward boxer /\
  build_shape C boxer order ext k un c = Ok s /\ inb R ext x /\ in_solid R s x /\ ~ holds R (b_def c) x.
Proof.
  exists (vox sides3), (vread sides3), (fbox sides3 (0, 15)), surfs, (0, 15), 10%nat, (fun _ => false), (vcell sides3 ex3 (0, 15)).
  eexists (Some _), 4.
  split; [apply vox_good|]. split; [apply surfs_orders|]. split; [apply fbox_ok|]. split; [apply vready; wf_tac|]. split; [cbn; intuition discriminate|].
  split; [intros pl m [= <-]; reflexivity|].
  split; [vm_compute; reflexivity|]. split; [cbn; lia|]. split; [cbn; tauto|]. discriminate.
Qed.
(** (3 : 1) (3 : 2), the outside of two bodies with a far part 3: a Reversed part that does not meet
    the Reversed box brings in the whole second factor, here the inside of body 1. *)
Definition ex5 : node := Seq AND 1 [o0 [3; 1]; o0 [3; 2]].
Definition sides5 (z x : Z) : bool := match z with 1 => negb ((3 <=? x) && (x <=? 5)) | 2 => negb ((7 <=? x) && (x <=? 8)) | _ => 12 <=? x end.
Theorem C50_far_refuted : exists (C : cad) (R : reading C) boxer order ext k un (c : bcell C) s x,
  good_cad C R /\ orders order /\ boxes_ok R ext boxer (b_def c) /\ ready R ext c /\ full (b_def c) /\ separate (b_def c) /\
  build_shape C boxer order ext k un c = Ok s /\ inb R ext x /\ in_solid R s x /\ ~ holds R (b_def c) x.
Proof.
  exists (vox sides5), (vread sides5), (vboxer sides5 (0, 15)), surfs, (0, 15), 10%nat, (fun _ => false), (vcell sides5 ex5 (0, 15)).
  eexists (Some _), 4.
  split; [apply vox_good|]. split; [apply surfs_orders|]. split; [apply vboxes_ok|]. split; [apply vready; wf_tac|]. split; [cbn; intuition discriminate|].
  split; [right; split; [intros _; constructor; [constructor; [right; intros z []|constructor]|repeat constructor]|repeat split; left; reflexivity]|].
  split; [vm_compute; reflexivity|]. split; [cbn; lia|]. split; [cbn; tauto|]. discriminate.
Qed.
