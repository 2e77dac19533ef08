(** Property C57 for the files: the written cells, read with their surface cards, are true where the cells of the
    conversion are. *)
From Coq Require Import QArith Reals String Lra.
From Verif Require Import PhitsVoid ExportMerged.
From Verif Require Import Prelude BoolSpec BoolSeq BoolProofs SurfDict ConePlanes.
From Verif Require Vec3 Geom Export ExportSpec ExportProofs ExportProofs3 PropsExport PropsPhitsFile.
From Verif Require Import VoidBoxes VoidBoxSpec VoidBoxProofs BoxDef BoxSpec VoidAll VoidAllProofs VoidCell Ctable CellDef Start StartProofs PropsBool PropsBox PropsStart.
Import Vec3 Geom Export ExportSpec.
Open Scope Z_scope.

(** the cells with a definition (the others are comment lines) *)
Definition defined (m : mcell) : bool := match m_id m, m_def m with Some _, Some _ => true | _, _ => false end.

Lemma cell_true_defined v ms : (forall m, In m ms -> m_id m = None -> m_def m = None) ->
  List.length (filter (cell_true v) ms) = List.length (filter (cell_true v) (filter defined ms)).
Proof.
  intros K. induction ms as [|m ms IH]; auto. cbn [filter]. unfold defined at 1. pose proof (K m (or_introl eq_refl)) as KM.
  assert (K2 : forall m, In m ms -> m_id m = None -> m_def m = None) by (intros; apply K; auto; right; auto).
  specialize (IH K2). destruct (m_id m) as [i|].
  - destruct (m_def m) as [d|] eqn:E.
    + cbn [filter]. destruct (cell_true v m); cbn [List.length]; rewrite IH; auto.
    + replace (cell_true v m) with false by (unfold cell_true; rewrite E; auto). exact IH.
  - replace (cell_true v m) with false by (unfold cell_true; rewrite KM; auto). exact IH.
Qed.
Lemma same_count {A B} (p : A -> bool) (q : B -> bool) l : forall m, map p l = map q m -> List.length (filter p l) = List.length (filter q m).
Proof.
  induction l as [|a l IH]; intros [|b m] H; try discriminate; auto. cbn [map] in H. injection H as H1 H2. cbn [filter]. rewrite H1.
  destruct (q b); cbn [List.length]; auto.
Qed.
Section Labels.
  Variable mat_of : Z -> Z.
  Variable info_of com_of : Z -> string.
  Notation labelled := (labelled mat_of info_of com_of).
  Notation label_cells := (label_cells mat_of info_of com_of).
  Notation cells_of := ExportProofs3.cells_of.

  Lemma one_cell o w v n inf m : w <> OPENMC -> (w = SERPENT -> ucard o = false) ->
    map (written_true v) (filter is_cell (cells_of o w (labelled n inf m))) = if defined m then [cell_true v m] else [].
  Proof.
    intros NO NS. unfold PhitsVoid.labelled, defined, cell_true. destruct (m_id m) as [i|]; [destruct (m_def m) as [d|]|].
    - destruct (m_void m); destruct w; try congruence; cbn [ExportProofs3.cells_of]; unfold mcnp_cell, serpent_cell, phits_cell; cbn [has_id snd]; try rewrite (NS eq_refl); cbn [filter is_cell map written_true]; f_equal; try reflexivity;
        match goal with |- context [if ?b then _ else _] => destruct b end; try reflexivity; destruct (is_graveyard _); try reflexivity; destruct (String.eqb _ _); reflexivity.
    - destruct w; try congruence; reflexivity.
    - destruct w; try congruence; reflexivity.
  Qed.
  Lemma all_cells o w v : w <> OPENMC -> (w = SERPENT -> ucard o = false) -> forall ms n,
    map (written_true v) (filter is_cell (flat_map (cells_of o w) (label_cells n ms))) = map (cell_true v) (filter defined ms).
  Proof.
    intros NO NS. induction ms as [|m ms IH]; intros n; auto. cbn [PhitsVoid.label_cells flat_map]. cbn zeta.
    rewrite filter_app, map_app, IH, one_cell by auto. cbn [filter]. destruct (defined m); reflexivity.
  Qed.
  Lemma omc_cell o v n inf m : (m_void m = true -> inf <> "Graveyard"%string) -> (forall i, info_of i <> "Graveyard"%string) ->
    map (written_true v) (filter is_cell (cells_of o OPENMC (labelled n inf m))) = if defined m then [cell_true v m] else [].
  Proof.
    intros NI NS. unfold PhitsVoid.labelled, defined, cell_true. destruct (m_id m) as [i|]; [destruct (m_def m) as [d|]|]; try reflexivity.
    destruct (m_void m); cbn [ExportProofs3.cells_of]; unfold openmc_cell, is_graveyard; cbn [info has_id].
    - destruct (String.eqb_spec inf "Graveyard"); [exfalso; apply NI; auto|reflexivity].
    - destruct (String.eqb_spec (info_of i) "Graveyard"); [exfalso; eapply NS; eauto|reflexivity].
  Qed.
  Lemma omc_all o v m : (forall i, info_of i <> "Graveyard"%string) -> m_void m = true -> forall ms n,
    map (written_true v) (filter is_cell (flat_map (cells_of o OPENMC) (label_cells n (ms ++ [m])))) = map (cell_true v) (filter defined ms).
  Proof.
    intros NS VM. induction ms as [|x ms IH]; intros n.
    - cbn [app PhitsVoid.label_cells flat_map]. cbn zeta. rewrite app_nil_r. unfold PhitsVoid.labelled. rewrite VM.
      destruct (m_id m); [destruct (m_def m)|]; reflexivity.
    - cbn [app PhitsVoid.label_cells flat_map]. cbn zeta. rewrite filter_app, map_app, IH, omc_cell; auto.
      + cbn [filter]. destruct (defined x); reflexivity.
      + intros _. destruct ms as [|y [|z ms]]; cbn [app]; discriminate.
  Qed.
End Labels.

(** For every list of cells with labels (core.py 559-593), any history of writers before and every format: at every point
    on no plane, the written cells that are true, read with the cards of the file, are those of the definitions, read with
    the surfaces of the model, in the same order.  PHITS with one void cell is C58; Serpent with a universe number
    writes each cell twice; OpenMC leaves out the last cell (outside of the sphere). *)
Theorem C57_written_partial : forall mat_of info_of com_of sc ms o ws w st0 st out st',
  cells st0 = label_cells mat_of info_of com_of sc ms ->
  ready st0 -> aligned (pln_tol o) (surfaces st0) -> (prnt3 o = true -> points_ok (surfaces st0)) ->
  (w = PHITS -> uni_void o = false) -> (w = SERPENT -> ucard o = false) ->
  (w = OPENMC -> (forall i, info_of i <> "Graveyard"%string) /\ exists ms0 m, ms = ms0 ++ [m] /\ m_void m = true) ->
  ~ In PHITS ws -> prnt3 o = false \/ Nat.Even (three_point_writers ws) ->
  writers o ws st0 = Ok st -> write_one o w st = Ok (out, st') ->
  forall other x v0 v1, off_planes x (surfaces st0) -> cad_sides other x (surfaces st0) v0 -> card_sides other x (o_surfs out) v1 ->
    map (written_true v1) (filter is_cell (o_cells out)) =
    map (cell_true v0) (filter defined (match w with OPENMC => removelast ms | _ => ms end)) /\
    (w <> OPENMC -> List.length (filter (written_true v1) (o_cells out)) = List.length (filter (cell_true v0) (filter defined ms))).
Proof.
  intros mat_of info_of com_of sc ms o ws w st0 st out st' HC RD A PO K KS KO NP EV HW H1 other x v0 v1 OFF C0 C1.
  destruct (PropsExport.ready_defs _ RD) as (G & D & RG).
  pose proof (plain_regions o w ws st0 st out st' G A PO RG K NP (PropsExport.parity_even _ _ EV) HW H1) as F2. rewrite HC in F2.
  assert (E : map (written_true v1) (filter is_cell (o_cells out)) = map (written_true v0) (filter is_cell (flat_map (ExportProofs3.cells_of o w) (label_cells mat_of info_of com_of sc ms)))).
  { apply (PropsPhitsFile.F2_map (same_ocell st0 out)).
    - intros a b X. destruct a as [s|lab m e n ex cm inf], b as [s'|lab' m' e' n' ex' cm' inf']; cbn in X; try contradiction; auto.
      destruct X as (_ & _ & _ & _ & _ & _ & SR). cbn. exact (SR other x v0 v1 OFF C0 C1).
    - eapply PropsPhitsFile.F2_filter; [apply PropsPhitsFile.same_is_cell|exact F2]. }
  assert (E2 : map (written_true v1) (filter is_cell (o_cells out)) = map (cell_true v0) (filter defined (match w with OPENMC => removelast ms | _ => ms end))).
  2:{ split; [exact E2|]. intros NW. assert (X : filter (written_true v1) (o_cells out) = filter (written_true v1) (filter is_cell (o_cells out))).
      { symmetry. apply filter_both. intros []; [discriminate|reflexivity]. }
      rewrite X. apply same_count. rewrite E2. destruct w; congruence. }
  rewrite E. destruct w; try (apply all_cells; [discriminate|auto; discriminate]).
  destruct (KO eq_refl) as (NI & ms0 & m & -> & VM). rewrite removelast_last. apply omc_all; auto.
Qed.

(** The conversion of C57_ex, exported in MCNP, Serpent or PHITS format with all its void cells: at every place, exactly one of the
    43 cells of the file is true. *)
Definition opt57 : opts := PropsExport.opt1 false false.
Lemma cells57_some : forall m, In m cells57 -> m_id m = None -> m_def m = None.
Proof.
  assert (X : forallb (fun m => match m_id m, m_def m with None, Some _ => false | _, _ => true end) cells57 = true) by (vm_compute; reflexivity).
  rewrite forallb_forall in X. intros m J. specialize (X m J). destruct (m_id m); [discriminate|]. destruct (m_def m); [discriminate|auto].
Qed.
Lemma written57 st0 w : ready st0 -> aligned (pln_tol PropsPhitsFile.opt58) (surfaces st0) -> w <> OPENMC ->
  cells st0 = label_cells (fun i => i) (fun _ => "steel"%string) (fun _ => ""%string) 1 cells57 ->
  exists d' out st', start nat cls0 same0 opp57 opp57 opp57 (fun _ => true) (fun g => g) (fun l => l) (fun l => l) pbox57
      false 20 ascending mkno SNo 6 1 1 l57 (cube 8) 0%nat d57 = Ok (d', cells57) /\
    write_one opt57 w st0 = Ok (out, st') /\
    forall p other x v0 v1, off_planes x (surfaces st0) -> cad_sides other x (surfaces st0) v0 -> card_sides other x (o_surfs out) v1 ->
    BoxSpec.agrees nat (fun _ => negb (in_sphere (cube 8) p)) p v0 d' ->
    List.length (filter (written_true v1) (o_cells out)) = 1%nat.
Proof.
  intros RDY AL NW HC. destruct (PropsExport.C28_total opt57 w st0 RDY) as (out & st' & HW); [intros [=]|intros [=]|reflexivity|].
  destruct C57_ex as (d' & E & _ & K). exists d', out, st'. split; [exact E|]. split; [exact HW|].
  intros p other x v0 v1 OFF C0 C1 AV. specialize (K p v0 AV).
  assert (Q1 : prnt3 opt57 = true -> points_ok (surfaces st0)) by (intros [=]).
  assert (Q2 : w = PHITS -> uni_void opt57 = false) by (intros _; reflexivity).
  assert (Q3 : w = SERPENT -> ucard opt57 = false) by (intros _; reflexivity).
  assert (Q5 : ~ In PHITS []) by (intros []).
  assert (Q6 : prnt3 opt57 = false \/ Nat.Even (three_point_writers [])) by (left; reflexivity).
  assert (AL2 : aligned (pln_tol opt57) (surfaces st0)) by exact AL.
  revert HC E K. generalize cells57_some. generalize cells57. intros ms CS HC E K.
  assert (Q4 : w = OPENMC -> (forall i : Z, "steel"%string <> "Graveyard"%string) /\ exists ms0 m, ms = ms0 ++ [m] /\ m_void m = true) by (intros X; congruence).
  destruct (C57_written_partial (fun i => i) (fun _ => "steel"%string) (fun _ => ""%string) 1 ms opt57 [] w st0 st0 out st' HC RDY AL2 Q1 Q2 Q3 Q4 Q5 Q6 eq_refl HW
    other x v0 v1 OFF C0 C1) as (_ & M).
  rewrite (M NW), <- cell_true_defined; [exact K|exact CS].
Qed.
Lemma cells60_one : cells PropsPhitsFile.state60 = label_cells (fun i => i) (fun _ => "steel"%string) (fun _ => ""%string) 1 cells57.
Proof. rewrite PropsPhitsFile.cells60. unfold PropsPhitsFile.lab58. reflexivity. Qed.
Example C57_written_ex : forall w, w <> OPENMC -> exists d' out st',
    start nat cls0 same0 opp57 opp57 opp57 (fun _ => true) (fun g => g) (fun l => l) (fun l => l) pbox57
      false 20 ascending mkno SNo 6 1 1 l57 (cube 8) 0%nat d57 = Ok (d', cells57) /\
    write_one opt57 w PropsPhitsFile.state60 = Ok (out, st') /\
    forall p other x v0 v1, off_planes x (surfaces PropsPhitsFile.state60) -> cad_sides other x (surfaces PropsPhitsFile.state60) v0 -> card_sides other x (o_surfs out) v1 ->
    BoxSpec.agrees nat (fun _ => negb (in_sphere (cube 8) p)) p v0 d' ->
    List.length (filter (written_true v1) (o_cells out)) = 1%nat.
Proof. intros w NW. exact (written57 PropsPhitsFile.state60 w PropsPhitsFile.ready60 PropsPhitsFile.aligned60 NW cells60_one). Qed.
Print Assumptions C57_written_partial.
