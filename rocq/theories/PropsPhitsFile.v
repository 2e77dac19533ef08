(** Properties C28 and C58: the PHITS file with one void cell, with its surface cards. *)
From Coq Require Import QArith Reals Permutation String Lra.
From Verif Require Import PhitsVoid ExportMerged.
From Verif Require Import Prelude BoolSpec BoolSeq BoolProofs BoolProofs2 CtSpec Ctable VoidCell SurfDict SurfDictProofs
  CellDef CellDefSpec CellDefProofs CellDefProofs2 CellDefProofs3 ConePlanes ConeSpec ConeProofs ConeProofs2 OnProofs OnProofs2 OnCell OnModel OnSpec.
From Verif Require Vec3 Geom GeomSpec Export ExportSpec ExportProofs ExportProofs2 ExportProofs3 ExportProofs4 PropsExport.
From Verif Require Import VoidBoxes VoidBoxSpec VoidBoxProofs VoidLoopProofs BoxDef BoxSpec BoxDefProofs VoidAll VoidAllProofs PropsBool PropsBox Start StartProofs
  ConeStart PropsStart PropsStartCones PropsPhits.
Import Vec3 Geom Export ExportSpec.
Open Scope Z_scope.

(** ** The file is the one of the definitions
    After any history of writers of other formats, the PHITS file with one void cell is, with the surface
    cards, the merged file of the definitions, cell by cell.  With three point planes the number of
    earlier writers that print them must be even (C28_three_points_refuted). *)
Theorem C28_merged_partial : forall o ws st0 st out st',
  ready st0 -> aligned (pln_tol o) (surfaces st0) -> (prnt3 o = true -> points_ok (surfaces st0)) ->
  uni_void o = true -> ~ In PHITS ws -> prnt3 o = false \/ Nat.Even (three_point_writers ws) ->
  writers o ws st0 = Ok st -> write_one o PHITS st = Ok (out, st') ->
  exists file, merged_file (start_cell o) (cells st0) = Ok file /\ Forall2 (same_ocell st0 out) file (o_cells out).
Proof.
  intros o ws st0 st out st' R A PO U NP E HW H1. destruct (PropsExport.ready_defs _ R) as (G & D & RD).
  eapply merged_regions; eauto. apply PropsExport.parity_even; auto.
Qed.
Theorem C28_merged_total : forall o st, ready st -> (prnt3 o = true -> points_ok (surfaces st)) ->
  (void_gen o = true -> group (surfaces st) Sph <> []) -> uni_void o = true ->
  exists out st', write_one o PHITS st = Ok (out, st').
Proof. intros o st R PO SO U. destruct (PropsExport.ready_defs _ R) as (G & D & _). apply merged_total; auto. Qed.

(** ** Its meaning with the cards *)
Lemma same_truth st0 out other x v0 v1 f f' : off_planes x (surfaces st0) -> cad_sides other x (surfaces st0) v0 -> card_sides other x (o_surfs out) v1 ->
  Forall2 (same_ocell st0 out) f f' -> forall i, numbered_true v1 f' i = numbered_true v0 f i.
Proof.
  intros OFF C0 C1 H i. induction H as [|a b f f' X F IH]; auto. unfold numbered_true in *. cbn [existsb]. rewrite IH. f_equal.
  destruct a as [s|lab m g n ex cm inf], b as [s'|lab' m' g' n' ex' cm' inf']; cbn in X; try contradiction; auto.
  destruct X as (-> & -> & -> & -> & -> & -> & SR). rewrite (SR other x v0 v1 OFF C0 C1). reflexivity.
Qed.
Lemma F2_filter {A B} (R : A -> B -> Prop) p q l m : (forall a b, R a b -> q b = p a) -> Forall2 R l m -> Forall2 R (filter p l) (filter q m).
Proof. intros K. induction 1 as [|a b l m X F IH]; [constructor|]. cbn [filter]. rewrite (K _ _ X). destruct (p a); auto. Qed.
Lemma same_is_cell st0 out a b : same_ocell st0 out a b -> is_cell b = is_cell a.
Proof. destruct a, b; cbn; try contradiction; auto. Qed.
Lemma same_number st0 out a b : same_ocell st0 out a b -> number_of b = number_of a.
Proof. destruct a, b; cbn; try contradiction; tauto. Qed.
Lemma same_outside st0 out a b : same_ocell st0 out a b -> outside b = outside a.
Proof. destruct a, b; cbn; try contradiction; tauto. Qed.
Lemma same_one st0 out other x v0 v1 g g' a b : off_planes x (surfaces st0) -> cad_sides other x (surfaces st0) v0 -> card_sides other x (o_surfs out) v1 ->
  (forall i, numbered_true v1 g' i = numbered_true v0 g i) -> same_ocell st0 out a b -> phits_true v1 g' b = phits_true v0 g a.
Proof.
  intros OFF C0 C1 HN X. destruct a as [s|lab m e n ex cm inf], b as [s'|lab' m' e' n' ex' cm' inf']; cbn in X; try contradiction; auto.
  destruct X as (-> & -> & -> & -> & -> & -> & SR). cbn [phits_true]. rewrite (SR other x v0 v1 OFF C0 C1). f_equal.
  clear - HN. induction ex as [|i ex IH]; auto. cbn [forallb]. rewrite IH, HN. reflexivity.
Qed.
Lemma F2_map {A B C} (R : A -> B -> Prop) (p : A -> C) (q : B -> C) (K : forall a b, R a b -> q b = p a) l m : Forall2 R l m -> map q m = map p l.
Proof. induction 1; cbn; auto. rewrite (K _ _ H). congruence. Qed.
Lemma F2_length {A B} (R : A -> B -> Prop) l m : Forall2 R l m -> List.length m = List.length l.
Proof. induction 1; cbn; auto. Qed.

(** For every conversion as in C58_merged whose cells are exported to PHITS with one void cell (after any history
    of other writers), at every point [x] on no plane: if the void cells of the conversion are right at [x] (C57), read with the
    surfaces of the model, so is the file, read with its cards. *)
Theorem C58_written_partial : forall T cls same opp opp_x opp_c al apex sord iord pbox strict k ord mk mode maxsurf maxbracket minSize
    o (h : list (op (surface T))) d l u sph d' ms mat_of info_of com_of opt ws st0 st out st',
  0 <= o -> (forall i, ~ In (Del i) h) -> run (surface T) cls same h (empty o) = Ok d -> (forall l, Permutation (sord l) l) ->
  (forall i ps pc f, In (i, ps) l -> In pc ps -> In f (p_faces pc) -> found cls same d (p_inv pc) f) ->
  start T cls same opp opp_x opp_c al apex sord iord pbox strict k ord mk mode maxsurf maxbracket minSize l u sph d = Ok (d', ms) ->
  cells st0 = label_cells mat_of info_of com_of (start_cell opt) ms ->
  ready st0 -> aligned (pln_tol opt) (surfaces st0) -> (prnt3 opt = true -> points_ok (surfaces st0)) ->
  uni_void opt = true -> ~ In PHITS ws -> prnt3 opt = false \/ Nat.Even (three_point_writers ws) ->
  writers opt ws st0 = Ok st -> write_one opt PHITS st = Ok (out, st') ->
  exists outs inner outer,
    filter is_cell (o_cells out) = outs ++ [inner; outer] /\
    map number_of outs = map (fun i => start_cell opt + Z.of_nat i) (seq 0 (List.length (solids ms))) /\
    NoDup (map number_of (outs ++ [inner; outer])) /\ outside outer = true /\ outside inner = false /\
    forall other x v0 v1, off_planes x (surfaces st0) -> cad_sides other x (surfaces st0) v0 -> card_sides other x (o_surfs out) v1 ->
      List.length (filter (cell_true v0) (filter m_void ms)) = (if existsb (cell_true v0) (solids ms) then 0 else 1)%nat ->
      phits_true v1 (o_cells out) inner = negb (existsb (cell_true v0) (solids ms)) && negb (phits_true v1 (o_cells out) outer) /\
      (existsb (cell_true v0) (solids ms) = true -> phits_true v1 (o_cells out) outer = false) /\
      map (phits_true v1 (o_cells out)) outs = map (cell_true v0) (solids ms) /\
      List.length (filter (phits_true v1 (o_cells out)) (o_cells out)) = Nat.max 1 (List.length (filter (cell_true v0) (solids ms))).
Proof.
  intros T cls same opp opp_x opp_c al apex sord iord pbox strict k ord mk mode maxsurf maxbracket minSize o h d l u sph d' ms mat_of info_of com_of opt ws st0 st out st'
    HO ND R HS HF H HC RD A PO UV NP EV HW H1.
  destruct (C28_merged_partial opt ws st0 st out st' RD A PO UV NP EV HW H1) as (file & EF & F2). rewrite HC in EF.
  destruct (C58_merged T cls same opp opp_x opp_c al apex sord iord pbox strict k ord mk mode maxsurf maxbracket minSize o h d l u sph d' ms mat_of info_of com_of (start_cell opt)
    HO ND R HS HF H) as (file' & outs & inner & outer & E1 & E2 & ED & EN & HO0 & HI0 & HOU & II & OU & NDN & M).
  assert (file' = file) by congruence. subst file'. clear E1.
  assert (FC : Forall2 (same_ocell st0 out) (filter is_cell file) (filter is_cell (o_cells out))) by (eapply F2_filter; [apply same_is_cell|exact F2]).
  rewrite E2 in FC. apply Forall2_app_inv_l in FC. destruct FC as (outs' & two & FO & FT & EO).
  inversion FT as [|? inner' ? r XI FT1]; subst. inversion FT1 as [|? outer' ? r' XO FT2]; subst. inversion FT2; subst. clear FT FT1 FT2.
  exists outs', inner', outer'. split; [exact EO|].
  assert (SN : Forall2 (same_ocell st0 out) (outs ++ [inner; outer]) (outs' ++ [inner'; outer'])) by (apply Forall2_app; auto).
  split; [rewrite <- EN; apply (F2_map _ _ _ (same_number st0 out)), FO|].
  split; [rewrite (F2_map _ _ _ (same_number st0 out) _ _ SN); exact NDN|].
  split; [rewrite (same_outside _ _ _ _ XO); exact OU|]. split; [rewrite (same_outside _ _ _ _ XI); exact II|].
  intros other x v0 v1 OFF C0 C1 V. pose proof (same_truth st0 out other x v0 v1 _ _ OFF C0 C1 F2) as TN.
  assert (TT : forall a b, same_ocell st0 out a b -> phits_true v1 (o_cells out) b = phits_true v0 file a) by (intros a b X; eapply same_one; eauto).
  destruct (M v0 V) as (M1 & M2 & M3 & M4).
  rewrite (TT _ _ XI), (TT _ _ XO). split; [exact M1|]. split; [exact M2|]. split.
  - rewrite (F2_map _ _ _ TT _ _ FO). clear - ED HO0. revert ED HO0. generalize (solids ms) as sl. induction outs as [|c outs IH]; intros [|m sl] ED HO0; try discriminate; auto.
    cbn [map] in *. injection ED as E1 ED. f_equal; [|apply IH; [exact ED|intros; apply HO0; right; auto]]. destruct (HO0 c (or_introl eq_refl)) as (HH & _).
    unfold cell_true. rewrite <- E1. destruct c; cbn in *; auto. rewrite HH. cbn. apply andb_true_r.
  - rewrite <- M4. clear - TT F2. revert TT. generalize (phits_true v1 (o_cells out)) as q, (phits_true v0 file) as p. intros q p TT.
    induction F2 as [|a b f f' X F IH]; auto. cbn [filter]. rewrite (TT _ _ X). destruct (p a); cbn [List.length]; congruence.
Qed.

(** ** Examples *)
(** A cell on the negative side of the plane x = -5 mm (normal to -x, so its sign is changed), the
    space inside the sphere 2 without the box [-1] and the space outside of the sphere. *)
Definition cls58 (g : geom) : key := match g with GPlane _ => PX | GOther _ => Sph end.
Definition dict58 : sdict geom := fst (add geom cls58 (fun _ _ => false) (GOther 0) (fst (add geom cls58 (fun _ _ => false) (GPlane PropsExport.planeX) (empty 0)))).
Definition state58 : state :=
  St [Cell true 1 7 false "steel" "solid" (Seq AND 0 [Lit 1]);
      Cell true 2 0 true "Graveyard_in" "in" (Seq AND 1 [Lit (-2); Seq OR 0 [Lit (-1)]]);
      Cell true 3 0 true "Graveyard" "out" (Seq AND 0 [Lit 2])] dict58.
Definition opt58 : opts := PropsExport.opt1 false true.
Lemma ready58 : ready state58.
Proof.
  assert (R1 : exists k s, In s (group dict58 k) /\ index s = 1) by (exists PX; eexists; split; [left; reflexivity|reflexivity]).
  assert (R2 : exists k s, In s (group dict58 k) /\ index s = 2) by (exists Sph; eexists; split; [left; reflexivity|reflexivity]).
  split.
  - exists cls58, (fun _ _ => false), 0%Z, [Add (GPlane PropsExport.planeX); Add (GOther 0)]. split; [lia|]. split; [intros i [C|[C|[]]]; discriminate|reflexivity].
  - intros c [<-|[<-|[<-|[]]]] _; cbn [def state58]; (split; [exact Logic.I|]); (split; [cbn; tauto|]).
    + split; [cbn; repeat split; try lia; intros; repeat constructor; cbn; lia|]. intros z [<-|[]]. exact R1.
    + split; [cbn; repeat split; try lia; intros; repeat constructor; cbn; lia|]. intros z [<-|[<-|[]]]; [exact R2|exact R1].
    + split; [cbn; repeat split; try lia; intros; repeat constructor; cbn; lia|]. intros z [<-|[]]. exact R2.
Qed.
Lemma aligned58 : aligned (pln_tol opt58) (surfaces state58).
Proof.
  repeat split; cbn; try (intros; contradiction); try Lra.lra.
  - intros s [<-|[]]. exists PropsExport.planeX, (-1)%R. cbn. repeat split; auto. Lra.lra.
  - intros k s [<-|[<-|[<-|[<-|[]]]]] H; cbn in H; try contradiction. destruct H as [<-|[]]. eexists. reflexivity.
Qed.
Example C28_merged_ex : forall out st', write_one opt58 PHITS state58 = Ok (out, st') ->
  o_cells out = [OCell 1 7 false (Seq AND 0 [Lit (-1)]) [] "solid" "steel";
                 OCell 2 0 false (Seq AND 1 [Lit (-2)]) [1] "VOID CELLs merged" "Inner void";
                 OCell 3 0 true (Seq AND 0 [Lit 2]) [] "out" "Outer void"].
Proof.
  intros out st' H. unfold write_one, state58, dict58, simplify_planes in H.
  cbn -[plane_card negb_R] in H. replace (negb_R (-1)) with true in H by (symmetry; apply ExportProofs2.negb_R_true; Lra.lra).
  cbn -[plane_card negb_R] in H. injection H as <- <-. reflexivity.
Qed.
(** The conversion of C57_ex, exported: at every place, exactly one of the four cells of the file is true.
    (Its surfaces are here given by their sides [other] only, so that no sign changes.) *)
Definition count58 : nat := 60.
Definition dict60 : sdict geom := match run geom (fun _ => Sph) (fun _ _ => false) (map (fun i => Add (GOther (Z.of_nat i))) (seq 1 count58)) (empty 0) with Ok d => d | _ => empty 0 end.
Fixpoint okb (n : node) : bool :=
  match n with
  | Lit z => negb (z =? 0) && (Z.abs z <=? Z.of_nat count58)
  | Cst _ _ _ => false
  | Seq _ lev l => (0 <=? lev) && (negb (lev =? 0) || forallb (fun c => match c with Lit _ => true | _ => false end) l) && forallb okb l
  end.
Lemma okb_wf n : okb n = true -> wf n /\ no_const n /\ forall z, In z (lits n) -> z <> 0 /\ Z.abs z <= Z.of_nat count58.
Proof.
  induction n as [z|op lev b|op lev l IH] using node_ind'; cbn [okb]; intros H; try discriminate.
  - apply andb_true_iff in H. destruct H as (A & B). apply negb_true_iff, Z.eqb_neq in A. apply Z.leb_le in B. split; [exact A|]. split; [exact Logic.I|].
    intros y [<-|[]]. auto.
  - apply andb_true_iff in H. destruct H as (H & C). apply andb_true_iff in H. destruct H as (A & B). apply Z.leb_le in A. rewrite forallb_forall in C.
    rewrite Forall_forall in IH. split; [|split].
    + apply wf_seq. split; auto. split.
      * intros ->. cbn in B. rewrite forallb_forall in B. apply Forall_forall. intros x J. specialize (B x J). destruct x; [exact Logic.I|discriminate..].
      * apply Forall_forall. intros x J. exact (proj1 (IH x J (C x J))).
    + apply (BoolEditProofs.no_const_seq op lev). apply Forall_forall. intros x J. exact (proj1 (proj2 (IH x J (C x J)))).
    + intros z J. cbn in J. apply in_flat_map in J. destruct J as (x & J & K). exact (proj2 (proj2 (IH x J (C x J))) z K).
Qed.
Lemma built60 : built dict60 /\ group dict60 Sph = map (fun i => Surf (Z.of_nat i) (GOther (Z.of_nat i))) (seq 1 count58) /\ forall k, k <> Sph -> group dict60 k = [].
Proof.
  split; [|split].
  - exists (fun _ => Sph), (fun _ _ => false), 0, (map (fun i => Add (GOther (Z.of_nat i))) (seq 1 count58)). split; [lia|]. split.
    + intros i J. apply in_map_iff in J. destruct J as (x & J & _). discriminate.
    + unfold dict60. assert (C : match run geom (fun _ => Sph) (fun _ _ => false) (map (fun i => Add (GOther (Z.of_nat i))) (seq 1 count58)) (empty 0) with Ok _ => true | _ => false end = true) by (vm_compute; reflexivity).
      destruct (run _ _ _ _ _); [reflexivity|discriminate..].
  - vm_compute. reflexivity.
  - intros k K. destruct k; try congruence; vm_compute; reflexivity.
Qed.
Definition lab58 : list Verif.Export.cell := label_cells (fun i => i) (fun _ => "steel"%string) (fun _ => ""%string) 1 cells57.
Definition state60 : state := St lab58 dict60.
Lemma lab58_eq : lab58 = label_cells (fun i => i) (fun _ => "steel"%string) (fun _ => ""%string) (start_cell opt58) cells57.
Proof. unfold lab58. change (start_cell opt58) with 1. reflexivity. Qed.
Lemma cells60 : cells state60 = lab58.
Proof. unfold state60. cbn [cells]. reflexivity. Qed.
Lemma lab58_ok : forallb (fun c => negb (has_id c) || (okb (def c) && match def c with Seq _ _ _ => true | _ => false end)) lab58 = true.
Proof. vm_compute. reflexivity. Qed.
Lemma ready60 : ready state60.
Proof.
  destruct built60 as (B & G & _). split; [exact B|]. intros c J ID. rewrite cells60 in J. pose proof lab58_ok as K.
  rewrite forallb_forall in K. specialize (K c J). rewrite ID in K. cbn [negb orb] in K. apply andb_true_iff in K. destruct K as (K & S).
  apply okb_wf in K. destruct K as (W & N & L). split; [destruct (def c); [discriminate|exact Logic.I..]|]. split; auto. split; auto.
  intros z Z. destruct (L z Z) as (NZ & LE). exists Sph, (Surf (Z.abs z) (GOther (Z.abs z))). split; [|reflexivity]. cbn [surfaces state60]. rewrite G.
  apply in_map_iff. exists (Z.to_nat (Z.abs z)). rewrite Z2Nat.id by lia. split; auto. apply in_seq. lia.
Qed.
Lemma aligned60 : aligned (pln_tol opt58) (surfaces state60).
Proof.
  destruct built60 as (_ & G & E). change (surfaces state60) with dict60. change (pln_tol opt58) with (1/1000)%R. unfold aligned. revert G E. generalize dict60. intros d60 G E.
  rewrite (E PX), (E PY), (E PZ), (E PP) by discriminate.
  split; [intros s []|]. split; [intros s []|]. split; [intros s []|]. split; [intros s []|]. split; [|Lra.lra].
  intros k s KI H. destruct KI as [<-|[<-|[<-|[<-|[]]]]]; try (rewrite E in H by discriminate; destruct H).
  rewrite G in H. apply in_map_iff in H. destruct H as (i & <- & _). eexists. reflexivity.
Qed.
Lemma written58 st0 : ready st0 -> aligned (pln_tol opt58) (surfaces st0) ->
  cells st0 = label_cells (fun i => i) (fun _ => "steel"%string) (fun _ => ""%string) (start_cell opt58) cells57 ->
  exists d' out st', start57 false = Ok (d', cells57) /\ write_one opt58 PHITS st0 = Ok (out, st') /\ forall p other x v0 v1, off_planes x (surfaces st0) -> cad_sides other x (surfaces st0) v0 -> card_sides other x (o_surfs out) v1 ->
    BoxSpec.agrees nat (fun _ => negb (in_sphere (cube 8) p)) p v0 d' ->
    List.length (filter (phits_true v1 (o_cells out)) (o_cells out)) = 1%nat.
Proof.
  intros RDY AL HC. destruct (C28_merged_total opt58 st0 RDY) as (out & st' & HW); [intros [=]|intros [=]|reflexivity|].
  destruct C57_ex as (d' & E & _ & K). exists d', out, st'. split; [exact E|]. split; [exact HW|].
  intros p other x v0 v1 OFF C0 C1 AV. specialize (K p v0 AV).
  destruct (C58_written_partial nat cls0 same0 opp57 opp57 opp57 (fun _ => true) (fun g => g) (fun l => l) (fun l => l) pbox57
    false 20 ascending mkno SNo 6 1 1 0 h57 d57 l57 (cube 8) 0%nat d' cells57 (fun i => i) (fun _ => "steel"%string) (fun _ => ""%string) opt58 [] st0 st0 out st')
    as (outs & inner & outer & _ & _ & _ & _ & _ & M).
  - lia.
  - intros i J. cbn in J. repeat (destruct J as [J|J]; [discriminate|]). destruct J.
  - exact run57.
  - auto.
  - assert (F : forall b f, In f (p_faces (box_piece b)) -> found cls0 same0 d57 (p_inv (box_piece b)) f).
    { intros b f J. assert (X : exists o q, f = flat_face o q) by (cbn in J; repeat (destruct J as [<-|J]; [eexists _, _; reflexivity|]); destruct J).
      destruct X as (o & q & ->). intros pos J2. exists (inl q). split; [reflexivity|]. split; [left; unfold CellDefSpec.plane; cbn; destruct (paxis q); auto|]. cbn. destruct (paxis q); discriminate. }
    intros i ps pc f [[= <- <-]|[[= <- <-]|[]]] [<-|[]] J; apply F; exact J.
  - exact E.
  - exact HC.
  - exact RDY.
  - exact AL.
  - intros [=].
  - reflexivity.
  - intros [].
  - left. reflexivity.
  - reflexivity.
  - exact HW.
  - rewrite (filter_split (cell_true v0) m_void cells57) in K.
    assert (C : List.length (filter (cell_true v0) (filter (fun m => negb (m_void m)) cells57)) = List.length (filter (cell_true v0) (solids cells57))).
    { rewrite (solids_true v0 cells57). reflexivity. }
    rewrite C in K.
    assert (L : existsb (cell_true v0) (solids cells57) = negb (Nat.eqb (List.length (filter (cell_true v0) (solids cells57))) 0)) by apply existsb_length.
    destruct (M other x v0 v1 OFF C0 C1) as (_ & _ & _ & M4).
    + rewrite L. destruct (List.length (filter (cell_true v0) (solids cells57))) as [|[|q]]; cbn [Nat.eqb negb]; lia.
    + rewrite M4. destruct (List.length (filter (cell_true v0) (solids cells57))) as [|[|q]]; lia.
Qed.
Lemma cells60_lab : cells state60 = label_cells (fun i => i) (fun _ => "steel"%string) (fun _ => ""%string) (start_cell opt58) cells57.
Proof. rewrite cells60. apply lab58_eq. Qed.
Example C58_written_ex : exists d' out st', start57 false = Ok (d', cells57) /\ write_one opt58 PHITS state60 = Ok (out, st') /\
  forall p other x v0 v1, off_planes x (surfaces state60) -> cad_sides other x (surfaces state60) v0 -> card_sides other x (o_surfs out) v1 ->
    BoxSpec.agrees nat (fun _ => negb (in_sphere (cube 8) p)) p v0 d' ->
    List.length (filter (phits_true v1 (o_cells out)) (o_cells out)) = 1%nat.
Proof. exact (written58 state60 ready60 aligned60 cells60_lab). Qed.
Print Assumptions C28_merged_partial.
Print Assumptions C28_merged_total.
Print Assumptions C58_written_partial.
