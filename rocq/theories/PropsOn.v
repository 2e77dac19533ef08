(** C56: every surface number in a cell is the number of a registered surface. *)
From Coq Require Import Ascii String Permutation QArith.
From Verif Require Import Prelude BoolSpec BoolSeq BoolProofs BoolProofs2 BoolEdit CellText LexSpec Writers WritersProofs ParenModel
  Wrap LexProofs WrapProofs PropsText CtSpec Ctable VoidCell SurfDict SurfDictProofs NoOverlap
  CellDef CellDefSpec CellDefProofs PropsCellDef ConePlanes ConeSpec PropsCones ParseProofs OnSpec OnProofs OnProofs2 OnText OnCell OnModel.
From Verif Require VoidBoxes PropsBox.
From Verif Require Import BoxDef VoidAll.
Open Scope Z_scope.

Definition numbers_of (l : list node) (z : Z) : Prop := exists m y, In m l /\ In y (lits m) /\ Z.abs y = z.
Lemma on_self l n : In n l -> on (numbers_of l) n.
Proof. intros I z J. exists n, z. auto. Qed.
Lemma on_from l n : on (numbers_of l) n -> from l n.
Proof. intros H z J. exact (H z J). Qed.

(** * Operations on definitions *)

(** BoolSequence.simplify, with or without a constraint table *)
Theorem C56_simplify : forall k strict ord ct dep n r,
  simplify_f k strict ord ct dep n = Ok r -> from [n] r.
Proof. intros k strict ord ct dep n r H. apply on_from. eapply simplify_f_on; [|exact H]. apply on_self. left; auto. Qed.
Theorem C56_join : forall sl n r, join sl n = Ok r -> from [n] r.
Proof. intros sl n r H. apply on_from. eapply join_on; [|exact H]. apply on_self. left; auto. Qed.
Theorem C56_complement : forall n c g, get_complementary n = Ok (c, g) -> from [n] c /\ from [n] g.
Proof.
  intros n c g H. assert (A : on (numbers_of [n]) n) by (apply on_self; left; auto).
  destruct (compl_on _ _ _ _ A H) as (B & C). split; apply on_from; auto.
Qed.
(** The void of a box with the box definition [bd] and the solids [defs] *)
Theorem C56_void : forall strict k ord mk m encl bd defs n,
  get_void strict k ord mk m encl bd defs = Ok (Some n) -> from (bd :: defs) n.
Proof.
  intros strict k ord mk m encl bd defs n H. apply on_from. eapply get_void_on; [| |exact H].
  - apply on_self. left; auto.
  - intros d I. apply on_self. right; auto.
Qed.
(** forceNoOverlap *)
Theorem C56_no_overlap : forall B meets strict k ord mk metas ds,
  no_overlapping_cell B meets strict k ord mk metas = Ok ds ->
  forall n, In (Some n) ds -> from (flat_map (fun m => match mdef m with Some d => [d] | None => [] end) metas) n.
Proof.
  intros B meets strict k ord mk metas ds H n I. apply on_from. revert n I.
  set (l := flat_map (fun m => match mdef m with Some d => [d] | None => [] end) metas).
  assert (A : Forall (onm (numbers_of l) B) metas).
  { apply Forall_forall. intros m I. unfold onm. destruct (mdef m) as [d|] eqn:E; auto. apply on_self.
    apply in_flat_map. exists m. rewrite E. split; auto. left; auto. }
  pose proof (no_overlap_on _ _ _ _ _ _ _ _ _ A H) as K. rewrite Forall_forall in K. intros n I. exact (K _ I).
Qed.
(** Parsing the text of a definition *)
Theorem C56_parse : forall (Q : Z -> Prop) sord s n, (forall l, Permutation (sord l) l) ->
  mentions mcnp s Q -> parse sord s = Ok n -> forall z, In z (lits n) -> Q (Z.abs z).
Proof. intros Q sord s n HP HM H. exact (parse_on Q sord s n HP HM H). Qed.

(** * The dictionary *)
Lemma on_known G cls o d n : dok G cls (anyg G) o d -> on (num G d) n -> known d n.
Proof.
  intros D H z I. destruct (H z I) as (s & R & E). exists s. split; auto. split; auto. intros s' R' E'.
  eapply (reg_uniq G cls (anyg G) o); eauto. congruence.
Qed.
Lemma known_on G (d : sdict G) n : known d n -> on (num G d) n.
Proof. intros H z I. destruct (H z I) as (s & R & E & _). exists s. auto. Qed.
Lemma run_any G cls same o h d : (forall i, ~ In (Del i) h) -> run G cls same h (empty o) = Ok d -> dok G cls (anyg G) o d.
Proof. intros ND R. eapply (run_dok G cls same (anyg G)); eauto. intros. exact Logic.I. Qed.

(** cellDef: when the surfaces of the faces have been registered (see CellDefSpec.found), the
    surfaces of the definition are. *)
Theorem C56_cell_def : forall G cls same opp opp_x o (h : list (op G)) d sord ps d' kept def cones,
  0 <= o -> (forall i, ~ In (Del i) h) -> run G cls same h (empty o) = Ok d -> (forall l, Permutation (sord l) l) ->
  (forall p f, In p ps -> In f (p_faces p) -> found cls same d (p_inv p) f) ->
  cell_def G cls same opp opp_x sord ps d = Ok (d', kept, def, cones) -> known d' def.
Proof.
  intros G cls same opp opp_x o h d sord ps d' kept def cones HO ND R HS HF H.
  pose proof (run_any _ _ _ _ _ _ ND R) as D.
  destruct (cell_def_on G cls same opp opp_x (anyg G) o HO sord HS ps d d' kept def cones D) as (D' & _ & ON); auto.
  - intros p I f J. split; auto. intros. exact Logic.I.
  - eapply on_known; eauto.
Qed.
(** The definition of a box, the void cells of the geometry and the graveyard cells *)
Theorem C56_box_def : forall T cls same o h d b d' n,
  0 <= o -> (forall i, ~ In (Del i) h) -> run (surface T) cls same h (empty o) = Ok d ->
  box_def T cls same b d = Ok (d', n) -> known d' n.
Proof.
  intros T cls same o h d b d' n HO ND R H. pose proof (run_any _ _ _ _ _ _ ND R) as D.
  destruct (box_def_on T cls same o HO (anyg _) (fun _ => Logic.I) _ _ _ _ D H) as (D' & _ & ON). eapply on_known; eauto.
Qed.
Theorem C56_void_cells : forall T cls same o h d strict k ord mk mode maxsurf maxbracket minSize ms u d' vs rest,
  0 <= o -> (forall i, ~ In (Del i) h) -> run (surface T) cls same h (empty o) = Ok d ->
  (forall m, In m ms -> known d (VoidBoxes.mdef m)) ->
  void_level0 T cls same strict k ord mk mode maxsurf maxbracket minSize ms u d = Ok (d', (vs, rest)) ->
  (forall n, In n vs -> known d' n) /\ (forall m, In m ms -> known d' (VoidBoxes.mdef m)).
Proof.
  intros T cls same o h d strict k ord mk mode maxsurf maxbracket minSize ms u d' vs rest HO ND R HM H.
  pose proof (run_any _ _ _ _ _ _ ND R) as D.
  destruct (void_level0_on T cls same o HO (anyg _) (fun _ => Logic.I) strict k ord mk mode maxsurf maxbracket minSize ms u d d' vs rest D) as (D' & GR & ON); auto.
  - apply Forall_forall. intros m I. apply known_on. auto.
  - split; [intros n I; eapply on_known; eauto|]. intros m I. eapply on_known; eauto. eapply on_grow; [exact GR|]. apply known_on. auto.
Qed.
Theorem C56_graveyard : forall T cls same o h d b sph d' inn out,
  0 <= o -> (forall i, ~ In (Del i) h) -> run (surface T) cls same h (empty o) = Ok d ->
  graveyard T cls same b sph d = Ok (d', (inn, out)) -> known d' inn /\ known d' out.
Proof.
  intros T cls same o h d b sph d' inn out HO ND R H. pose proof (run_any _ _ _ _ _ _ ND R) as D.
  destruct (graveyard_on T cls same o HO (anyg _) (fun _ => Logic.I) _ _ _ _ _ _ Logic.I D H) as (D' & _ & A & B). split; eapply on_known; eauto.
Qed.
(** process_cones *)
Theorem C56_cones : forall G cls same opp aligned apex iord o h d ci ms d' ms',
  0 <= o -> (forall i, ~ In (Del i) h) -> run G cls same h (empty o) = Ok d ->
  (forall m n, In m ms -> m_def m = Some n -> known d n) ->
  process_cones G cls same opp aligned apex iord ci ms d = Ok (d', ms') ->
  forall m n, In m ms' -> m_def m = Some n -> known d' n.
Proof.
  intros G cls same opp aligned apex iord o h d ci ms d' ms' HO ND R HM H m n I E.
  pose proof (run_any _ _ _ _ _ _ ND R) as D.
  destruct (process_cones_on G cls same o HO (anyg _) opp aligned apex iord (fun _ => Logic.I) ci ms d d' ms' D) as (D' & _ & F); auto.
  - apply Forall_forall. intros x J. unfold onc. destruct (m_def x) eqn:EX; auto. apply known_on. eauto.
  - rewrite Forall_forall in F. specialize (F m I). unfold onc in F. rewrite E in F. eapply on_known; eauto.
Qed.

(** * The text that is written *)
Lemma lits_nz n : full n -> (forall z, In z (lits n) -> z <> 0) -> nz n.
Proof.
  induction n as [z|op lev b|op lev l IH] using node_ind'; intros F H.
  - apply H. left; auto.
  - destruct F.
  - apply nz_seq. apply full_seq in F. destruct F as (_ & F). rewrite Forall_forall in *. intros c J. apply IH; auto. intros z K. apply H. cbn [lits]. apply in_flat_map. eauto.
Qed.
Theorem C56_text : forall (Q : Z -> Prop) n, full n -> (forall z, In z (lits n) -> z <> 0 /\ Q (Z.abs z)) ->
  (forall s, write_sequence_mcnp n = Ok s -> mentions mcnp s Q) /\
  (forall s, write_sequence_serpent n = Ok s -> mentions mcnp s Q) /\
  (forall s, write_sequence_omc_xml n = Ok s -> mentions openmc_xml s Q) /\
  (forall s, write_sequence_omc_py n = Ok s -> mentions openmc_py s Q).
Proof.
  intros Q n F H. assert (NZ : nz n) by (apply lits_nz; auto; intros z I; apply H; auto). assert (HQ : forall z, In z (lits n) -> Q (Z.abs z)) by (intros; apply H; auto).
  split; [|split; [|split]]; intros s E.
  - eapply write_mcnp_mentions; eauto.
  - rewrite write_serpent_mcnp in E. eapply write_mcnp_mentions; eauto.
  - eapply write_xml_mentions; eauto.
  - eapply write_py_mentions; eauto.
Qed.
(** After the redundant parentheses are removed and the lines are cut (CellString), under
    the hypothesis of C19 that the text has places to cut. *)
Theorem C56_cell_text_partial : forall (Q : Z -> Prop) tab offset n, 0 <= tab < 80 -> 0 <= offset < 80 ->
  is_seq n -> wf n -> full n -> (forall z, In z (lits n) -> Q (Z.abs z)) ->
  exists s s', write_sequence_mcnp n = Ok s /\ remove_redundant s = Ok s' /\ mentions mcnp s' Q /\
  (breakable (Z.to_nat (80 - offset)) (Z.to_nat (80 - tab)) (normal s') ->
   exists out k0, (forall k, (k0 <= k)%nat -> write_cell_def write_sequence_mcnp k tab offset n = Ok out) /\
     mentions mcnp (unwrap out) Q).
Proof.
  intros Q tab offset n HT HF IS WF FU HQ. destruct (C19_cell_def tab offset n HT HF IS WF FU) as (s & s' & E1 & E2 & DN & _).
  assert (M1 : mentions mcnp s Q) by (eapply write_mcnp_mentions; eauto; apply wf_nz; auto).
  destruct (remove_redundant_mentions Q s M1) as (s2 & E3 & M2). rewrite E2 in E3. injection E3 as <-.
  exists s, s'. split; auto. split; auto. split; auto. intros B.
  destruct (C19_wrap_line 80 tab offset s') as (out & k0 & EW & TK & _); auto.
  { destruct DN as (t & G & <- & _). exact (proj1 (Forall_forall _ _) (text_blank_only t G)). }
  exists out, k0. split.
  - intros k HK. unfold write_cell_def. rewrite E1. cbn [bind]. rewrite E2. cbn [bind]. auto.
  - eapply tokens_mentions; eauto.
Qed.

(** * Examples *)

(** A table that says that surface 1 positive forces surface 2 negative, and surface 3 positive
    surface 2 positive.  The cell 2 (1:3) is simplified to -1 3: the number 1 is one of the cell,
    the literal -1 is not.  Signs are not kept, numbers are. *)
Definition ex_ct (x : Z) : res (option (list (Z * bool)) * option (list (Z * bool))) :=
  Ok (Some [(x, true); (2, if x =? 1 then false else true)], Some [(x, false)]).
Example C56_simplify_ex :
  simplify_f 20 false surfs (Some ex_ct) 0 (Seq AND 1 [Seq AND 0 [Lit 2]; Seq OR 0 [Lit 1; Lit 3]]) =
    Ok (Seq AND 0 [Lit (-1); Lit 3]) /\
  from [Seq AND 1 [Seq AND 0 [Lit 2]; Seq OR 0 [Lit 1; Lit 3]]] (Seq AND 0 [Lit (-1); Lit 3]) /\
  ~ from [Seq AND 1 [Seq AND 0 [Lit 2]; Seq OR 0 [Lit 1; Lit 3]]] (Seq AND 0 [Lit 4]).
Proof.
  assert (E : simplify_f 20 false surfs (Some ex_ct) 0 (Seq AND 1 [Seq AND 0 [Lit 2]; Seq OR 0 [Lit 1; Lit 3]]) =
    Ok (Seq AND 0 [Lit (-1); Lit 3])) by (vm_compute; reflexivity).
  split; auto. split; [eapply C56_simplify; exact E|]. intros H. destruct (H 4 (or_introl eq_refl)) as (m & y & [<-|[]] & J & K).
  simpl in J. destruct J as [<-|[<-|[<-|[]]]]; discriminate.
Qed.

(** cellDef: the example of C51 meets the hypotheses. *)
Example C56_cell_def_ex : exists d' kept def cones,
  cell_def line_geo lg_key (lg_same 0) lg_opp lg_opp (fun l => l) [ex_piece; ex_piece2] ex_dict = Ok (d', kept, def, cones) /\
  def = Seq OR 1 [Seq AND 0 [Lit 2; Lit (-1); Lit 3; Lit (-6)]; Seq AND 0 [Lit (-5); Lit 4; Lit 7]] /\ known d' def.
Proof.
  destruct C51_ex as (R & HF & _). eexists _, _, _, _. split; [vm_compute; reflexivity|]. split; [reflexivity|].
  eapply (C56_cell_def line_geo lg_key (lg_same 0) lg_opp lg_opp 0 ex_hist ex_dict (fun l => l) [ex_piece; ex_piece2]).
  - lia.
  - intros i H. simpl in H. intuition discriminate.
  - exact R.
  - intros l. apply Permutation_refl.
  - intros p f A B. apply HF; auto.
  - vm_compute. reflexivity.
Qed.
(** Without the hypothesis: the sphere of C51_zero_refuted is not registered, the cell holds the number 0. *)
Theorem C56_unregistered_refuted :
  let sph a := LG Sph a false in
  exists d d' kept def cones, run line_geo lg_key (lg_same 2) [Add (sph 0); Add (LG PX 9 false); Add (sph 2)] (empty 0) = Ok d /\
    cell_def line_geo lg_key (lg_same 2) lg_opp lg_opp (fun l => l)
      [Piece false [Face false Forward (Some (sph 4)) None no_torus;
                    Face false Forward (Some (LG PX 9 false)) None no_torus]] d = Ok (d', kept, def, cones) /\
    In 0 (lits def) /\ ~ known d' def.
Proof.
  cbv zeta. eexists _, _, _, _, _. split; [reflexivity|]. split; [vm_compute; reflexivity|]. split; [left; reflexivity|].
  intros H. destruct (H 0 (or_introl eq_refl)) as (s & (k & I) & E & _). destruct k; vm_compute in I; repeat (destruct I as [I|I]; [subst s; vm_compute in E; discriminate|]); destruct I.
Qed.
(** The apex planes: the example of C55. *)
Example C56_cones_ex : exists d' m7 r, q_run [(7, [-1]); (8, [1])] q_ms q_dict = Ok (d', m7 :: r) /\
  m_def m7 = Some (Seq OR 2 [Seq AND 1 [Seq AND 0 [Lit (-1); Lit (-4)]; Lit (-2)]]) /\
  known d' (Seq OR 2 [Seq AND 1 [Seq AND 0 [Lit (-1); Lit (-4)]; Lit (-2)]]).
Proof.
  destruct C55_ex as (R & _ & _ & HM & _). eexists _, _, _. split; [vm_compute; reflexivity|]. split; [reflexivity|].
  eapply (C56_cones pgeo q_key q_same q_opp q_al q_apex (fun l => l) 0 q_hist q_dict [(7, [-1]); (8, [1])] q_ms).
  - lia.
  - intros i H. simpl in H. intuition discriminate.
  - exact R.
  - intros m n I E z J. destruct (HM m n I E) as (_ & _ & K). destruct (K z J) as (_ & (s & A & B) & _). exists s. split; auto. split; auto.
    intros s' A' B'. pose proof (run_any _ _ _ 0 q_hist q_dict ltac:(intros i H; simpl in H; intuition discriminate) R) as D.
      eapply (reg_uniq _ q_key (anyg _) 0); eauto. congruence.
  - vm_compute. reflexivity.
  - left. reflexivity.
  - reflexivity.
Qed.
Example C56_text_ex : write_sequence_mcnp (Seq OR 1 [Seq AND 0 [Lit 2; Lit (-1)]; Seq AND 0 [Lit 7]]) = Ok (cs "((2 -1):(7))") /\
  mentions mcnp (cs "((2 -1):(7))") (fun i => i = 1 \/ i = 2 \/ i = 7).
Proof.
  split; [vm_compute; reflexivity|].
  apply (C56_text (fun i => i = 1 \/ i = 2 \/ i = 7) (Seq OR 1 [Seq AND 0 [Lit 2; Lit (-1)]; Seq AND 0 [Lit 7]])); [|intros z I|vm_compute; reflexivity].
  - simpl. intuition discriminate.
  - simpl in I. destruct I as [<-|[<-|[<-|[]]]]; simpl; intuition lia.
Qed.
(** A cube whose upper plane z = 1 is registered with the opposite normal: the other five planes are added.
    The void cell around a solid inside the plane z = 1. *)
Definition ex_ms := [VoidBoxes.Meta 1 (Some (PropsBox.cube 1)) (Some [PropsBox.cube 1]) (Seq OR 1 [Seq AND 0 [Lit 1]]) 1 false].
Example C56_void_ex : exists d' vs,
  void_level0 nat PropsBox.cls0 PropsBox.same0 true 20 surfs (fun _ _ _ => Err TypeError) SNo 50 30 200
    ex_ms (PropsBox.cube 2) PropsBox.d16 = Ok (d', (vs, [])) /\
  vs = [Seq AND 1 [Lit 2; Lit 3; Lit 4; Lit 5; Lit 6; Lit 7; Seq AND 0 [Lit (-1)]]] /\
  (forall n, In n vs -> known d' n) /\ ~ names_one PropsBox.d16 7.
Proof.
  eexists _, _. split; [vm_compute; reflexivity|]. split; [reflexivity|]. split.
  - eapply (C56_void_cells nat PropsBox.cls0 PropsBox.same0 0 [Add (inl (Plane VoidBoxes.AZ true 1%Q))] PropsBox.d16
      true 20 surfs (fun _ _ _ => Err TypeError) SNo 50 30 200%Q ex_ms (PropsBox.cube 2)).
    + lia.
    + intros i [H|[]]; discriminate.
    + reflexivity.
    + intros m [<-|[]] z [<-|[]]. eexists (Surf 1 _). split; [exists PZ; left; reflexivity|]. split; [reflexivity|].
      intros s (k & I) _. destruct k; vm_compute in I; repeat (destruct I as [I|I]; [subst s; reflexivity|]); destruct I.
    + vm_compute. reflexivity.
  - intros (s & (k & I) & E & _). destruct k; vm_compute in I; repeat (destruct I as [I|I]; [subst s; vm_compute in E; discriminate|]); destruct I.
Qed.
