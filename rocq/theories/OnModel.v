(** Boxes, void cells, graveyard cells and apex planes: their surfaces are registered. *)
From Coq Require Import QArith Permutation.
From Verif Require Import Prelude BoolSpec BoolSeq BoolEdit BoolProofs BoolProofs2 CtSpec Ctable VoidCell SurfDict SurfDictProofs
  CellDef CellDefSpec CellDefProofs ConePlanes OnProofs OnProofs2 OnCell.
From Verif Require Import VoidBoxes BoxDef VoidAll.
Open Scope Z_scope.

Section Dict.
  Variable G : Type.
  Variable cls : G -> key.
  Variable same : G -> G -> bool.
  Variable o : Z.
  Hypothesis HO : 0 <= o.
  Definition anyg (_ : G) : Prop := True.
  Variable P : G -> Prop.
  Notation dk := (dok G cls P o).
  Notation gr := (grow G).
  Notation nm := (num G).

  Lemma add_any g d d' id b : P g -> dk d -> add G cls same g d = (d', (id, b)) -> dk d' /\ gr d d' /\ nm d' id.
  Proof. intros PG D E. eapply add_num; eauto. Qed.
  Lemma get_any i d d' r : dk d -> get_surface i d = Ok (d', r) -> dk d' /\ gr d d'.
  Proof.
    intros D H. pose proof D as ((OO & N & J) & L & _). destruct (get_ok _ _ _ i d J L) as (d1 & r1 & E & SC & L1 & HH).
    rewrite H in E. injection E as <- <-. split; [eapply dok_content; eauto|]. destruct SC as (_ & E2 & _). apply grow_group; auto.
  Qed.
  Lemma nm_pos d i : dk d -> nm d i -> 0 < i.
  Proof. apply num_pos; auto. Qed.

  (** ** apex planes *)
  Section Cones.
    Variable opp : G -> G -> bool.
    Variable aligned : G -> bool.
    Variable apex : G -> G.
    Variable iord : list Z -> list Z.

    Lemma ins_elem_on (Q : Z -> Prop) op t n : Q (Z.abs t) -> Q (Z.abs n) -> on Q (ins_elem op t n).
    Proof.
      intros A B. unfold ins_elem. destruct (t =? n); [|destruct (t =? - n)].
      - intros z [<-|[]]. auto.
      - intros z [].
      - intros z [<-|[<-|[]]]; auto.
    Qed.
    Lemma subst_int_on (Q : Z -> Prop) t ne : (Q (Z.abs t) -> on Q ne) -> forall n r, on Q n -> subst_int t ne n = Ok r -> on Q r.
    Proof.
      intros HN. induction n as [z|op lev b|op lev l IH] using node_ind'; intros r HR H; cbn [subst_int] in H; try discriminate.
      match type of H with bind ?e _ = _ => destruct e as [l'| |] eqn:E; try discriminate end. cbn [bind] in H. injection H as <-.
      apply on_seq. apply on_seq in HR. eapply (mapM_onl Q); [|exact HR|exact E].
      intros e e' J HE H. rewrite Forall_forall in IH. destruct e as [z|op1 lev1 b|op1 lev1 l1].
      - injection H as <-. destruct (Z.eqb_spec z t) as [->|]; auto. apply HN. apply on_lit in HE. auto.
      - exact (IH _ J _ HE H).
      - exact (IH _ J _ HE H).
    Qed.
    Lemma insert_on (Q : Z -> Prop) n t s op r : on Q n -> Q (Z.abs s) -> insert_in_sequence n t s op = Ok r -> on Q r.
    Proof.
      intros HN HS H. unfold insert_in_sequence in H. destruct (subst_int t (ins_elem op t s) n) as [n1| |] eqn:E; try discriminate.
      cbn [bind] in H. injection H as <-. apply level_update_on. eapply subst_int_on; [|exact HN|exact E]. intros. apply ins_elem_on; auto.
    Qed.
    Hypothesis HAP : forall g, P (apex g).
    Lemma add_signed_any g d d' z : P g -> dk d -> add_signed G cls same opp g d = Ok (d', z) -> dk d' /\ gr d d' /\ nm d' (Z.abs z).
    Proof. intros PG D E. eapply add_signed_num; eauto. Qed.
    Lemma cone_step_on c d n d' n' : dk d -> on (nm d) n -> cone_step G cls same opp aligned apex c d n = Ok (d', n') ->
      dk d' /\ gr d d' /\ on (nm d') n'.
    Proof.
      intros D HN H. unfold cone_step in H. destruct (get_surface (Z.abs c) d) as [[d1 s]| |] eqn:E; try discriminate. cbn [bind] in H.
      destruct (get_any _ _ _ _ D E) as (D1 & G1). destruct s as [s|]; [|discriminate]. destruct (aligned (geo s)).
      - injection H as <- <-. split; auto. split; auto. eapply on_grow; eauto.
      - destruct (add_signed G cls same opp (apex (geo s)) d1) as [[d2 pid]| |] eqn:E2; try discriminate. cbn [bind] in H.
        destruct (add_signed_any _ _ _ _ (HAP _) D1 E2) as (D2 & G2 & N2).
        match type of H with bind ?e _ = _ => destruct e as [n1| |] eqn:E3; try discriminate end. cbn [bind] in H. injection H as <- <-.
        assert (G3 : gr d d2) by (eapply grow_trans; eauto). split; auto. split; auto.
        assert (HN2 : on (nm d2) n) by (eapply on_grow; eauto).
        destruct (0 <? c); (eapply insert_on; [exact HN2| |exact E3]; auto). rewrite Z.abs_opp. auto.
    Qed.
    Lemma cone_loop_on l : forall d n d' n', dk d -> on (nm d) n -> cone_loop G cls same opp aligned apex l d n = Ok (d', n') ->
      dk d' /\ gr d d' /\ on (nm d') n'.
    Proof.
      induction l as [|c l IH]; intros d n d' n' D HN H; cbn [cone_loop] in H.
      - injection H as <- <-. split; auto. split; auto. apply grow_refl.
      - destruct (cone_step G cls same opp aligned apex c d n) as [[d1 n1]| |] eqn:E; try discriminate. cbn [bind] in H.
        destruct (cone_step_on _ _ _ _ _ D HN E) as (D1 & G1 & N1). destruct (IH _ _ _ _ D1 N1 H) as (D2 & G2 & N2).
        split; auto. split; auto. eapply grow_trans; eauto.
    Qed.
    Definition onc (Q : Z -> Prop) (m : mcell) : Prop := match m_def m with Some n => on Q n | None => True end.
    Lemma onc_grow d d' m : gr d d' -> onc (nm d) m -> onc (nm d') m.
    Proof. intros A. unfold onc. destruct (m_def m); auto. apply on_grow; auto. Qed.
    Lemma put_planes_on l d m d' m' : dk d -> onc (nm d) m -> put_planes G cls same opp aligned apex l d m = Ok (d', m') ->
      dk d' /\ gr d d' /\ onc (nm d') m'.
    Proof.
      intros D HM H. unfold put_planes in H. unfold onc in HM. destruct (m_def m) as [n|] eqn:EM.
      - destruct (cone_loop G cls same opp aligned apex l d n) as [[d1 n1]| |] eqn:E; try discriminate. cbn [bind] in H. injection H as <- <-.
        destruct (cone_loop_on _ _ _ _ _ D HM E) as (A & B & C). auto.
      - destruct l; [|discriminate]. injection H as <- <-. split; auto. split; [apply grow_refl|]. unfold onc. rewrite EM. auto.
    Qed.
    Lemma cell_step_on ci d m d' m' : dk d -> onc (nm d) m -> cell_step G cls same opp aligned apex iord ci d m = Ok (d', m') ->
      dk d' /\ gr d d' /\ onc (nm d') m'.
    Proof.
      intros D HM H. unfold cell_step in H.
      assert (R : Ok (d, m) = Ok (d', m') -> dk d' /\ gr d d' /\ onc (nm d') m') by (intros [= <- <-]; split; auto; split; auto; apply grow_refl).
      destruct (m_void m).
      - destruct (m_info m) as [[l|]|]; [|exact (R H)|exact (R H)]. eapply put_planes_on; eauto.
      - destruct (m_id m); [|exact (R H)]. destruct (info_of ci z); [|exact (R H)]. eapply put_planes_on; eauto.
    Qed.
    Lemma process_cones_on ci ms : forall d d' ms', dk d -> Forall (onc (nm d)) ms ->
      process_cones G cls same opp aligned apex iord ci ms d = Ok (d', ms') -> dk d' /\ gr d d' /\ Forall (onc (nm d')) ms'.
    Proof.
      induction ms as [|m ms IH]; intros d d' ms' D HM H; cbn [process_cones] in H.
      - injection H as <- <-. split; auto. split; auto. apply grow_refl.
      - inversion HM as [|? ? HA HB]; subst.
        destruct (cell_step G cls same opp aligned apex iord ci d m) as [[d1 m1]| |] eqn:E; try discriminate. cbn [bind] in H.
        destruct (cell_step_on _ _ _ _ _ D HA E) as (D1 & G1 & N1).
        destruct (process_cones G cls same opp aligned apex iord ci ms d1) as [[d2 r2]| |] eqn:E2; try discriminate. cbn [bind] in H. injection H as <- <-.
        destruct (IH d1 d2 r2 D1) as (D2 & G2 & N2); auto.
        { eapply Forall_impl; [|exact HB]. intros a. apply onc_grow; auto. }
        split; auto. split; [eapply grow_trans; eauto|]. constructor; auto. eapply onc_grow; eauto.
    Qed.
  End Cones.
End Dict.

Section Boxes.
  Variable T : Type.
  Variable cls : surface T -> key.
  Variable same : surface T -> surface T -> bool.
  Variable o : Z.
  Hypothesis HO : 0 <= o.
  Notation G := (surface T).
  Variable P : G -> Prop.
  Hypothesis HPL : forall q, P (inl q).
  Notation dk := (dok G cls P o).
  Notation gr := (grow G).
  Notation nm := (num G).

  Lemma lookup_num g d d1 id (found : bool) (f : surf G -> Z) d2 id2 : P g -> dk d -> add G cls same g d = (d1, (id, found)) ->
    (forall s, Z.abs (f s) = id) ->
    (if found then do (d2, s) <- get_surface id d1; match s with None => Err AttributeError | Some s => Ok (d2, f s) end
     else Ok (d1, id)) = Ok (d2, id2) -> dk d2 /\ gr d d2 /\ nm d2 (Z.abs id2).
  Proof.
    intros PG D EA HF H. destruct (add_any G cls same o HO P _ _ _ _ _ PG D EA) as (D1 & G1 & N1). pose proof (nm_pos G cls o HO P _ _ D1 N1). destruct found.
    - destruct (get_surface id d1) as [[d3 s]| |] eqn:E; try discriminate. cbn [bind] in H. destruct s as [s|]; [|discriminate]. injection H as <- <-.
      destruct (get_any G cls o P _ _ _ _ D1 E) as (D3 & G3). split; auto. split; [eapply grow_trans; eauto|]. rewrite HF. eapply num_grow; eauto.
    - injection H as <- <-. split; auto. split; auto. replace (Z.abs id) with id by lia. auto.
  Qed.
  Lemma abs_if (c : bool) z : Z.abs (if c then - z else z) = Z.abs z.
  Proof. destruct c; lia. Qed.
  Lemma box_literal_on b p d d' z : dk d -> box_literal T cls same b p d = Ok (d', z) -> dk d' /\ gr d d' /\ nm d' (Z.abs z).
  Proof.
    intros D H. unfold box_literal in H. destruct (add G cls same (inl p) d) as [d1 [id found]] eqn:EA.
    match type of H with bind ?e _ = _ => destruct e as [[d2 id2]| |] eqn:E; try discriminate end. cbn [bind] in H. injection H as <- <-.
    destruct (add_any G cls same o HO P _ _ _ _ _ (HPL _) D EA) as (D1 & G1 & N1). pose proof (nm_pos G cls o HO P _ _ D1 N1).
    assert (A : dk d2 /\ gr d d2 /\ nm d2 (Z.abs id2)).
    { eapply (lookup_num _ _ _ _ found (fun s => if opposite T p (geo s) then - id else id)); eauto. intros s. rewrite abs_if. lia. }
    destruct A as (A & B & C). split; auto. split; auto. destruct (Qltb _ _); auto. rewrite Z.abs_opp. auto.
  Qed.
  Lemma compl_literal_on p d d' z : dk d -> compl_literal T cls same p d = Ok (d', z) -> dk d' /\ gr d d' /\ nm d' (Z.abs z).
  Proof.
    intros D H. unfold compl_literal in H. destruct (add G cls same (inl p) d) as [d1 [id found]] eqn:EA.
    destruct (add_any G cls same o HO P _ _ _ _ _ (HPL _) D EA) as (D1 & G1 & N1). pose proof (nm_pos G cls o HO P _ _ D1 N1). destruct found.
    - destruct (get_surface id d1) as [[d3 s]| |] eqn:E; try discriminate. cbn [bind] in H. destruct s as [s|]; [|discriminate]. injection H as <- <-.
      destruct (get_any G cls o P _ _ _ _ D1 E) as (D3 & G3). split; auto. split; [eapply grow_trans; eauto|].
      replace (Z.abs _) with id by (destruct (opposite T p (geo s)); lia). eapply num_grow; eauto.
    - injection H as <- <-. split; auto. split; auto. replace (Z.abs (- id)) with id by lia. auto.
  Qed.
  Lemma box_literals_on b ps : forall d d' l, dk d -> box_literals T cls same b ps d = Ok (d', l) -> dk d' /\ gr d d' /\ onl (nm d') l.
  Proof.
    induction ps as [|p ps IH]; intros d d' l D H; cbn [box_literals] in H.
    - injection H as <- <-. split; auto. split; [apply grow_refl|apply onl_nil].
    - destruct (box_literal T cls same b p d) as [[d1 z]| |] eqn:E; try discriminate. cbn [bind] in H.
      destruct (box_literals T cls same b ps d1) as [[d2 l2]| |] eqn:E2; try discriminate. cbn [bind] in H. injection H as <- <-.
      destruct (box_literal_on _ _ _ _ _ D E) as (D1 & G1 & N1). destruct (IH _ _ _ D1 E2) as (D2 & G2 & N2).
      split; auto. split; [eapply grow_trans; eauto|]. apply onl_cons. split; auto. apply on_lit. eapply num_grow; eauto.
  Qed.
  Lemma compl_literals_on ps : forall d d' l, dk d -> compl_literals T cls same ps d = Ok (d', l) -> dk d' /\ gr d d' /\ onl (nm d') l.
  Proof.
    induction ps as [|p ps IH]; intros d d' l D H; cbn [compl_literals] in H.
    - injection H as <- <-. split; auto. split; [apply grow_refl|apply onl_nil].
    - destruct (compl_literal T cls same p d) as [[d1 z]| |] eqn:E; try discriminate. cbn [bind] in H.
      destruct (compl_literals T cls same ps d1) as [[d2 l2]| |] eqn:E2; try discriminate. cbn [bind] in H. injection H as <- <-.
      destruct (compl_literal_on _ _ _ _ D E) as (D1 & G1 & N1). destruct (IH _ _ _ D1 E2) as (D2 & G2 & N2).
      split; auto. split; [eapply grow_trans; eauto|]. apply onl_cons. split; auto. apply on_lit. eapply num_grow; eauto.
  Qed.
  Lemma box_def_on b d d' n : dk d -> box_def T cls same b d = Ok (d', n) -> dk d' /\ gr d d' /\ on (nm d') n.
  Proof.
    intros D H. unfold box_def in H. destruct (box_literals T cls same b (bound_planes b) d) as [[d1 l]| |] eqn:E; try discriminate. cbn [bind] in H. injection H as <- <-.
    destruct (box_literals_on _ _ _ _ _ D E) as (A & B & C). split; auto. split; auto. apply on_seq. auto.
  Qed.
  Lemma graveyard_on b sph d d' inn out : P (inr sph) -> dk d -> graveyard T cls same b sph d = Ok (d', (inn, out)) -> dk d' /\ gr d d' /\ on (nm d') inn /\ on (nm d') out.
  Proof.
    intros HSP D H. unfold graveyard, universe_compl in H.
    destruct (compl_literals T cls same (bound_planes b) d) as [[d1 l]| |] eqn:E; try discriminate. cbn [bind] in H.
    destruct (compl_literals_on _ _ _ _ D E) as (D1 & G1 & C1).
    destruct (add G cls same (inr sph) d1) as [d2 [id f]] eqn:EA. destruct (add_any G cls same o HO P _ _ _ _ _ HSP D1 EA) as (D2 & G2 & N2).
    destruct (append (Seq AND 0 [Lit (- id)]) [AN (Seq OR 0 l)]) as [n| |] eqn:E2; try discriminate. cbn [bind] in H. injection H as <- <- <-.
    pose proof (nm_pos G cls o HO P _ _ D2 N2). split; auto. split; [eapply grow_trans; eauto|]. split.
    - eapply append1_on; [| |exact E2].
      + intros z [<-|[]]. replace (Z.abs (- id)) with id by lia. auto.
      + eapply on_grow; [exact G2|]. apply on_seq. auto.
    - intros z [<-|[]]. replace (Z.abs id) with id by lia. auto.
  Qed.

  (** ** the loop over the boxes *)
  Section Loop.
    Variable Q : Z -> Prop.
    Notation oo := (Forall (fun m => on Q (mdef m))).
    Lemma element_on i n e : on Q n -> element i n = Ok e -> on Q e.
    Proof.
      intros HN H. destruct n as [z|op lev b|op lev l]; cbn [element] in H; try discriminate. destruct (nth_error l i) eqn:E; try discriminate.
      injection H as <-. apply on_seq in HN. apply HN. eapply nth_error_In; eauto.
    Qed.
    Lemma extra_loop_on bx d sols : forall i rs rd rs' rd', on Q d -> on Q rd -> extra_loop bx d i sols rs rd = Ok (rs', rd') -> on Q rd'.
    Proof.
      induction sols as [|s sols IH]; intros i rs rd rs' rd' HD HR H; cbn [extra_loop] in H; [injection H as <- <-; auto|].
      destruct (_ && _); [|exact (IH _ _ _ _ _ HD HR H)]. destruct (element i d) as [e| |] eqn:E; try discriminate. cbn [bind] in H.
      destruct (append rd [AN e]) as [rd1| |] eqn:EA; try discriminate. cbn [bind] in H. eapply IH; [exact HD| |exact H].
      exact (append1_on _ _ _ _ HR (element_on _ _ _ HD E) EA).
    Qed.
    Lemma remove_extra_comp_on bx m m' : on Q (mdef m) -> remove_extra_comp bx m = Ok m' -> on Q (mdef m').
    Proof.
      intros HM H. unfold remove_extra_comp in H. destruct (msol m) as [[|s sols]|]; try (injection H as <-; exact HM).
      destruct (extra_loop bx (mdef m) 0 (s :: sols) [] (Seq OR 0 [])) as [[rs rd]| |] eqn:E; try discriminate. cbn [bind] in H.
      destruct (Nat.ltb _ _); injection H as <-; auto. cbn [mdef]. eapply extra_loop_on; [exact HM| |exact E]. intros z [].
    Qed.
    Lemma copy_meta_on m m' : on Q (mdef m) -> copy_meta m = Ok m' -> on Q (mdef m').
    Proof.
      intros HM H. unfold copy_meta in H. destruct (msol m) as [[|s sols]|]; try discriminate; injection H as <-; cbn [mdef]; apply copy_on; auto.
    Qed.
    Lemma box_objects_on bx ms : forall os, oo ms -> box_objects bx ms = Ok os -> oo os.
    Proof.
      induction ms as [|m ms IH]; intros os HM H; cbn [box_objects] in H; [injection H as <-; auto|].
      inversion HM as [|? ? HA HB]; subst. destruct (mbb m); [|eauto]. destruct (_ && _); [|eauto].
      destruct (copy_meta m) as [c| |] eqn:EC; try discriminate. cbn [bind] in H.
      destruct (remove_extra_comp bx c) as [x| |] eqn:ER; try discriminate. cbn [bind] in H.
      destruct (box_objects bx ms) as [os1| |] eqn:EO; try discriminate. cbn [bind] in H. injection H as <-.
      constructor; eauto. eapply remove_extra_comp_on; [|exact ER]. eapply copy_meta_on; eauto.
    Qed.
    Variable E : Type.
    Variable bb : E -> box.
    Variable common : E -> box -> cut E.
    Definition oz (z : vbox E) : Prop := Forall (fun m => on Q (mdef m)) (vobj z).
    Lemma mk_vbox_on ms r z : oo ms -> mk_vbox E bb ms r = Ok z -> oz z.
    Proof.
      intros HM H. unfold mk_vbox in H. destruct (box_objects (rbox E bb r) ms) as [os| |] eqn:EO; try discriminate. cbn [bind] in H. injection H as <-.
      unfold oz. cbn [vobj]. eapply box_objects_on; eauto.
    Qed.
    Lemma split_vbox_on q z zs : oz z -> split_vbox E bb common q z = Ok (Some zs) -> Forall oz zs.
    Proof.
      intros HZ H. unfold split_vbox in H. destruct (split_region E bb common q (vreg z)) as [l|]; [|discriminate].
      destruct (mapM (mk_vbox E bb (vobj z)) l) as [zs1| |] eqn:EM; try discriminate. cbn [bind] in H. injection H as <-.
      clear -HZ EM. revert zs1 EM. induction l as [|r l IH]; intros zs H; cbn [mapM] in H; [injection H as <-; auto|].
      destruct (mk_vbox E bb (vobj z) r) as [z1| |] eqn:E1; try discriminate. cbn [bind] in H.
      destruct (mapM (mk_vbox E bb (vobj z)) l) as [zs1| |]; try discriminate. cbn [bind] in H. injection H as <-.
      constructor; auto. eapply mk_vbox_on; eauto.
    Qed.
  End Loop.
  Lemma oz_grow E d d' (z : vbox E) : gr d d' -> oz (nm d) E z -> oz (nm d') E z.
  Proof. intros A H. eapply Forall_impl; [|exact H]. intros m. apply on_grow; auto. Qed.
  Lemma ozs_grow E d d' (zs : list (vbox E)) : gr d d' -> Forall (oz (nm d) E) zs -> Forall (oz (nm d') E) zs.
  Proof. intros A H. eapply Forall_impl; [|exact H]. intros z. apply oz_grow; auto. Qed.
  Lemma onl_grow d d' l : gr d d' -> onl (nm d) l -> onl (nm d') l.
  Proof. intros A H n J. eapply on_grow; eauto. Qed.

  Section Turns.
    Variable E : Type.
    Variable bb : E -> box.
    Variable common : E -> box -> cut E.
    Variables maxsurf maxbracket : Z.
    Variable minSize : Q.
    Variable void : vbox E -> sdict G -> res (sdict G * option node).
    Hypothesis Hvoid : forall z d d' c, dk d -> oz (nm d) E z -> void z d = Ok (d', c) ->
      dk d' /\ gr d d' /\ match c with Some c => on (nm d') c | None => True end.
    Lemma pass_on l : forall d d' t v, dk d -> Forall (oz (nm d) E) l -> pass E bb common maxsurf maxbracket minSize (sdict G) void l d = Ok (d', (t, v)) ->
      dk d' /\ gr d d' /\ Forall (oz (nm d') E) t /\ onl (nm d') v.
    Proof.
      induction l as [|z l IH]; intros d d' t v D HL H; cbn [pass] in H.
      - injection H as <- <- <-. split; auto. split; [apply grow_refl|]. split; auto. apply onl_nil.
      - inversion HL as [|? ? HZ HL']; subst.
        destruct (try_split E bb common maxsurf maxbracket minSize z) as [s| |] eqn:ES; try discriminate. cbn [bind] in H. destruct s as [zs|].
        + destruct (pass E bb common maxsurf maxbracket minSize (sdict G) void l d) as [[d1 [t1 v1]]| |] eqn:EP; try discriminate. cbn [bind] in H. injection H as <- <- <-.
          destruct (IH _ _ _ _ D HL' EP) as (D1 & G1 & T1 & V1). split; auto. split; auto. split; auto. apply Forall_app. split; auto.
          eapply ozs_grow; [exact G1|]. unfold try_split in ES. destruct (VoidBoxes.numbers E z) as [ns nb]. destruct (_ && _); [|discriminate].
          eapply split_vbox_on; eauto.
        + destruct (void z d) as [[d1 c]| |] eqn:EV; try discriminate. cbn [bind] in H.
          destruct (Hvoid _ _ _ _ D HZ EV) as (D1 & G1 & C1).
          destruct (pass E bb common maxsurf maxbracket minSize (sdict G) void l d1) as [[d2 [t1 v1]]| |] eqn:EP; try discriminate. cbn [bind] in H. injection H as <- <- <-.
          destruct (IH _ _ _ _ D1 (ozs_grow _ _ _ _ G1 HL') EP) as (D2 & G2 & T2 & V2). split; auto. split; [eapply grow_trans; eauto|]. split; auto.
          destruct c as [c|]; auto. apply onl_cons. split; auto. eapply on_grow; eauto.
    Qed.
    Lemma turns_on k : forall l d d' v rest, dk d -> Forall (oz (nm d) E) l -> turns E bb common maxsurf maxbracket minSize (sdict G) void k l d = Ok (d', (v, rest)) ->
      dk d' /\ gr d d' /\ onl (nm d') v.
    Proof.
      induction k as [|k IH]; intros l d d' v rest D HL H; cbn [turns] in H.
      - injection H as <- <- <-. split; auto. split; [apply grow_refl|apply onl_nil].
      - destruct (pass E bb common maxsurf maxbracket minSize (sdict G) void l d) as [[d1 [t1 v1]]| |] eqn:EP; try discriminate. cbn [bind] in H.
        destruct (pass_on _ _ _ _ _ D HL EP) as (D1 & G1 & T1 & V1). destruct t1 as [|z t1]; [injection H as <- <- <-; auto|].
        destruct (turns E bb common maxsurf maxbracket minSize (sdict G) void k (z :: t1) d1) as [[d2 [w r2]]| |] eqn:ET; try discriminate. cbn [bind] in H. injection H as <- <- <-.
        destruct (IH _ _ _ _ _ D1 T1 ET) as (D2 & G2 & V2). split; auto. split; [eapply grow_trans; eauto|]. apply onl_app. split; auto. eapply onl_grow; eauto.
    Qed.
    Lemma get_void_def_on ms u d d' v rest : dk d -> Forall (fun m => on (nm d) (mdef m)) ms ->
      get_void_def E bb common maxsurf maxbracket minSize (sdict G) void ms u d = Ok (d', (v, rest)) -> dk d' /\ gr d d' /\ onl (nm d') v.
    Proof.
      intros D HM H. unfold get_void_def in H. destruct (mk_vbox E bb ms u) as [z| |] eqn:EZ; try discriminate. cbn [bind] in H.
      eapply turns_on; [exact D| |exact H]. constructor; auto. eapply mk_vbox_on; eauto.
    Qed.
  End Turns.

  Lemma void_box_on strict k ord mk mode z d d' c : dk d -> oz (nm d) Empty_set z ->
    void_box T cls same strict k ord mk mode z d = Ok (d', c) -> dk d' /\ gr d d' /\ match c with Some c => on (nm d') c | None => True end.
  Proof.
    intros D HZ H. unfold void_box in H. destruct (vreg z) as [b|e]; [|destruct e].
    destruct (box_def T cls same b d) as [[d1 bd]| |] eqn:EB; try discriminate. cbn [bind] in H.
    destruct (box_def_on _ _ _ _ D EB) as (D1 & G1 & B1).
    match type of H with bind ?e _ = _ => destruct e as [c1| |] eqn:EV; try discriminate end. cbn [bind] in H. injection H as <- <-.
    split; auto. split; auto. destruct c1 as [c1|]; auto. eapply get_void_on; [exact B1| |exact EV].
    intros n J. apply in_map_iff in J. destruct J as (m & <- & J). eapply on_grow; [exact G1|]. unfold oz in HZ. rewrite Forall_forall in HZ. apply HZ; auto.
  Qed.
  Lemma void_level0_on strict k ord mk mode maxsurf maxbracket minSize ms u d d' v rest : dk d -> Forall (fun m => on (nm d) (mdef m)) ms ->
    void_level0 T cls same strict k ord mk mode maxsurf maxbracket minSize ms u d = Ok (d', (v, rest)) -> dk d' /\ gr d d' /\ onl (nm d') v.
  Proof.
    intros D HM H. unfold void_level0 in H. eapply get_void_def_on; [|exact D|exact HM|exact H].
    intros z d1 d2 c. apply void_box_on.
  Qed.
End Boxes.
