(** Proofs for C55: all the cells. *)
From Coq Require Import Permutation.
From Verif Require Import Prelude BoolSpec BoolSeq BoolEdit BoolProofs BoolProofs2 BoolEditProofs SurfDict SurfDictProofs
  CellDef CellDefSpec CellDefProofs ConePlanes ConeSpec ConeProofs.

Section Cells.
  Variable G : Type.
  Variable cls : G -> key.
  Variable same : G -> G -> bool.
  Variable opp : G -> G -> bool.
  Variable aligned : G -> bool.
  Variable apex : G -> G.
  Variable iord : list Z -> list Z.
  Hypothesis IO : forall l, Permutation (iord l) l.
  Variable P : G -> Prop.
  Variable o : Z.
  Hypothesis HO : 0 <= o.
  Variable ci : cinfo.
  Hypothesis CND : NoDup (map fst ci).
  Hypothesis CSD : forall i cs, In (i, cs) ci -> NoDup cs.
  Variable d0 : sdict G.
  Hypothesis CR : forall i cs c, In (i, cs) ci -> In c cs -> exists s, registered_in d0 s /\ index s = Z.abs c /\ cls (geo s) = Cone.
  Hypothesis AP : forall s, registered_in d0 s -> tilted cls aligned (geo s) -> P (apex (geo s)) /\ plane cls (apex (geo s)).

  Definition cell_ok (m : mcell) : Prop :=
    match m_def m with
    | Some n => is_seq n /\ no_const n /\
        (forall z, In z (lits n) -> z <> 0 /\ exists s, registered_in d0 s /\ index s = Z.abs z) /\
        (forall z, In z (lits n) -> tilted_number cls aligned d0 z -> recorded ci m z)
    | None => m_id m = None /\ m_void m = false
    end.

  Definition same_from (d' : sdict G) (m m' : mcell) : Prop :=
    m_id m' = m_id m /\ m_void m' = m_void m /\ m_info m' = m_info m /\
    forall d2, dok G cls P o d2 -> grow G d' d2 -> forall card real, faithful cls same opp opp P card -> two_sheets cls aligned apex card real ->
      same_cell card real d2 m m'.

  Lemma keep d m : dok G cls P o d -> grow G d0 d -> cell_ok m -> (forall z, ~ recorded ci m z) -> same_from d m m.
  Proof.
    intros D GR CO NR. repeat (split; [reflexivity|]). intros d2 D2 G2 card real FA (T1 & T2).
    unfold same_cell, cell_ok in *. destruct (m_def m) as [n|]; auto. destruct CO as (_ & _ & HZ & HT).
    intros v w AV AW. rewrite !eval_eval_with. apply eval_with_ext. intros z Iz. destruct (HZ z Iz) as (Z0 & s & RS & ES).
    assert (NT : ~ tilted cls aligned (geo s)). { intros TL. apply (NR z). apply HT; auto. exists s. auto. }
    assert (R2 : registered_in d2 s) by (eapply grow_reg; eauto; eapply grow_reg; eauto).
    pose proof (AV s R2) as EV. pose proof (AW s R2) as EW. rewrite (T2 _ NT), <- EV, ES in EW.
    unfold lit_val. destruct (Z.ltb_spec z 0).
    - rewrite Z.abs_neq in EW by lia. congruence.
    - rewrite Z.abs_eq in EW by lia. congruence.
  Qed.

  Lemma put_cell l d m : dok G cls P o d -> grow G d0 d -> cell_ok m -> (m_void m = true \/ m_id m <> None) -> NoDup l ->
    (forall z, In z l <-> recorded ci m z) ->
    exists d' m', put_planes G cls same opp aligned apex l d m = Ok (d', m') /\ dok G cls P o d' /\ grow G d d' /\ same_from d' m m'.
  Proof.
    intros D GR CO SK ND HL. pose proof CO as CO'. unfold cell_ok in CO. unfold put_planes. destruct (m_def m) as [n|] eqn:EM.
    2:{ destruct CO as (C1 & C2). exfalso. destruct SK; congruence. }
    destruct CO as (SQ & NC & HZ & HT).
    assert (CRm : forall c, In c l -> exists s, registered_in d0 s /\ index s = Z.abs c /\ cls (geo s) = Cone).
    { intros c Ic. apply HL in Ic. unfold recorded in Ic. destruct (m_void m).
      - destruct Ic as (ls & i & cs & _ & _ & I1 & I2). destruct (CR i cs (- c) I1 I2) as (s & A & B & C). exists s. rewrite Z.abs_opp in B. auto.
      - destruct Ic as (i & cs & _ & I1 & I2). apply (CR i cs c I1 I2). }
    destruct (put_ok G cls same opp aligned apex P o HO l d n D SQ NC ND) as (d' & n' & E & D' & G' & EV).
    - intros c Ic. destruct (CRm c Ic) as (s & R & ES & CS). exists s. split; [eapply grow_reg; eauto|]. split; auto. split; auto.
      intros A. apply AP; auto. split; auto.
    - intros z Iz. destruct (HZ z Iz) as (Z0 & s & R & ES). split; auto. exists s. split; auto. eapply grow_reg; eauto.
    - intros z Iz (s & R & ES & TL). apply HL. apply HT; auto. destruct (HZ z Iz) as (_ & s' & R' & ES'). exists s'. split; auto. split; auto.
      assert (s' = s); [|congruence]. apply (reg_uniq G cls P o d s' s D); auto; [eapply grow_reg; eauto|congruence].
    - rewrite E. cbn [bind]. exists d', (set_def m n'). split; auto. split; auto. split; auto.
      split; [reflexivity|]. split; [reflexivity|]. split; [reflexivity|]. intros d2 D2 G2 card real FA TS. unfold same_cell. rewrite EM. cbn [set_def m_def].
      intros v w AV AW. exact (EV d2 D2 G2 card real FA TS v w AV AW).
  Qed.

  Lemma cell_step_ok d m : dok G cls P o d -> grow G d0 d -> cell_ok m ->
    exists d' m', cell_step G cls same opp aligned apex iord ci d m = Ok (d', m') /\ dok G cls P o d' /\ grow G d d' /\ same_from d' m m'.
  Proof.
    intros D GR CO. unfold cell_step. destruct (m_void m) eqn:EV.
    - destruct (m_info m) as [[l|]|] eqn:EI.
      + apply put_cell; auto.
        * apply (Permutation_NoDup (l := void_cones ci l [])); [symmetry; apply IO|]. apply void_cones_nodup. constructor.
        * intros z. transitivity (In z (void_cones ci l [])); [split; apply Permutation_in; auto; symmetry; auto|].
          rewrite void_cones_in by auto. unfold recorded. rewrite EV, EI. split.
          -- intros [[]|(i & cs & A & B & C)]. exists l, i, cs. auto.
          -- intros (l' & i & cs & [= <-] & A & B & C). right. exists i, cs. auto.
      + exists d, m. split; auto. split; auto. split; [apply grow_refl|]. apply keep; auto.
        intros z. unfold recorded. rewrite EV, EI. intros (l' & i & cs & [=] & _).
      + exists d, m. split; auto. split; auto. split; [apply grow_refl|]. apply keep; auto.
        intros z. unfold recorded. rewrite EV, EI. intros (l' & i & cs & [=] & _).
    - destruct (m_id m) as [i|] eqn:EI.
      + destruct (info_of ci i) as [cs|] eqn:EC.
        * apply info_in in EC; auto. apply put_cell; auto; [right; congruence|eauto|].
          intros z. unfold recorded. rewrite EV. split.
          -- intros Iz. exists i, cs. auto.
          -- intros (i' & cs' & E' & A & B). rewrite EI in E'. injection E' as <-. apply (info_in ci i) in A; auto. apply (info_in ci i) in EC; auto. congruence.
        * exists d, m. split; auto. split; auto. split; [apply grow_refl|]. apply keep; auto.
          intros z. unfold recorded. rewrite EV. intros (i' & cs' & E' & A & B). rewrite EI in E'. injection E' as <-. apply (info_in ci i) in A; auto. congruence.
      + exists d, m. split; auto. split; auto. split; [apply grow_refl|]. apply keep; auto.
        intros z. unfold recorded. rewrite EV. intros (i' & cs' & E' & _). congruence.
  Qed.

  Lemma process_ok ms : forall d, dok G cls P o d -> grow G d0 d -> Forall cell_ok ms ->
    exists d' ms', process_cones G cls same opp aligned apex iord ci ms d = Ok (d', ms') /\ dok G cls P o d' /\ grow G d d' /\
      Forall2 (same_from d') ms ms'.
  Proof.
    induction ms as [|m ms IH]; intros d D GR CO; cbn [process_cones].
    - exists d, []. split; auto. split; auto. split; [apply grow_refl|constructor].
    - inversion CO; subst. destruct (cell_step_ok d m D GR) as (d1 & m1 & E1 & D1 & G1 & S1); auto. rewrite E1. cbn [bind].
      destruct (IH d1 D1 (grow_trans G _ _ _ GR G1)) as (d2 & ms2 & E2 & D2 & G2 & S2); auto. rewrite E2. cbn [bind].
      exists d2, (m1 :: ms2). split; auto. split; auto. split; [eapply grow_trans; eauto|]. constructor; auto.
      destruct S1 as (A & B & C & F). split; auto. split; auto. split; auto. intros d3 D3 G3. apply F; auto. eapply grow_trans; eauto.
  Qed.
End Cells.
