(** BuildDepth ends without an exception (C50). *)
From Verif Require Import Prelude BoolSpec BoolSeq BoolProofs BoolProofs2 BoolEditProofs BoolTotal RBool RBoolSpec RBoolProofs RBox RPlanes Build BuildSpec BuildProofs.
Open Scope Z_scope.

Section Total.
  Variable C : cad.
  Variable boxer : node * bx C -> Z -> res (abox (bx C)).
  Variable order : node -> list Z.
  Hypothesis OR1 : orders order.
  Variable ext : bx C.
  Hypothesis SAME : same C ext ext = true.
  Hypothesis BOX : forall pl k, exists m, boxer pl k = Ok m.

  Lemma full_seq' op lev l : full (Seq op lev l) <-> l <> [] /\ Forall full l.
  Proof.
    cbn. split; intros (A & B); split; auto.
    - clear A. induction l; cbn in B; constructor; tauto.
    - clear A. induction B; cbn; auto.
  Qed.
  Lemma full_lits n : full n -> lits n <> [].
  Proof.
    induction n as [z|op lev b|op lev l IH] using node_ind'; intros F; [discriminate|destruct F|].
    apply full_seq' in F as (NE & F). destruct l as [|e l]; [congruence|]. cbn. apply Forall_inv in IH, F. destruct (lits e); [destruct (IH F); auto|discriminate].
  Qed.
  Lemma full_no_const n : full n -> no_const n.
  Proof.
    induction n as [z|op lev b|op lev l IH] using node_ind'; intros F; [exact Logic.I|destruct F|].
    apply full_seq' in F as (_ & F). apply no_const_seq. rewrite Forall_forall in *. auto.
  Qed.
  Lemma order_nonempty n : full n -> order n <> [].
  Proof.
    intros F E. destruct (lits n) as [|z l] eqn:L; [destruct (full_lits n F L)|]. assert (H : In (Z.abs z) (order n)) by (apply OR1, surfs_spec; exists z; split; auto; rewrite L; now left).
    rewrite E in H. destruct H.
  Qed.

  Section Cut.
    Variable def : node.
    Hypothesis W : wf def. Hypothesis F : full def. Hypothesis SQ : is_seq def.
    Lemma rev_total vs : exists v n', revaluate vs def = Ok (v, n').
    Proof. apply reval_total; auto. apply full_no_const; auto. Qed.
    Lemma sort_total o z known : forall l, exists f c, sort_parts C def o z known l = Ok (f, c).
    Proof.
      induction l as [|s l (f & c & E)]; cbn [sort_parts]; [eauto|]. rewrite E. cbn [bind]. destruct (small C s); [eauto|].
      destruct (rev_total (sides_of (updated z (side_at C s z) known))) as (v & n' & ->). cbn [bind]. destruct v as [[|]|]; eauto.
    Qed.
    Lemma split_total o z : forall l, exists f c, split_all C def o z l = Ok (f, c).
    Proof.
      induction l as [|b l (f & c & E)]; cbn [split_all]; [eauto|]. unfold split_one. destruct (thin C (p_shape b)); [|destruct (sort_total (join_or o (p_or b)) z (p_known b) (slice C (p_shape b) z)) as (f' & c' & ->)];
        cbn [bind]; rewrite E; cbn [bind]; eauto.
    Qed.
    Lemma cut_total o : forall zs full cut, exists r, cut_loop C def o zs full cut = Ok r.
    Proof.
      induction zs as [|z zs IH]; intros full0 cut; cbn [cut_loop]; [eauto|]. destruct (split_total o z cut) as (f & c & ->). cbn [bind]. destruct c; [eauto|apply IH].
    Qed.
  End Cut.

  Lemma box_total c k : exists c' m, build_box C boxer ext c k = Ok c' /\ b_def c' = b_def c /\ b_box c' = Some m /\
     boxer (b_planes c') k = Ok m /\ same C (snd (b_planes c')) ext = true /\ (same C (snd (b_planes c)) ext = true -> b_planes c' = b_planes c).
  Proof.
    unfold build_box. set (pl := if same C (snd (b_planes c)) ext then b_planes c else (b_def c, ext)). destruct (BOX pl k) as (m & E). rewrite E. cbn [bind].
    eexists _, m. split; [reflexivity|]. cbn [b_def b_planes b_box]. repeat split; auto; subst pl; destruct (same C (snd (b_planes c)) ext) eqn:S; auto. discriminate.
  Qed.

  Lemma solid_total c base : wf (b_def c) -> full (b_def c) -> is_seq (b_def c) -> (base <> None -> b_box c <> None) -> exists r, solid_parts C boxer order ext c base = Ok r.
  Proof.
    intros W F SQ HB. pose proof (order_nonempty _ F) as NE.
    assert (CB : forall c' b, b_def c' = b_def c -> b_box c' <> None -> exists r, cut_base C order c' b = Ok r).
    { intros c' b BD BN. unfold cut_base. destruct (b_box c') as [m|]; [|congruence]. rewrite BD. apply cut_total; auto. }
    destruct base as [l|]; cbn [solid_parts].
    - destruct (mapM_total (fun b => if flat C (p_shape b) then Ok [] else match order (b_def c) with [] => Err TypeError | _ :: _ => cut_base C order c b end) l) as (r & ->).
      + intros b _. destruct (flat C (p_shape b)); [eauto|]. destruct (order (b_def c)); [congruence|]. apply CB; auto. apply HB. discriminate.
      + cbn [bind]. eauto.
    - assert (EX : exists c' m, match b_box c with Some _ => Ok c | None => build_box C boxer ext c 2 end = Ok c' /\ b_def c' = b_def c /\ b_box c' = Some m).
      { destruct (b_box c) as [m|] eqn:BM; [exists c, m; auto|]. destruct (box_total c 2) as (c' & m & E & BD & BM' & _). eauto. }
      destruct EX as (c' & m & -> & BD & BM). cbn [bind]. rewrite BM, BD.
      destruct (order (b_def c)) as [|z zs] eqn:OD; [congruence|].
      destruct (a_or m), (a_box m) as [b|]; try (eexists; reflexivity);
        match goal with |- context [make C ?b] => destruct (make C b) end; try (eexists; reflexivity); apply CB; auto; congruence.
  Qed.

  Section Loops.
    Variable depth : bcell C -> option (list (piece C)) -> res (list (piece C)).
    (** a cell that can be given a base *)
    Definition based (c : bcell C) : Prop :=
      exists m, b_box c = Some m /\ a_box m <> None /\ boxer (b_planes c) 100 = Ok m /\ same C (snd (b_planes c)) ext = true.
    Variable good : node -> Prop.
    Hypothesis DT : forall c base, good (b_def c) -> (base <> None -> based c) -> exists r, depth c base = Ok r.

    Lemma filter_total c b o : good (b_def c) -> forall l built, exists f k, filter_parts C depth c b o built l = Ok (f, k).
    Proof.
      intros GC. induction l as [|p l IH]; intros built; cbn [filter_parts]; [eauto|].
      destruct (meets C b (p_shape p)).
      - destruct (IH built) as (f & k & ->). cbn [bind]. eauto.
      - destruct o; [apply IH|]. destruct (p_or p); [|destruct built].
        + destruct (IH built) as (f & k & ->). cbn [bind]. eauto.
        + destruct (IH true) as (f & k & ->). cbn [bind]. eauto.
        + destruct (DT c None GC) as (q & ->); [congruence|]. cbn [bind]. destruct (IH true) as (f & k & ->). cbn [bind]. eauto.
    Qed.
    Lemma sub_box c e k : good e -> exists s' m, build_box C boxer ext (sub_cell C c e) k = Ok s' /\ good (b_def s') /\ b_box s' = Some m /\
      boxer (b_planes s') k = Ok m /\ same C (snd (b_planes s')) ext = true /\ (same C (snd (b_planes c)) ext = true -> b_planes s' = b_planes c).
    Proof.
      intros GE. destruct (box_total (sub_cell C c e) k) as (s' & m & E & BD & BM & BX & SM & PL). exists s', m. split; auto. split; [rewrite BD; cbn; now rewrite copy_id|]. auto.
    Qed.
    Lemma and_total c : forall l ps, Forall good l ->
      match ps with PNone _ => l <> [] | POne _ _ => l <> [] /\ based c | PList _ _ => True end -> exists r, and_loop C boxer ext depth c l ps = Ok r.
    Proof.
      induction l as [|e l IH]; intros ps GL HP; cbn [and_loop].
      - destruct ps; [congruence|destruct HP; congruence|eauto].
      - apply Forall_cons_iff in GL as (GE & GL).
        assert (LST : forall q, exists r, and_loop C boxer ext depth c l (PList C q) = Ok r) by (intros q; apply IH; auto).
        destruct (sub_box c e 100 GE) as (s' & m & E & GS & BM & BX & SM & PL).
        assert (STEP : (exists r, and_loop C boxer ext depth c l ps = Ok r) \/ a_box m <> None ->
          exists r, (do s' <- build_box C boxer ext (sub_cell C c e) 100;
              match b_box s' with
              | None => Err AttributeError
              | Some m =>
                  match a_box m with
                  | None => match a_or m with Rev => and_loop C boxer ext depth c l ps | Fwd => Ok [] end
                  | Some b =>
                      do (f, k) <- filter_parts C depth s' b (a_or m) false (as_list C ps);
                      match f, k with
                      | [], [] => Ok []
                      | [], _ => and_loop C boxer ext depth c l (PList C k)
                      | _, _ => do q <- depth s' (Some f); and_loop C boxer ext depth c l (PList C (q ++ k))
                      end
                  end
              end) = Ok r).
        { intros HA. rewrite E. cbn [bind]. rewrite BM. destruct (a_box m) as [b|] eqn:AM.
          - destruct (filter_total s' b (a_or m) GS (as_list C ps) false) as (f & k & ->). cbn [bind]. destruct f as [|p f]; [destruct k; [eauto|apply LST]|].
            destruct (DT s' (Some (p :: f)) GS) as (q & ->); [intros _; exists m; rewrite AM; repeat split; auto; discriminate|]. cbn [bind]. apply LST.
          - destruct (a_or m); [eauto|]. destruct HA as [HA|HA]; [exact HA|congruence]. }
        destruct ps as [|p|q].
        + destruct (DT (sub_cell C c e) None) as (q & ->); [cbn; now rewrite copy_id|congruence|]. cbn [bind]. apply LST.
        + apply STEP. right. destruct HP as (_ & m' & BM' & AM' & BX' & SM'). rewrite (PL SM') in BX. congruence.
        + apply STEP. left. apply LST.
    Qed.
    Lemma or_total c base : forall l acc, Forall good l -> exists r, or_loop C boxer ext depth c l base acc = Ok r.
    Proof.
      induction l as [|e l IH]; intros acc GL; cbn [or_loop]; [eauto|]. apply Forall_cons_iff in GL as (GE & GL). destruct base as [p|].
      - destruct (sub_box c e 100 GE) as (s' & m & E & GS & BM & BX & SM & PL). rewrite E. cbn [bind]. rewrite BM. destruct (a_box m) as [b|] eqn:AM; [|apply IH; auto].
        destruct (filter_total s' b (a_or m) GS [p] false) as (f & k & ->). cbn [bind]. destruct f as [|q f]; [apply IH; auto|].
        destruct (DT s' (Some (q :: f)) GS) as (r & ->); [intros _; exists m; rewrite AM; repeat split; auto; discriminate|]. cbn [bind]. apply IH; auto.
      - destruct (DT (sub_cell C c e) None) as (q & ->); [cbn; now rewrite copy_id|congruence|]. cbn [bind]. apply IH; auto.
    Qed.
  End Loops.

  Lemma group_elt op lev l l' e : group_single (Seq op lev l) = Ok (Seq op lev l') -> Forall wf l -> In e l' -> In e l \/ exists a g, e = Seq op 0 (a :: g) /\ Forall is_lit (a :: g).
  Proof.
    cbn [group_single]. destruct (lev =? 0); [intros [= <-]; auto|]. intros H W E. inv_bind. destruct a as (m, g). apply gs_loop_wf in Ha as (_ & _ & GL & GI); auto.
    destruct g as [|a g]; injection H as <-; [auto|]. destruct E as [<-|E]; [right; eauto|auto].
  Qed.
  Definition deep (k : nat) (n : node) : Prop :=
    wf n /\ full n /\ is_seq n /\ ((height n < k)%nat \/ exists op l, n = Seq op 0 l /\ (1 <= k)%nat).
  Lemma depth_total : forall k c base, deep k (b_def c) -> (base <> None -> based c) -> exists r, build_depth C boxer order ext k c base = Ok r.
  Proof.
    induction k as [|k IH]; intros c base (W & F & SQ & H) HB; [destruct H as [H|(op & l & _ & H)]; lia|]. cbn [build_depth].
    destruct (b_def c) as [z|op lev b|op lev l] eqn:BD; [destruct SQ|destruct F|].
    assert (HBX : base <> None -> b_box c <> None) by (intros NB; destruct (HB NB) as (m & E & _); congruence).
    destruct (group_single_total op lev l) as (l' & GS & G0 & G1).
    { left. apply full_seq' in F as (_ & F). eapply Forall_impl; [|exact F]. intros [] Q; cbn in *; tauto. }
    rewrite GS. cbn [bind]. destruct (Z.eqb_spec lev 0) as [->|NE].
    - apply solid_total; cbn [b_def b_box]; auto; rewrite (G0 eq_refl); auto.
    - destruct (G1 NE) as (G2 & G3). destruct H as [H|(op' & l2 & E & _)]; [|congruence].
      pose proof (group_single_wf _ _ GS W) as W'. apply wf_seq in W' as (_ & _ & W'). apply full_seq' in F as F'. destruct F' as (_ & F').
      assert (W0 : Forall wf l) by (apply wf_seq in W as (_ & _ & W0); exact W0).
      assert (GL : Forall (deep k) l').
      { rewrite Forall_forall in *. intros e E. assert (SE : is_seq e) by (specialize (G2 e E); destruct e; cbn in *; auto).
        destruct (group_elt _ _ _ _ e GS (proj2 (Forall_forall _ _) W0) E) as [HI|(a & g & -> & GG)].
        - split; [auto|]. split; [auto|]. split; auto. left. rewrite height_seq in H. pose proof (hmax_In l e HI). lia.
        - split; [auto|]. split; [|split; [exact Logic.I|]].
          + apply full_seq'. split; [discriminate|]. eapply Forall_impl; [|exact GG]. intros [] Q; cbn in *; tauto.
          + right. exists op, (a :: g). split; auto. rewrite height_seq in H. lia. }
      assert (NL : l' <> []).
      { intros ->. apply full_lits in F. destruct (lits (Seq op lev l)) as [|z r] eqn:L; [congruence|].
        assert (Z1 : In z (lits (Seq op lev l))) by (rewrite L; now left). apply (group_single_lits _ _ _ GS) in Z1. destruct Z1. }
      set (cc := Bcell (Seq op lev l') (b_planes c) (b_box c)).
      assert (ONE : forall y, (y <> None -> based cc) -> exists r, match op with
                | AND => and_loop C boxer ext (build_depth C boxer order ext k) cc l' (match y with None => PNone C | Some p => POne C p end)
                | OR => or_loop C boxer ext (build_depth C boxer order ext k) cc l' y [] end = Ok r).
      { intros y HY. destruct op; [apply (and_total _ (deep k)); auto|apply (or_total _ (deep k)); auto]. destruct y; auto. split; auto. apply HY. discriminate. }
      destruct base as [bs|].
      + destruct (mapM_total (fun p => match op with
                | AND => and_loop C boxer ext (build_depth C boxer order ext k) cc l' (POne C p)
                | OR => or_loop C boxer ext (build_depth C boxer order ext k) cc l' (Some p) [] end) bs) as (r & ->); [|cbn [bind]; eauto].
        intros p _. apply (ONE (Some p)). intros _. apply HB. discriminate.
      + apply (ONE None). congruence.
  Qed.
End Total.
