(** Proofs about CtBuild.v. *)
From Verif Require Import Prelude BoolSpec BoolSeq CtSpec Ctable CtableProofs CtBuild.

Section Build.
  Variable R : Type.
  Variable cut : Z -> Z * option (list R * list R).
  Variable side : R -> Z -> bool * bool.
  Variable mem : R -> point -> Prop.   (* the point lies in the piece *)

  (** The CAD kernel answers truly about the point [v]. *)
  Definition cut_true (v : point) : Prop := forall s d regs, cut s = (d, regs) ->
    possible (CDiag d) (v s) (v s) /\
    match regs with
    | None => True
    | Some (ps, ns) => if v s then exists r, In r ps /\ mem r v else exists r, In r ns /\ mem r v
    end.
  Definition side_true (v : point) : Prop := forall r s, mem r v ->
    (if v s then fst (side r s) else snd (side r s)) = true.
  Definition cut_small : Prop := forall s, small_diag (CDiag (fst (cut s))).

  Lemma bb_eqb_eq p q : bb_eqb p q = true -> p = q.
  Proof. destruct p, q. unfold bb_eqb. simpl. intros H. apply andb_true_iff in H. destruct H as [A B].
    apply eqb_prop in A. apply eqb_prop in B. congruence. Qed.

  Lemma scan_spec s2 l : forall pos0 last p,
    scan R side s2 l pos0 last = Some p ->
    (forall p0, pos0 = Some p0 -> last = Some p0) ->
    (forall p0, pos0 = Some p0 -> p = p0 \/ p = (true, true)) /\
    (forall r, In r l -> p = side r s2 \/ p = (true, true)).
  Proof.
    induction l as [|r l IH]; intros pos0 last p H HL; cbn [scan] in H.
    - split; [|intros r []]. intros p0 E. apply HL in E. left; congruence.
    - destruct (bb_eqb (side r s2) (true, true)) eqn:E1.
      + apply bb_eqb_eq in E1. invp H. rewrite E1. split; auto.
      + destruct pos0 as [p0|].
        * destruct (bb_eqb (side r s2) p0) eqn:E2.
          -- apply bb_eqb_eq in E2. subst p0. destruct (IH _ _ _ H) as (A & B); [congruence|].
             split; [auto|]. intros r' [<-|Hr]; [|auto]. apply A; auto.
          -- invp H. split; auto.
        * destruct (IH _ _ _ H) as (A & B); [congruence|]. split; [discriminate|].
          intros r' [<-|Hr]; auto.
  Qed.

  Lemma scan_total s2 l : forall pos0 last, l <> [] \/ last <> None -> exists p, scan R side s2 l pos0 last = Some p.
  Proof.
    induction l as [|r l IH]; intros pos0 last H; cbn [scan].
    - destruct last; eauto. destruct H; congruence.
    - destruct (bb_eqb _ _); eauto. destruct pos0 as [p0|].
      + destruct (bb_eqb _ p0); eauto. apply IH. right; congruence.
      + apply IH. right; congruence.
  Qed.

  Lemma build_row_spec v s1 ps ns (ST : side_true v)
    (CV : if v s1 then exists r, In r ps /\ mem r v else exists r, In r ns /\ mem r v) :
    forall l st t st' t', build_row R side s1 ps ns l st t = Ok (st', t') -> in_box t v -> in_box t' v.
  Proof.
    induction l as [|s2 l IH]; intros st t st' t' H B; cbn [build_row] in H; [invp H; auto|].
    destruct (scan R side s2 ps None (fst st)) as [[p0 p1]|] eqn:EP; [|discriminate].
    destruct (scan R side s2 ns None (snd st)) as [[n0 n1]|] eqn:EN; [|discriminate].
    eapply IH; [exact H|]. apply add_element_in_box; auto. simpl.
    destruct (scan_spec _ _ _ _ _ EP) as (_ & QP); [discriminate|].
    destruct (scan_spec _ _ _ _ _ EN) as (_ & QN); [discriminate|].
    destruct (v s1).
    - destruct CV as (r & Hr & Hm). pose proof (ST r s2 Hm) as S. destruct (QP r Hr) as [E|E].
      + rewrite <- E in S. simpl in S. destruct (v s2); auto.
      + invp E. destruct (v s2); auto.
    - destruct CV as (r & Hr & Hm). pose proof (ST r s2 Hm) as S. destruct (QN r Hr) as [E|E].
      + rewrite <- E in S. simpl in S. destruct (v s2); auto.
      + invp E. destruct (v s2); auto.
  Qed.

  Lemma add_element_keys t k1 k2 e :
    keys (add_element t k1 k2 e) = if existsb (Z.eqb k1) (keys t) then keys t else keys t ++ [k1].
  Proof.
    unfold add_element, keys. destruct (get k1 t) as [r|] eqn:E.
    - rewrite (put_keys _ _ _ _ E).
      assert (I : In k1 (map fst t)) by (apply get_In_keys; eauto).
      replace (existsb (Z.eqb k1) (map fst t)) with true; auto.
      symmetry. apply existsb_exists. exists k1. split; auto. apply Z.eqb_refl.
    - replace (existsb (Z.eqb k1) (map fst t)) with false.
      + clear -E. induction t as [|[y b] t IH]; simpl in *; auto.
        destruct (y =? k1); [discriminate|]. simpl. rewrite IH; auto.
      + symmetry. apply not_true_iff_false. intros H. apply existsb_exists in H. destruct H as (x & Hx & Ex).
        apply Z.eqb_eq in Ex. subst. apply get_In_keys in Hx. destruct Hx; congruence.
  Qed.

  Lemma build_row_shape s1 ps ns : forall l st t st' t',
    build_row R side s1 ps ns l st t = Ok (st', t') -> In s1 (keys t) -> ~ In s1 l ->
    keys t' = keys t /\ (diag_ok t -> diag_ok t') /\ (off_ok t -> off_ok t').
  Proof.
    induction l as [|s2 l IH]; intros st t st' t' H I N; cbn [build_row] in H; [invp H; auto|].
    destruct (scan R side s2 ps None (fst st)) as [[p0 p1]|] eqn:EP; [|discriminate].
    destruct (scan R side s2 ns None (snd st)) as [[n0 n1]|] eqn:EN; [|discriminate].
    assert (K : keys (add_element t s1 s2 (CQuad p0 p1 n1 n0)) = keys t).
    { rewrite add_element_keys. replace (existsb (Z.eqb s1) (keys t)) with true; auto.
      symmetry. apply existsb_exists. exists s1. split; auto. apply Z.eqb_refl. }
    simpl in N. destruct (IH _ _ _ _ H) as (K' & D & O); [rewrite K; auto|tauto|].
    split; [congruence|]. split.
    - intros DT. apply D. intros k Hk. rewrite K in Hk. destruct (DT k Hk) as (d & E & S). exists d; split; auto.
      rewrite add_element_entry. destruct (Z.eqb_spec s1 k), (Z.eqb_spec s2 k); subst; simpl; auto. tauto.
    - intros OT. apply O. intros x y e Ne E. rewrite add_element_entry in E.
      destruct ((s1 =? x) && (s2 =? y)); [invp E; eauto 6|eauto].
  Qed.

  Lemma build_loop_spec diag v : cut_true v -> side_true v -> cut_small -> forall l st t t',
    build_loop R cut side diag l st t = Ok t' ->
    NoDup l -> (forall s, In s l -> ~ In s (keys t)) ->
    in_box t v -> diag_ok t -> off_ok t ->
    in_box t' v /\ diag_ok t' /\ off_ok t' /\ keys t' = keys t ++ l.
  Proof.
    intros CT ST SM. induction l as [|s l IH]; intros st t t' H ND DJ B D O; cbn [build_loop] in H.
    - invp H. rewrite app_nil_r. auto.
    - inversion ND as [|? ? NI ND']; subst.
      destruct (cut s) as [d regs] eqn:EC. destruct (CT s d regs EC) as (PD & CV).
      assert (SD : small_diag (CDiag d)) by (specialize (SM s); rewrite EC in SM; auto).
      set (t1 := add_element t s s (CDiag d)) in *.
      assert (B1 : in_box t1 v) by (apply add_element_in_box; auto).
      assert (NK : existsb (Z.eqb s) (keys t) = false).
      { apply not_true_iff_false. intros HH. apply existsb_exists in HH. destruct HH as (x & Hx & Ex).
        apply Z.eqb_eq in Ex. subst x. eapply DJ; [left; eauto|auto]. }
      assert (K1 : keys t1 = keys t ++ [s]) by (unfold t1; rewrite add_element_keys, NK; auto).
      assert (D1 : diag_ok t1).
      { intros k Hk. unfold t1. rewrite add_element_entry. destruct (Z.eqb_spec s k); simpl; [eauto|].
        rewrite K1 in Hk. apply in_app_or in Hk. destruct Hk as [Hk|[Hk|[]]]; [auto|congruence]. }
      assert (O1 : off_ok t1).
      { intros x y e Ne E. unfold t1 in E. rewrite add_element_entry in E.
        destruct (Z.eqb_spec s x), (Z.eqb_spec s y); subst; simpl in E; try congruence; eauto. }
      assert (DJ1 : forall x, In x l -> ~ In x (keys t1)).
      { intros x Hx HI. rewrite K1 in HI. apply in_app_or in HI. destruct HI as [HI|[HI|[]]].
        - eapply DJ; [right; eauto|auto].
        - subst; auto. }
      assert (G : forall t2 st2, keys t2 = keys t1 -> in_box t2 v -> diag_ok t2 -> off_ok t2 ->
         build_loop R cut side diag l st2 t2 = Ok t' ->
         in_box t' v /\ diag_ok t' /\ off_ok t' /\ keys t' = keys t ++ s :: l).
      { intros t2 st2 K2 B2 D2 O2 HH. destruct (IH _ _ _ HH ND') as (A1 & A2 & A3 & A4); auto.
        - intros x Hx. rewrite K2. auto.
        - repeat split; auto. rewrite A4, K2, K1, <- app_assoc. auto. }
      destruct diag; [eapply G; eauto|].
      destruct regs as [[ps ns]|]; [|eapply G; eauto].
      inv_bind. destruct a as [st' t2].
      destruct (build_row_shape _ _ _ _ _ _ _ _ Ha) as (K2 & D2 & O2); [rewrite K1; apply in_or_app; simpl; auto|auto|].
      eapply G; [exact K2| | | |exact H]; auto.
      eapply build_row_spec; eauto.
  Qed.

  Lemma build_loop_shape diag : cut_small -> forall l st t t',
    build_loop R cut side diag l st t = Ok t' ->
    NoDup l -> (forall s, In s l -> ~ In s (keys t)) ->
    diag_ok t -> off_ok t ->
    diag_ok t' /\ off_ok t' /\ keys t' = keys t ++ l.
  Proof.
    intros SM. induction l as [|s l IH]; intros st t t' H ND DJ D O; cbn [build_loop] in H.
    - invp H. rewrite app_nil_r. auto.
    - inversion ND as [|? ? NI ND']; subst.
      destruct (cut s) as [d regs] eqn:EC.
      assert (SD : small_diag (CDiag d)) by (specialize (SM s); rewrite EC in SM; auto).
      set (t1 := add_element t s s (CDiag d)) in *.
      assert (NK : existsb (Z.eqb s) (keys t) = false).
      { apply not_true_iff_false. intros HH. apply existsb_exists in HH. destruct HH as (x & Hx & Ex).
        apply Z.eqb_eq in Ex. subst x. eapply DJ; [left; eauto|auto]. }
      assert (K1 : keys t1 = keys t ++ [s]) by (unfold t1; rewrite add_element_keys, NK; auto).
      assert (D1 : diag_ok t1).
      { intros k Hk. unfold t1. rewrite add_element_entry. destruct (Z.eqb_spec s k); simpl; [eauto|].
        rewrite K1 in Hk. apply in_app_or in Hk. destruct Hk as [Hk|[Hk|[]]]; [auto|congruence]. }
      assert (O1 : off_ok t1).
      { intros x y e Ne E. unfold t1 in E. rewrite add_element_entry in E.
        destruct (Z.eqb_spec s x), (Z.eqb_spec s y); subst; simpl in E; try congruence; eauto. }
      assert (DJ1 : forall x, In x l -> ~ In x (keys t1)).
      { intros x Hx HI. rewrite K1 in HI. apply in_app_or in HI. destruct HI as [HI|[HI|[]]].
        - eapply DJ; [right; eauto|auto].
        - subst; auto. }
      assert (G : forall t2 st2, keys t2 = keys t1 -> diag_ok t2 -> off_ok t2 ->
         build_loop R cut side diag l st2 t2 = Ok t' ->
         diag_ok t' /\ off_ok t' /\ keys t' = keys t ++ s :: l).
      { intros t2 st2 K2 D2 O2 HH. destruct (IH _ _ _ HH ND') as (A2 & A3 & A4); auto.
        - intros x Hx. rewrite K2. auto.
        - repeat split; auto. rewrite A4, K2, K1, <- app_assoc. auto. }
      destruct diag; [eapply G; eauto|].
      destruct regs as [[ps ns]|]; [|eapply G; eauto].
      inv_bind. destruct a as [st' t2].
      destruct (build_row_shape _ _ _ _ _ _ _ _ Ha) as (K2 & D2 & O2); [rewrite K1; apply in_or_app; simpl; auto|auto|].
      eapply G; [exact K2| | |exact H]; auto.
  Qed.

  Lemma build_ctable_spec diag v sl t : cut_true v -> side_true v -> cut_small -> NoDup sl ->
    build_ctable R cut side diag sl = Ok t ->
    in_box t v /\ keys t = sl /\ diag_ok t /\ off_ok t /\ (diag = false -> full_tab t).
  Proof.
    intros CT ST SM ND H. unfold build_ctable in H. destruct sl as [|s0 sl0]; [discriminate|].
    inv_bind.
    destruct (build_loop_spec _ _ CT ST SM _ _ _ _ Ha ND) as (B & D & O & K).
    - intros s _ [].
    - intros k1 k2 e E. discriminate.
    - intros k [].
    - intros k1 k2 e _ E. discriminate.
    - simpl in K. destruct diag; [invp H; rewrite K; repeat split; auto; discriminate|].
      destruct (fill_missing_spec a) as (t' & F & K' & D' & O' & B' & C'); [rewrite K; auto|auto|auto|].
      rewrite F in H. invp H. split; auto. split; [congruence|]. split; auto. split; auto. intros _ x y Hx Hy.
      rewrite K' in Hx, Hy. pose proof (C' x y Hx Hy) as NE. destruct (entry t x y) as [e|] eqn:E; [|congruence].
      exists e. split; auto. intros ->. destruct (Z.eq_dec x y) as [->|N].
      + destruct (D' y) as (d & Ed & _); [rewrite K'; auto|]. congruence.
      + destruct (O' _ _ _ N E) as (? & ? & ? & ? & Q). discriminate.
  Qed.

  (** no crash when every surface that cuts the box leaves pieces on both sides *)
  Lemma build_row_total s1 ps ns : ps <> [] -> ns <> [] -> forall l st t,
    exists st' t', build_row R side s1 ps ns l st t = Ok (st', t').
  Proof.
    intros HP HN. induction l as [|s2 l IH]; intros st t; cbn [build_row]; [eauto|].
    destruct (scan_total s2 ps None (fst st)) as ((p0 & p1) & ->); auto.
    destruct (scan_total s2 ns None (snd st)) as ((n0 & n1) & ->); auto.
  Qed.
  Lemma build_loop_total diag : (forall s d ps ns, cut s = (d, Some (ps, ns)) -> ps <> [] /\ ns <> []) ->
    forall l st t, exists t', build_loop R cut side diag l st t = Ok t'.
  Proof.
    intros NE. induction l as [|s l IH]; intros st t; cbn [build_loop]; [eauto|].
    destruct (cut s) as [d [[ps ns]|]] eqn:EC; destruct diag; auto.
    destruct (NE _ _ _ _ EC) as (NP & NN).
    destruct (build_row_total s ps ns NP NN l st (add_element t s s (CDiag d))) as (st' & t' & ->).
    cbn [bind]. auto.
  Qed.

  Lemma build_ctable_total diag sl : cut_small -> NoDup sl -> sl <> [] ->
    (forall s d ps ns, cut s = (d, Some (ps, ns)) -> ps <> [] /\ ns <> []) ->
    exists t, build_ctable R cut side diag sl = Ok t.
  Proof.
    intros SM ND NS NE. unfold build_ctable. destruct sl as [|s0 sl0]; [congruence|].
    destruct (build_loop_total diag NE (s0 :: sl0) (None, None) []) as (t & H). rewrite H. cbn [bind].
    destruct diag; [eauto|].
    destruct (build_loop_shape _ SM _ _ _ _ H ND) as (D & O & K).
    - intros s _ [].
    - intros k [].
    - intros k1 k2 e _ E. discriminate.
    - destruct (fill_missing_spec t) as (t' & F & _); [rewrite K; auto|auto|auto|]. eauto.
  Qed.
End Build.
