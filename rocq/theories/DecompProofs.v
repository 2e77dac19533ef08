(** Proofs for C52. *)
From Coq Require Import QArith Qabs Permutation.
From Verif Require Import Prelude Decomp DecompSpec.

Section Proofs.
  Variable Sh T : Type.
  Variable C : cad Sh T.
  Variable op : options.
  Notation bop := (bop Sh T C op).

  Lemma split_bop_slice lim : forall s ts tol sc l, split_bop Sh T C op lim s ts tol sc = Ok l ->
    exists t, slice C s ts t = Some l.
  Proof.
    induction lim as [|lim IH]; intros s ts tol sc l H; cbn [split_bop] in H; [discriminate|].
    assert (SL : forall t, sliced Sh T C s ts t = Ok l -> exists t, slice C s ts t = Some l).
    { intros t. unfold sliced. destruct (slice C s ts t) eqn:E; [|discriminate]. intros [= ->]. eauto. }
    destruct (Qle_bool (1 # 10) tol); eauto.
    destruct (negb (Qle_bool (1 # 1000000000000) tol)); [destruct (scale_up op); eauto|].
    destruct (slice C s ts tol) eqn:E; [injection H as ->; eauto|eauto].
  Qed.
  Lemma split_bop_nofuel lim : forall s ts tol sc, split_bop Sh T C op lim s ts tol sc <> Fuel.
  Proof.
    induction lim as [|lim IH]; intros s ts tol sc; cbn [split_bop]; [discriminate|].
    assert (SL : forall t, sliced Sh T C s ts t <> Fuel) by (intros t; unfold sliced; destruct (slice C s ts t); discriminate).
    destruct (Qle_bool (1 # 10) tol); eauto.
    destruct (negb (Qle_bool (1 # 1000000000000) tol)); [destruct (scale_up op); eauto|].
    destruct (slice C s ts tol) eqn:E; [discriminate|eauto].
  Qed.

  Lemma filter_le {A} (f : A -> bool) l : (length (filter f l) <= length l)%nat.
  Proof. induction l as [|x l IH]; simpl; auto. destruct (f x); simpl; lia. Qed.

  (** * Places *)
  Definition same_places (a b : list Sh) : Prop :=
    forall inside, splits_exactly C inside -> count inside a = count inside b.
  Lemma count_app (f : Sh -> bool) a b : count f (a ++ b) = (count f a + count f b)%nat.
  Proof. unfold count. rewrite filter_app, app_length. auto. Qed.
  Lemma count_part (f g : Sh -> bool) l : count f l = (count f (filter g l) + count f (filter (fun x => negb (g x)) l))%nat.
  Proof.
    unfold count. induction l as [|x l IH]; simpl; auto. destruct (g x) eqn:E; simpl; destruct (f x); simpl; lia.
  Qed.
  Lemma bop_places lim s ts l : bop lim s ts = Ok l -> same_places [s] l.
  Proof.
    intros H inside K. apply split_bop_slice in H. destruct H as (t & H). rewrite (K _ _ _ _ H). unfold count. simpl.
    destruct (inside s); auto.
  Qed.
  Lemma same_refl a : same_places a a.
  Proof. intros f K. auto. Qed.
  Lemma same_part g l : same_places l (filter (fun x => negb (g x)) l ++ filter g l).
  Proof. intros f K. rewrite count_app, (count_part f g l). lia. Qed.

  Definition small (p : Sh) : Prop := (vol C p <= 1 # 100)%Q.
  Definition kept (a b : list Sh) : Prop := exists dr, (forall p, In p dr -> small p) /\ same_places a (b ++ dr).
  Lemma kept_same a b : same_places a b -> kept a b.
  Proof. intros H. exists []. rewrite app_nil_r. split; auto. intros ? []. Qed.
  Lemma kept_trans a b c : kept a b -> kept b c -> kept a c.
  Proof.
    intros (d & A & B) (e & A' & B'). exists (e ++ d). split.
    - intros p I. apply in_app_or in I. destruct I; auto.
    - intros f K. specialize (B f K). specialize (B' f K). rewrite !count_app in *. lia.
  Qed.
  Lemma kept_app a b a' b' : kept a b -> kept a' b' -> kept (a ++ a') (b ++ b').
  Proof.
    intros (d & A & B) (e & A' & B'). exists (d ++ e). split.
    - intros p I. apply in_app_or in I. destruct I; auto.
    - intros f K. specialize (B f K). specialize (B' f K). rewrite !count_app in *. lia.
  Qed.
  Lemma kept_perm a b b' : (forall f, count f b = count f b') -> kept a b -> kept a b'.
  Proof. intros H (d & A & B). exists d. split; auto. intros f K. specialize (B f K). rewrite !count_app, <- H in *. auto. Qed.
  Lemma kept_filter q l : (q <= 1 # 100)%Q ->
    kept l (filter (fun p => negb (Qle_bool (vol C p) q)) l).
  Proof.
    intros Hq. exists (filter (fun p => Qle_bool (vol C p) q) l). split; [|apply same_part].
    intros p I. apply filter_In in I. destruct I as (_ & I). apply Qle_bool_iff in I. unfold small. eapply Qle_trans; eauto.
  Qed.

  (** * Cutters *)
  (** [good f]: nothing lost but small pieces, and pieces get smaller. *)
  Definition keeps (f : Sh -> res (list Sh * Z)) : Prop := forall b cut e, f b = Ok (cut, e) -> kept [b] cut.
  Variable size : Sh -> nat.
  Notation SZ := (shrinking C size).
  Definition shrinks (f : Sh -> res (list Sh * Z)) : Prop := SZ -> forall b cut e, f b = Ok (cut, e) ->
    forall p, In p cut -> (size p <= size b)%nat /\ (length cut <> 1%nat -> (size p < size b)%nat).
  Definition nofuel (f : Sh -> res (list Sh * Z)) : Prop := forall b, f b <> Fuel.

  Lemma bop_size lim s ts l p : SZ -> bop lim s ts = Ok l -> In p l ->
    (size p <= size s)%nat /\ ((1 < length l)%nat -> (size p < size s)%nat).
  Proof. intros Z H I. apply split_bop_slice in H. destruct H as (t & H). eapply Z; eauto. Qed.

  Lemma first_cut_ok rs lim s tools l : first_cut Sh T C op rs lim s tools = Ok (Some l) ->
    exists t, In t tools /\ bop lim s t = Ok l /\ (1 < length l)%nat.
  Proof.
    induction tools as [|t r IH]; cbn [first_cut]; intros H; [discriminate|].
    destruct (bop lim s t) as [l0|e|] eqn:E; [|destruct rs|]; try discriminate.
    - destruct (Nat.ltb_spec 1 (length l0)).
      + injection H as ->. exists t. simpl. auto.
      + destruct (IH H) as (t' & I & J). exists t'. simpl. auto.
    - destruct (IH H) as (t' & I & J). exists t'. simpl. auto.
  Qed.
  Lemma first_cut_none lim s tools : first_cut Sh T C op true lim s tools = Ok None ->
    forall t l, In t tools -> bop lim s t = Ok l -> (length l <= 1)%nat.
  Proof.
    induction tools as [|t r IH]; cbn [first_cut]; intros H t' l I E; [destruct I|].
    destruct (bop lim s t) as [l0|e|] eqn:E0; try discriminate.
    destruct (Nat.ltb_spec 1 (length l0)); [discriminate|]. destruct I as [->|I]; [|eauto].
    rewrite E in E0. injection E0 as <-. lia.
  Qed.
  Lemma first_cut_nofuel rs lim s tools : first_cut Sh T C op rs lim s tools <> Fuel.
  Proof.
    induction tools as [|t r IH]; cbn [first_cut]; [discriminate|].
    pose proof (split_bop_nofuel lim s t (split_tol op) (1 # 10)) as K. fold (bop lim s t) in K.
    destruct (bop lim s t) as [l0|e|]; [destruct (Nat.ltb 1 (length l0)); [discriminate|auto]|destruct rs; [discriminate|auto]|congruence].
  Qed.

  Lemma pp_good lim : keeps (split_p_planes Sh T C op lim) /\ shrinks (split_p_planes Sh T C op lim) /\
    nofuel (split_p_planes Sh T C op lim).
  Proof.
    split; [|split].
    - intros b cut e H. unfold split_p_planes in H. inv_bind. injection H as <- <-. apply kept_same.
      destruct a as [l|]; [|apply same_refl]. apply first_cut_ok in Ha. destruct Ha as (t & _ & E & _). eapply bop_places; eauto.
    - intros Z b cut e H p I. unfold split_p_planes in H. inv_bind. injection H as <- <-.
      destruct a as [l|]; [|destruct I as [<-|[]]; split; auto; simpl; lia].
      apply first_cut_ok in Ha. destruct Ha as (t & _ & E & L). destruct (bop_size _ _ _ _ _ Z E I). split; auto.
    - intros b. unfold split_p_planes.
      pose proof (first_cut_nofuel true lim b (reversed_planes T op (sort_planes Sh T C false (planes C b)))) as K.
      destruct (first_cut Sh T C op true lim b _) as [r|e|]; cbn [bind]; congruence.
  Qed.
  Lemma fc_good lim : keeps (cut_full_cylinder Sh T C op lim) /\ shrinks (cut_full_cylinder Sh T C op lim) /\
    nofuel (cut_full_cylinder Sh T C op lim).
  Proof.
    assert (K : forall b tools cut e, (do r <- first_cut Sh T C op false lim b tools;
        Ok (match r with Some l => l | None => [b] end, 0)) = Ok (cut, e) ->
        cut = [b] \/ (1 < length cut)%nat /\ exists t, bop lim b t = Ok cut).
    { intros b tools cut e H. inv_bind. injection H as <- <-. destruct a as [l|]; auto. right.
      apply first_cut_ok in Ha. destruct Ha as (t & _ & E & L). eauto. }
    assert (K' : forall b cut e, cut_full_cylinder Sh T C op lim b = Ok (cut, e) ->
        cut = [b] \/ (1 < length cut)%nat /\ exists t, bop lim b t = Ok cut).
    { intros b cut e H. unfold cut_full_cylinder in H. destruct (full_cyl C b) as [[cy ps]|]; [|injection H as <- <-; auto].
      destruct (sort_planes Sh T C true ps); [injection H as <- <-; auto|]. eapply K; eauto. }
    split; [|split].
    - intros b cut e H. apply kept_same. destruct (K' _ _ _ H) as [->|(_ & t & E)]; [apply same_refl|eapply bop_places; eauto].
    - intros Z b cut e H p I. destruct (K' _ _ _ H) as [->|(L & t & E)].
      + destruct I as [<-|[]]. split; auto. simpl. lia.
      + destruct (bop_size _ _ _ _ _ Z E I). split; auto.
    - intros b. unfold cut_full_cylinder. destruct (full_cyl C b) as [[cy ps]|]; [|discriminate].
      destruct (sort_planes Sh T C true ps) as [|g gs]; [discriminate|].
      pose proof (first_cut_nofuel false lim b (map (outer T) (reversed_planes T op (g :: gs)) ++ [[cy]])) as F.
      destruct (first_cut Sh T C op false lim b _) as [r|e|]; cbn [bind]; congruence.
  Qed.

  Lemma extra_loop_ok lim s : forall ps com err cut e,
    kept [s] com -> (SZ -> forall p, In p com -> (size p <= size s)%nat /\ (length com <> 1%nat -> (size p < size s)%nat)) ->
    extra_loop Sh T C op lim s ps com err = Ok (cut, e) ->
    kept [s] cut /\ (SZ -> forall p, In p cut -> (size p <= size s)%nat /\ (length cut <> 1%nat -> (size p < size s)%nat)).
  Proof.
    induction ps as [|q ps IH]; intros com err cut e K S H; cbn [extra_loop] in H; [injection H as <- <-; auto|].
    inv_bind. destruct a as [|a1 [|a2 l]].
    - eapply IH; [| |eauto]; [apply kept_same, same_refl|]. intros Z p [<-|[]]. split; auto. simpl. lia.
    - eapply IH; [| |eauto]; [apply kept_same; eapply bop_places; eauto|]. intros Z p I. destruct (bop_size _ _ _ _ _ Z Ha I). split; auto. simpl. lia.
    - set (l0 := a1 :: a2 :: l) in *. cbn [remove_solids] in H. unfold remove_solids in H.
      set (rem := filter (fun s0 => negb (Qle_bool (vol C s0) (1 # 100))) l0) in *.
      assert (K1 : kept [s] rem).
      { eapply kept_trans; [apply kept_same; eapply bop_places; eauto|]. apply kept_filter. apply Qle_refl. }
      assert (S1 : SZ -> forall p, In p rem -> (size p <= size s)%nat /\ (length rem <> 1%nat -> (size p < size s)%nat)).
      { intros Z p I. apply filter_In in I. destruct I as (I & _). destruct (bop_size _ _ _ _ _ Z Ha I) as (A & B). split; auto.
        intros _. apply B. unfold l0. simpl. lia. }
      destruct (Nat.ltb 1 (length rem)); [injection H as <- <-; auto|]. eapply IH; eauto.
  Qed.
  Lemma sp_good lim : keeps (split_2nd_o_plane Sh T C op lim) /\ shrinks (split_2nd_o_plane Sh T C op lim) /\
    nofuel (split_2nd_o_plane Sh T C op lim).
  Proof.
    assert (K : forall b cut e, split_2nd_o_plane Sh T C op lim b = Ok (cut, e) ->
      kept [b] cut /\ (SZ -> forall p, In p cut -> (size p <= size b)%nat /\ (length cut <> 1%nat -> (size p < size b)%nat))).
    { intros b cut e H. eapply extra_loop_ok; eauto; [apply kept_same, same_refl|]. intros Z p [<-|[]]. split; auto. simpl. lia. }
    split; [|split].
    - intros b cut e H. eapply K; eauto.
    - intros Z b cut e H. eapply K; eauto.
    - intros b. unfold split_2nd_o_plane. generalize [b] 0 (extra C b). intros l0 z0 ps. revert l0 z0. induction ps as [|q ps IH]; intros com err; cbn [extra_loop]; [discriminate|].
      pose proof (split_bop_nofuel lim b [q] (split_tol op) (1 # 10)) as F. fold (bop lim b [q]) in F.
      destruct (bop lim b [q]) as [l|e|]; cbn [bind]; [|discriminate|congruence]. destruct l as [|a1 [|a2 l]]; auto.
      unfold remove_solids. destruct (Nat.ltb 1 _); [discriminate|auto].
  Qed.

  (** * Loops *)
  Lemma pass_ok f : keeps f -> forall bases si ne err si' ne' err',
    pass Sh f bases si ne err = Ok (si', ne', err') -> kept (si ++ ne ++ bases) (si' ++ ne').
  Proof.
    intros KF. induction bases as [|b bs IH]; intros si ne err si' ne' err' H; cbn [pass] in H.
    - injection H as <- <- <-. rewrite app_nil_r. apply kept_same, same_refl.
    - inv_bind. destruct a as [cut e]. pose proof (KF _ _ _ Ha) as KB.
      assert (K0 : kept (si ++ ne ++ b :: bs) (si ++ ne ++ cut ++ bs)).
      { apply kept_app; [apply kept_same, same_refl|]. apply kept_app; [apply kept_same, same_refl|].
        change (b :: bs) with ([b] ++ bs). apply kept_app; auto. apply kept_same, same_refl. }
      eapply kept_trans; [exact K0|]. destruct (length cut =? 1)%nat.
      + eapply kept_trans; [|eapply IH; eauto]. apply kept_same. intros f0 K. rewrite !count_app. lia.
      + eapply kept_trans; [|eapply IH; eauto]. apply kept_same. intros f0 K. rewrite !count_app. lia.
  Qed.
  Lemma rounds_ok f : keeps f -> forall fuel bases si err l e,
    rounds Sh fuel f bases si err = Ok (l, e) -> kept (si ++ bases) l.
  Proof.
    intros KF. induction fuel as [|n IH]; intros bases si err l e H; cbn [rounds] in H; [discriminate|].
    inv_bind. destruct a as [[si' ne'] err']. apply (pass_ok f KF) in Ha. cbn [app] in Ha.
    destruct ne' as [|x ne'].
    - injection H as <- <-. rewrite app_nil_r in Ha. auto.
    - eapply kept_trans; eauto.
  Qed.

  (** The results of a pass: new bases are smaller, simple ones are single. *)
  Lemma pass_in f : forall bases si ne err si' ne' err', pass Sh f bases si ne err = Ok (si', ne', err') ->
    (forall p, In p si' -> In p si \/ exists b e, In b bases /\ f b = Ok ([p], e)) /\
    (forall p, In p ne' -> In p ne \/ exists b cut e, In b bases /\ f b = Ok (cut, e) /\ length cut <> 1%nat /\ In p cut).
  Proof.
    induction bases as [|b bs IH]; intros si ne err si' ne' err' H; cbn [pass] in H; [injection H as <- <- <-; auto|].
    inv_bind. destruct a as [cut e]. destruct (Nat.eqb_spec (length cut) 1) as [E|E]; destruct (IH _ _ _ _ _ _ H) as (A & B); (split; intros p I).
    - destruct (A p I) as [J|(b' & e' & J & Q)]; [|right; exists b', e'; simpl; auto].
      apply in_app_or in J. destruct J as [J|J]; auto. right. exists b, e. split; [simpl; auto|].
      destruct cut as [|c [|c2 cut]]; simpl in E; try discriminate. destruct J as [<-|[]]. auto.
    - destruct (B p I) as [J|(b' & cut' & e' & J & Q)]; auto. right. exists b', cut', e'. simpl; auto.
    - destruct (A p I) as [J|(b' & e' & J & Q)]; auto. right. exists b', e'; simpl; auto.
    - destruct (B p I) as [J|(b' & cut' & e' & J & Q)]; [|right; exists b', cut', e'; simpl; auto].
      apply in_app_or in J. destruct J as [J|J]; auto. right. exists b, cut, e. simpl. auto.
  Qed.
  Lemma pass_nofuel f : nofuel f -> forall bases si ne err, pass Sh f bases si ne err <> Fuel.
  Proof.
    intros N. induction bases as [|b bs IH]; intros; cbn [pass]; [discriminate|].
    specialize (N b). destruct (f b) as [[cut e]|e|]; cbn [bind]; [destruct (length cut =? 1)%nat; auto|discriminate|congruence].
  Qed.
  Lemma rounds_nofuel f : SZ -> shrinks f -> nofuel f -> forall fuel bases si err,
    (forall b, In b bases -> (size b < fuel)%nat) -> (0 < fuel)%nat -> rounds Sh fuel f bases si err <> Fuel.
  Proof.
    intros Z SF NF. specialize (SF Z). induction fuel as [|n IH]; intros bases si err HB HP; cbn [rounds]; [lia|].
    pose proof (pass_nofuel f NF bases si [] err) as PN.
    destruct (pass Sh f bases si [] err) as [[[si' ne'] err']|e|] eqn:E; cbn [bind]; [|discriminate|congruence].
    destruct ne' as [|x ne']; [discriminate|].
    destruct (pass_in _ _ _ _ _ _ _ _ E) as (_ & B).
    assert (K : forall b, In b (x :: ne') -> (size b < n)%nat).
    { intros b I. destruct (B b I) as [[]|(b0 & cut & e0 & J & F & L & Q)]. destruct (SF _ _ _ F _ Q) as (_ & S1). specialize (HB b0 J). specialize (S1 L). lia. }
    apply IH; auto. specialize (K x (or_introl eq_refl)). lia.
  Qed.
  Lemma rounds_size f N : SZ -> shrinks f -> forall fuel bases si err l e, rounds Sh fuel f bases si err = Ok (l, e) ->
    (forall b, In b bases -> (size b < N)%nat) -> (forall b, In b si -> (size b < N)%nat) -> forall p, In p l -> (size p < N)%nat.
  Proof.
    intros Z SF. specialize (SF Z). induction fuel as [|n IH]; intros bases si err l e H HB HS; cbn [rounds] in H; [discriminate|].
    inv_bind. destruct a as [[si' ne'] err']. destruct (pass_in _ _ _ _ _ _ _ _ Ha) as (A & B).
    assert (A' : forall p, In p si' -> (size p < N)%nat).
    { intros p I. destruct (A p I) as [J|(b & e0 & J & F)]; auto. destruct (SF _ _ _ F p (or_introl eq_refl)). specialize (HB b J). lia. }
    destruct ne' as [|x ne']; [injection H as <- <-; auto|]. eapply IH; eauto.
    intros b I. destruct (B b I) as [[]|(b0 & cut & e0 & J & F & L & Q)]. destruct (SF _ _ _ F _ Q). specialize (HB b0 J). lia.
  Qed.
  (** What comes out has passed the cutter as it is. *)
  Lemma rounds_single f : forall fuel bases si err l e, rounds Sh fuel f bases si err = Ok (l, e) ->
    forall p, In p l -> In p si \/ exists b e, f b = Ok ([p], e).
  Proof.
    induction fuel as [|n IH]; intros bases si err l e H p I; cbn [rounds] in H; [discriminate|].
    inv_bind. destruct a as [[si' ne'] err']. destruct (pass_in _ _ _ _ _ _ _ _ Ha) as (A & B).
    assert (A' : forall p, In p si' -> In p si \/ exists b e, f b = Ok ([p], e)).
    { intros q J. destruct (A q J) as [?|(b & e0 & _ & F)]; eauto. }
    destruct ne' as [|x ne']; [injection H as <- <-; auto|]. destruct (IH _ _ _ _ _ H p I) as [J|J]; auto.
  Qed.

  (** * Quadrics *)
  Lemma quad_loop_ok lim s : forall ts err l e, quad_loop Sh T C op lim s ts err = (Some l, e) ->
    kept [s] l /\ (1 < length l)%nat /\ (SZ -> forall p, In p l -> (size p < size s)%nat).
  Proof.
    induction ts as [|t ts IH]; intros err l e H; cbn [quad_loop] in H; [discriminate|].
    destruct (bop lim s [t]) as [l0|e0|] eqn:E; [|eapply IH; eauto|eapply IH; eauto].
    destruct (Qeq_bool (vol C s) 0); [eapply IH; eauto|].
    destruct (Nat.ltb_spec 1 (length (filter (fun p => negb (Qle_bool (vol C p) (1 # 1000000000))) l0))) as [L|L]; [|cbn [andb] in H; eapply IH; eauto].
    destruct (negb (Qle_bool (1 # 100000) _)); [|cbn [andb] in H; eapply IH; eauto].
    cbn [andb] in H. injection H as <- <-. split; [|split; auto].
    - eapply kept_trans; [apply kept_same; eapply bop_places; eauto|]. apply kept_filter. compute. discriminate.
    - intros Z p I. apply filter_In in I. destruct I as (I & _). apply (bop_size lim s [t] l0 p Z E I).
      pose proof (filter_le (fun p => negb (Qle_bool (vol C p) (1 # 1000000000))) l0). lia.
  Qed.
  Lemma quad_pass_ok lim k : forall base kb cb err kb' cb' err',
    quad_pass Sh T C op lim k base kb cb err = (kb', cb', err') ->
    kept (kb ++ cb ++ base) (kb' ++ cb') /\
    (forall p, In p kb' -> In p kb \/ In p base) /\
    (SZ -> forall p, In p cb' -> In p cb \/ exists b, In b base /\ (size p < size b)%nat).
  Proof.
    induction base as [|b bs IH]; intros kb cb err kb' cb' err' H; cbn [quad_pass] in H.
    - injection H as <- <- <-. rewrite app_nil_r. split; [apply kept_same, same_refl|auto].
    - destruct (quad_loop Sh T C op lim b (quadrics C k b) err) as [[l|] e] eqn:E.
      + destruct (IH _ _ _ _ _ _ H) as (K & A & B). destruct (quad_loop_ok _ _ _ _ _ _ E) as (K0 & L & S0). split; [|split].
        * eapply kept_trans; [|exact K].
          assert (K1 : kept (kb ++ cb ++ b :: bs) (kb ++ cb ++ l ++ bs)).
          { apply kept_app; [apply kept_same, same_refl|]. apply kept_app; [apply kept_same, same_refl|].
            change (b :: bs) with ([b] ++ bs). apply kept_app; auto. apply kept_same, same_refl. }
          eapply kept_perm; [|exact K1]. intros f. rewrite !count_app. lia.
        * intros p I. destruct (A p I); simpl; auto.
        * intros Z p I. destruct (B Z p I) as [J|(b' & J & Q)]; [|right; exists b'; simpl; auto].
          apply in_app_or in J. destruct J as [J|J]; auto. right. exists b. simpl. auto.
      + destruct (IH _ _ _ _ _ _ H) as (K & A & B). split; [|split].
        * eapply kept_trans; [|exact K]. apply kept_same. intros f Kf. change (b :: bs) with ([b] ++ bs). rewrite !count_app. lia.
        * intros p I. destruct (A p I) as [J|J]; [|simpl; auto]. apply in_app_or in J. destruct J as [J|[<-|[]]]; simpl; auto.
        * intros Z p I. destruct (B Z p I) as [J|(b' & J & Q)]; auto. right. exists b'. simpl; auto.
  Qed.
  Lemma quad_rounds_ok lim k N : forall fuel base kb err l e,
    quad_rounds Sh T C op fuel lim k base kb err = Ok (l, e) ->
    kept (kb ++ base) l /\
    (SZ -> (forall b, In b base -> (size b < N)%nat) -> (forall b, In b kb -> (size b < N)%nat) -> forall p, In p l -> (size p < N)%nat).
  Proof.
    induction fuel as [|n IH]; intros base kb err l e H; cbn [quad_rounds] in H; [discriminate|].
    destruct (quad_pass Sh T C op lim k base kb [] err) as [[kb' cb'] err'] eqn:E.
    destruct (quad_pass_ok _ _ _ _ _ _ _ _ _ E) as (K & A & B). cbn [app] in K.
    destruct cb' as [|x cb'].
    - injection H as <- <-. rewrite app_nil_r in K. split; auto. intros Z HB HK p I. destruct (A p I); auto.
    - destruct (IH _ _ _ _ _ H) as (K1 & S1). split; [eapply kept_trans; eauto|]. intros Z HB HK. apply S1; auto.
      + intros b I. destruct (B Z b I) as [[]|(b' & J & Q)]. specialize (HB b' J). lia.
      + intros b I. destruct (A b I); auto.
  Qed.
  Lemma quad_rounds_nofuel lim k : SZ -> forall fuel base kb err, (forall b, In b base -> (size b < fuel)%nat) -> (0 < fuel)%nat ->
    quad_rounds Sh T C op fuel lim k base kb err <> Fuel.
  Proof.
    intros Z. induction fuel as [|n IH]; intros base kb err HB HP; cbn [quad_rounds]; [lia|].
    destruct (quad_pass Sh T C op lim k base kb [] err) as [[kb' cb'] err'] eqn:E.
    destruct (quad_pass_ok _ _ _ _ _ _ _ _ _ E) as (_ & A & B). specialize (B Z). destruct cb' as [|x cb']; [discriminate|].
    assert (K : forall b, In b (x :: cb') -> (size b < n)%nat).
    { intros b I. destruct (B b I) as [[]|(b0 & J & Q)]. specialize (HB b0 J). lia. }
    apply IH; auto. specialize (K x (or_introl eq_refl)). lia.
  Qed.
  Lemma quad_kinds_ok lim N fuel : forall ks base err l e,
    quad_kinds Sh T C op fuel lim ks base err = Ok (l, e) ->
    kept base l /\ (SZ -> (forall b, In b base -> (size b < N)%nat) -> forall p, In p l -> (size p < N)%nat).
  Proof.
    induction ks as [|k ks IH]; intros base err l e H; cbn [quad_kinds] in H.
    - injection H as <- <-. split; [apply kept_same, same_refl|auto].
    - inv_bind. destruct a as [b1 e1]. destruct (quad_rounds_ok _ _ N _ _ _ _ _ _ Ha) as (K & S1). destruct (IH _ _ _ _ H) as (K2 & S2).
      split; [eapply kept_trans; eauto|]. intros Z HB. apply S2; auto. apply S1; auto. intros b [].
  Qed.
  Lemma quad_kinds_nofuel lim fuel : SZ -> (0 < fuel)%nat -> forall ks base err, (forall b, In b base -> (size b < fuel)%nat) ->
    quad_kinds Sh T C op fuel lim ks base err <> Fuel.
  Proof.
    intros Z HP. induction ks as [|k ks IH]; intros base err HB; cbn [quad_kinds]; [discriminate|].
    pose proof (quad_rounds_nofuel lim k Z fuel base [] err HB HP) as K.
    destruct (quad_rounds Sh T C op fuel lim k base [] err) as [[b1 e1]|e|] eqn:E; cbn [bind]; [|discriminate|congruence].
    destruct (quad_rounds_ok _ _ fuel _ _ _ _ _ _ E) as (_ & S1). specialize (S1 Z). apply IH. apply S1; auto. intros b [].
  Qed.

  (** * Whole solids *)
  Lemma component_ok fuel lim N solids l e : split_component Sh T C op fuel lim solids = Ok (l, e) ->
    kept solids l /\ (SZ -> (forall b, In b solids -> (size b < N)%nat) -> forall p, In p l -> (size p < N)%nat).
  Proof.
    intros H. unfold split_component, split_planes in H.
    apply bind_ok in H. destruct H as ([s0 e0] & R0 & H). apply bind_ok in H. destruct H as ([s1 e1] & R1 & H).
    apply bind_ok in H. destruct H as ([s2 e2] & R2 & H). cbv zeta in H.
    destruct (Qeq_bool (sum_vol Sh T C solids) 0); [discriminate|]. injection H as <- _.
    pose proof (rounds_ok _ (proj1 (pp_good lim)) _ _ _ _ _ _ R0) as K0.
    destruct (quad_kinds_ok _ N _ _ _ _ _ _ R1) as (K1 & S1).
    pose proof (rounds_ok _ (proj1 (sp_good lim)) _ _ _ _ _ _ R2) as K2. cbn [app] in *. split.
    - eapply kept_trans; [exact K0|]. eapply kept_trans; [exact K1|]. eapply kept_trans; [exact K2|].
      apply kept_filter. compute. discriminate.
    - intros Z HB p I. apply filter_In in I. destruct I as (I & _).
      eapply (rounds_size _ N Z (proj1 (proj2 (sp_good lim)))); [exact R2| |intros ? []|exact I].
      apply S1; auto. intros b J. eapply (rounds_size _ N Z (proj1 (proj2 (pp_good lim)))); [exact R0|auto|intros ? []|exact J].
  Qed.
  Lemma component_nofuel fuel lim solids : SZ -> (forall b, In b solids -> (size b < fuel)%nat) -> (0 < fuel)%nat ->
    split_component Sh T C op fuel lim solids <> Fuel.
  Proof.
    intros Z HB HP. unfold split_component, split_planes.
    pose proof (rounds_nofuel _ Z (proj1 (proj2 (pp_good lim))) (proj2 (proj2 (pp_good lim))) fuel solids [] 0 HB HP) as N0.
    destruct (rounds Sh fuel (split_p_planes Sh T C op lim) solids [] 0) as [[s0 e0]|e|] eqn:R0; cbn [bind]; [|discriminate|congruence].
    assert (B0 : forall b, In b s0 -> (size b < fuel)%nat).
    { intros b J. eapply (rounds_size _ fuel Z (proj1 (proj2 (pp_good lim)))); [exact R0|auto|intros ? []|exact J]. }
    pose proof (quad_kinds_nofuel lim fuel Z HP [KCyl; KCone; KSph; KTor] s0 0 B0) as N1.
    destruct (quad_kinds Sh T C op fuel lim [KCyl; KCone; KSph; KTor] s0 0) as [[s1 e1]|e|] eqn:R1; cbn [bind]; [|discriminate|congruence].
    destruct (quad_kinds_ok _ fuel _ _ _ _ _ _ R1) as (_ & B1). specialize (B1 Z B0).
    pose proof (rounds_nofuel _ Z (proj1 (proj2 (sp_good lim))) (proj2 (proj2 (sp_good lim))) fuel s1 [] 0 B1 HP) as N2.
    destruct (rounds Sh fuel (split_2nd_o_plane Sh T C op lim) s1 [] 0) as [[s2 e2]|e|] eqn:R2; cbn [bind]; [|discriminate|congruence].
    cbv zeta. destruct (Qeq_bool (sum_vol Sh T C solids) 0); discriminate.
  Qed.
  Lemma solid_loop_ok fuel lim : forall solids parts err l e, solid_loop Sh T C op fuel lim solids parts err = Ok (l, e) ->
    kept (parts ++ solids) l.
  Proof.
    induction solids as [|s r IH]; intros parts err l e H; cbn [solid_loop] in H.
    - destruct err; [|discriminate]. injection H as <- <-. rewrite app_nil_r. apply kept_same, same_refl.
    - apply bind_ok in H. destruct H as ([ex e0] & R0 & H). apply bind_ok in H. destruct H as ([pc e1] & R1 & H).
      pose proof (rounds_ok _ (proj1 (fc_good lim)) _ _ _ _ _ _ R0) as K0. cbn [app] in K0.
      destruct (component_ok _ _ O _ _ _ R1) as (K1 & _).
      eapply kept_trans; [|eapply IH; eauto]. rewrite <- app_assoc. apply kept_app; [apply kept_same, same_refl|].
      change (s :: r) with ([s] ++ r). apply kept_app; [eapply kept_trans; eauto|apply kept_same, same_refl].
  Qed.
  Lemma solid_loop_nofuel fuel lim : SZ -> (0 < fuel)%nat -> forall solids parts err, (forall b, In b solids -> (size b < fuel)%nat) ->
    solid_loop Sh T C op fuel lim solids parts err <> Fuel.
  Proof.
    intros Z HP. induction solids as [|s r IH]; intros parts err HB; cbn [solid_loop]; [destruct err; discriminate|].
    assert (HS : forall b, In b [s] -> (size b < fuel)%nat) by (intros b [<-|[]]; apply HB; left; auto).
    pose proof (rounds_nofuel _ Z (proj1 (proj2 (fc_good lim))) (proj2 (proj2 (fc_good lim))) fuel [s] [] 0 HS HP) as N0.
    destruct (rounds Sh fuel (cut_full_cylinder Sh T C op lim) [s] [] 0) as [[ex e0]|e|] eqn:R0; cbn [bind]; [|discriminate|congruence].
    assert (B0 : forall b, In b ex -> (size b < fuel)%nat).
    { intros b J. eapply (rounds_size _ fuel Z (proj1 (proj2 (fc_good lim)))); [exact R0|auto|intros ? []|exact J]. }
    pose proof (component_nofuel fuel lim ex Z B0 HP) as N1.
    destruct (split_component Sh T C op fuel lim ex) as [[pc e1]|e|] eqn:R1; cbn [bind]; [|discriminate|congruence].
    apply IH. intros b I. apply HB. right. auto.
  Qed.
End Proofs.
