(** Proofs about Build.v: grouping, joining of pieces, and the recursion (BuildDepth). *)
From Verif Require Import Prelude BoolSpec BoolSeq BoolProofs BoolProofs2 BoolEditProofs RBool RBoolSpec RBoolProofs RBox RPlanes RPlaneQuad Build BuildSpec BuildProofs.
Open Scope Z_scope.

(** * grouping keeps the order of the other elements *)
Lemma remove_at_split {A} : forall j (l : list A) e, nth_error l j = Some e -> exists l1 l2, l = l1 ++ e :: l2 /\ remove_at j l = l1 ++ l2 /\ length l1 = j.
Proof.
  induction j as [|j IH]; intros [|y l] e H; cbn in H; try discriminate.
  - injection H as <-. exists [], l. auto.
  - destruct (IH l e H) as (l1 & l2 & -> & E & L). exists (y :: l1), l2. cbn. rewrite E, L. auto.
Qed.
Lemma remove_lit_split z : forall l j, nth_error l j = Some (Lit z) -> exists l1 l2, l = l1 ++ Lit z :: l2 /\ remove_lit z l = l1 ++ l2 /\ (length l1 <= j)%nat.
Proof.
  induction l as [|y l IH]; intros j H; [destruct j; discriminate|].
  assert (ST : y = Lit z \/ y <> Lit z) by (destruct y as [w| |]; [destruct (Z.eq_dec w z); [left; congruence|right; congruence]|right; discriminate|right; discriminate]).
  destruct ST as [->|NE].
  - exists [], l. cbn. rewrite Z.eqb_refl. repeat split; auto. lia.
  - destruct j as [|j]; [cbn in H; congruence|]. destruct (IH j H) as (l1 & l2 & E & F & L). exists (y :: l1), l2. cbn [app]. rewrite <- E, <- F.
    split; auto. split; [|cbn; lia]. destruct y as [w| |]; cbn; auto. destruct (Z.eqb_spec w z) as [->|]; [congruence|auto].
Qed.
Inductive sub {A} : list A -> list A -> Prop :=
| sub_refl l : sub l l
| sub_drop l l1 e l2 : l = l1 ++ e :: l2 -> forall m, sub m (l1 ++ l2) -> sub m l.
Lemma FOP_drop {A} (Q : A -> A -> Prop) l1 e l2 : ForallOrdPairs Q (l1 ++ e :: l2) -> ForallOrdPairs Q (l1 ++ l2).
Proof.
  induction l1 as [|y l1 IH]; cbn; intros H; inversion H; subst; auto. constructor; auto.
  rewrite Forall_forall in *. intros w Hw. apply H2. apply in_app_or in Hw. apply in_or_app. cbn. tauto.
Qed.
Lemma FOP_sub {A} (Q : A -> A -> Prop) l m : sub m l -> ForallOrdPairs Q l -> ForallOrdPairs Q m.
Proof. induction 1 as [|l l1 e l2 -> m HS IH]; auto. intros H. apply IH. eapply FOP_drop; eauto. Qed.
Lemma sub_In {A} (l m : list A) : sub m l -> forall e, In e m -> In e l.
Proof. induction 1 as [|l l1 e l2 -> m HS IH]; auto. intros w Hw. apply IH in Hw. apply in_app_or in Hw. apply in_or_app. cbn. tauto. Qed.

Lemma gs_loop_sub : forall i l g l' g', gs_loop i l g = Ok (l', g') -> (i <= length l)%nat ->
  (forall k e, (i <= k)%nat -> nth_error l k = Some e -> ~ single e) -> sub l' l /\ forall e, In e l' -> ~ single e.
Proof.
  assert (SH : forall l1 l2 (e : node) j, (length l1 <= j)%nat -> forall k f, (j <= k)%nat -> nth_error (l1 ++ l2) k = Some f -> nth_error (l1 ++ e :: l2) (S k) = Some f).
  { intros l1 l2 e j L k f K H. rewrite nth_error_app2 in * by lia. replace (S k - length l1)%nat with (S (k - length l1)) by lia. exact H. }
  induction i as [|j IH]; intros l g l' g' H L HN; cbn [gs_loop] in H.
  - injection H as <- <-. split; [constructor|]. intros e HE. apply In_nth_error in HE as (k & E). eapply HN; [|exact E]. lia.
  - destruct (nth_error l j) as [e|] eqn:E; [|apply nth_error_None in E; lia].
    assert (KEEP : ~ single e -> forall g0, gs_loop j l g0 = Ok (l', g') -> sub l' l /\ forall e, In e l' -> ~ single e).
    { intros NS g0 H0. eapply IH; [exact H0|lia|]. intros k f K F. destruct (Nat.eq_dec k j) as [->|]; [congruence|]. eapply HN; [|exact F]. lia. }
    destruct e as [z|o lev b|o lev xs].
    + destruct (remove_lit_split z l j E) as (l1 & l2 & E1 & E2 & E3). rewrite E2 in H.
      destruct (IH _ _ _ _ H) as (A & B); [|intros k f K F; eapply (HN (S k)); [lia|rewrite E1; eapply SH; eauto]|].
      { rewrite app_length. rewrite E1, app_length in L. cbn [length] in L. lia. }
      split; auto. eapply sub_drop; eauto.
    + destruct (lev =? 0); [discriminate|]. apply (KEEP (fun X => X) _ H).
    + destruct xs as [|y [|w xs]]; [apply (KEEP (fun X => X) _ H)| |apply (KEEP (fun X => X) _ H)].
      destruct (Z.eqb_spec lev 0) as [->|NE]; [|apply (KEEP NE _ H)].
      destruct (remove_at_split j l _ E) as (l1 & l2 & E1 & E2 & E3). rewrite E2 in H.
      destruct (IH _ _ _ _ H) as (A & B); [|intros k f K F; eapply (HN (S k)); [lia|rewrite E1; eapply SH; [|exact K|exact F]; lia]|].
      { rewrite app_length. rewrite E1, app_length in L. cbn [length] in L. lia. }
      split; auto. eapply sub_drop; eauto.
Qed.

Lemma separate_seq op lev l : lev <> 0 -> separate (Seq op lev l) ->
  (op = AND -> ForallOrdPairs (fun e f => single f \/ apart (joined e) (surfs f)) l) /\ Forall separate l.
Proof. intros NE [E|(A & B)]; [congruence|]. split; auto. clear -B. induction l; cbn in B; constructor; tauto. Qed.

Lemma group_sep op lev l n : lev <> 0 -> group_single (Seq op lev l) = Ok n -> separate (Seq op lev l) ->
  exists l', n = Seq op lev l' /\ Forall separate l' /\
    (op = AND -> ForallOrdPairs (fun e f => apart (joined e) (surfs f)) l') /\ incl (joined n) (joined (Seq op lev l)).
Proof.
  intros NE H SP. apply separate_seq in SP as (A & B); auto. cbn [group_single] in H. destruct (Z.eqb_spec lev 0); [congruence|].
  inv_bind. destruct a as (l', g). destruct (gs_loop_sub _ _ _ _ _ Ha (le_n _)) as (S1 & S2).
  { intros k e K E. exfalso. assert (k < length l)%nat by (apply nth_error_Some; congruence). lia. }
  assert (F1 : Forall separate l') by (rewrite Forall_forall in *; intros e HE; apply B; eapply sub_In; eauto).
  assert (F2 : op = AND -> ForallOrdPairs (fun e f => apart (joined e) (surfs f)) l').
  { intros E. specialize (FOP_sub _ _ _ S1 (A E)) as F. clear -F S2. induction F as [|e m HF F IH]; constructor; [|apply IH; intros; apply S2; now right].
    rewrite Forall_forall in *. intros f Hf. destruct (HF f Hf) as [SG|]; auto. destruct (S2 f); auto. now right. }
  assert (GL : group_single (Seq op lev l) = Ok n) by (cbn [group_single]; destruct (Z.eqb_spec lev 0); [congruence|]; rewrite Ha; exact H).
  assert (JO : forall m, (m = l' \/ m = Seq op 0 g :: l') -> n = Seq op lev m -> incl (joined n) (joined (Seq op lev l))).
  { intros m HM -> z HZ. cbn [joined] in *. apply Z.eqb_neq in NE. rewrite NE in *. destruct op.
    - destruct HM as [->| ->]; cbn [flat_map] in HZ.
      + apply in_flat_map in HZ as (e & E1 & E2). apply in_flat_map. exists e. split; auto. eapply sub_In; eauto.
      + cbn in HZ. apply in_flat_map in HZ as (e & E1 & E2). apply in_flat_map. exists e. split; auto. eapply sub_In; eauto.
    - apply surfs_spec in HZ as (y & Y1 & Y2). apply surfs_spec. exists y. split; auto. eapply group_single_lits'; eauto. }
  destruct g as [|e g]; injection H as <-.
  - exists l'. split; auto. split; auto. split; auto. apply (JO l'); auto.
  - exists (Seq op 0 (e :: g) :: l'). split; auto. split; [constructor; auto; cbn; auto|]. split; [|eapply JO; auto].
    intros E. constructor; auto. apply Forall_forall. intros f _. cbn [joined]. destruct op; intros z [].
Qed.

(** * joining *)
Section Join.
  Variable C : cad.
  Variable R : reading C.
  Hypothesis G : good_cad C R.
  Variable x : pt R.
  Notation truth := (truth C R x).
  Definition true_list (J : list Z) (l : list (Z * option bool)) : Prop := forall k o, In (k, o) l -> ~ In k J -> o = Some (sd R x k).
  Lemma dset_inv {A} k (v : A) l q : In q (dset k v l) -> q = (k, v) \/ In q l.
  Proof. induction l as [|(k', v') l IH]; cbn; [intros [|[]]; auto|]. destruct (k' =? k); cbn; intros [|]; auto. destruct (IH H); auto. Qed.
  Lemma join_known_true J : forall known removed surf rm s, join_known removed surf known = (rm, s) ->
    true_list J known -> true_list J surf -> true_list J s.
  Proof.
    induction known as [|(k, v) known IH]; intros removed surf rm s H TK TS; cbn [join_known] in H; [injection H as <- <-; auto|].
    assert (TK' : true_list J known) by (intros k' o' HI; apply TK; now right).
    destruct (existsb (Z.eqb k) removed); [eapply IH; eauto|].
    destruct (dget k surf) as [w|] eqn:D.
    - destruct (match v, w with Some a, Some b => eqb a b | None, None => true | _, _ => false end) eqn:E; [eapply IH; eauto|].
      eapply IH; [exact H|auto|]. intros k' o' HI HJ. apply dset_inv in HI as [Q|HI]; [|auto]. injection Q as -> ->. exfalso.
      apply dget_In in D. rewrite (TS k w D HJ), (TK k v (or_introl eq_refl) HJ) in E. rewrite eqb_reflx in E. discriminate.
    - eapply IH; [exact H|auto|]. intros k' o' HI HJ. apply dset_inv in HI as [Q|HI]; [|auto]. injection Q as -> ->. apply TK; auto. now left.
  Qed.
  Lemma join_all_true J : forall l removed surf, (forall p, In p l -> truth J p) -> true_list J surf -> true_list J (join_all C removed surf l).
  Proof.
    induction l as [|b l IH]; intros removed surf HL HS; cbn [join_all]; auto.
    destruct (join_known removed surf (p_known b)) as (rm, s) eqn:E. apply IH; [intros; apply HL; now right|].
    eapply join_known_true; [exact E| |auto]. intros k o. apply HL. now left.
  Qed.
  Lemma fuse_all_mem l s : fuse_all C l = Some s -> forall y, mem R s y <-> exists t, In t l /\ mem R t y.
  Proof.
    destruct l as [|a [|b l]]; cbn; intros H y; [discriminate| |].
    - injection H as <-. split; [intros M; exists a; auto|intros (t & [<-|[]] & M); auto].
    - injection H as <-. apply (fuse_ok C R G).
  Qed.
  Lemma in_shapes l : (exists t, In t (map p_shape l) /\ mem R t x) <-> inp C R x l.
  Proof.
    split; [intros (t & HI & M); apply in_map_iff in HI as (p & <- & HI); exists p; auto|].
    intros (p & HI & M). exists (p_shape p). split; auto. apply in_map. auto.
  Qed.
  Lemma join_base_ok J l : (forall p, In p l -> truth J p) -> (forall p, In p (join_base C l) -> truth J p).
  Proof.
    intros HL p. unfold join_base. destruct (fuse_all C (map p_shape l)) as [s|]; [|intros []]. intros [<-|[]].
    intros k o. cbn [p_known]. apply join_all_true; auto. intros k' o' [].
  Qed.
  Lemma join_base_inp l : inp C R x (join_base C l) <-> inp C R x l.
  Proof.
    unfold join_base. destruct (fuse_all C (map p_shape l)) as [s|] eqn:E.
    - rewrite <- (in_shapes l), <- (fuse_all_mem _ _ E x). unfold inp, at_x. split; [intros (p & [<-|[]] & M); exact M|intros M; eexists; split; [now left|exact M]].
    - destruct l as [|a [|b l]]; cbn in E; try discriminate. tauto.
  Qed.
  Lemma join_base_calm loud l : calm C loud l -> calm C loud (join_base C l).
  Proof.
    intros HL p. unfold join_base. destruct (fuse_all C (map p_shape l)) as [s|]; [|intros []]. intros [<-|[]]. cbn [p_or].
    destruct (existsb (fun b => negb (same_side (p_or b) Fwd)) l) eqn:E; auto. apply existsb_exists in E as (p & HP & E). destruct (HL p HP) as [F|]; auto. rewrite F in E. discriminate.
  Qed.
End Join.
