(** Invariants of the surface dictionary. *)
From Verif Require Import Prelude SurfDict.
From Coq Require Import Sorted.

Section Proofs.
  Variable S : Type.
  Variable cls : S -> key.
  Variable same : S -> S -> bool.
  Notation sdict := (sdict S).

  Lemma key_eqb_spec a b : reflect (a = b) (key_eqb a b).
  Proof. destruct a, b; constructor; congruence. Qed.
  Lemma key_in k : In k all_keys.
  Proof. destruct k; simpl; auto 10. Qed.

  (** All indices in (lo, hi], each in one place, groups in ascending order. *)
  Record Inv (lo hi : Z) (d : sdict) : Prop := {
    inv_ids : forall k, ids d k = map index (group d k);
    inv_sorted : forall k, StronglySorted Z.lt (ids d k);
    inv_range : forall k i, In i (ids d k) -> lo < i <= hi;
    inv_uniq : forall k k' i, In i (ids d k) -> In i (ids d k') -> k = k' }.
  Definition complete (lo hi : Z) (d : sdict) : Prop :=
    forall i, lo < i <= hi -> exists k, In i (ids d k).
  Definition last_ok (d : sdict) : Prop :=
    match last d with None => True | Some (k, j) => group d k = [] \/ (j < length (group d k))%nat end.

  Lemma SSorted_nodup l : StronglySorted Z.lt l -> NoDup l.
  Proof.
    induction 1; constructor; auto. intros I. rewrite Forall_forall in H0. specialize (H0 _ I). lia.
  Qed.
  Lemma SSorted_snoc l x : StronglySorted Z.lt l -> (forall y, In y l -> y < x) -> StronglySorted Z.lt (l ++ [x]).
  Proof.
    induction 1; intros; simpl; repeat constructor; auto.
    - apply IHStronglySorted. intros; apply H1; simpl; auto.
    - apply Forall_app. split; auto. repeat constructor. apply H1; simpl; auto.
  Qed.

  Lemma position_spec i l : match position i l with
    | Some j => nth_error l j = Some i
    | None => ~ In i l
    end.
  Proof.
    induction l as [|x l IH]; simpl; auto.
    destruct (Z.eqb_spec x i); [subst; reflexivity|].
    destruct (position i l); simpl; auto. intuition.
  Qed.

  Lemma index_in (d : sdict) lo hi k s : Inv lo hi d -> In s (group d k) -> In (index s) (ids d k).
  Proof. intros I H. rewrite (inv_ids _ _ _ I). apply in_map; auto. Qed.
  Lemma surf_uniq (d : sdict) lo hi k k' s s' : Inv lo hi d -> In s (group d k) -> In s' (group d k') ->
    index s = index s' -> k = k' /\ s = s'.
  Proof.
    intros I H H' E.
    assert (k = k').
    { eapply inv_uniq; eauto; [eapply index_in; eauto|]. rewrite E. eapply index_in; eauto. }
    subst k'. split; auto.
    pose proof (SSorted_nodup _ (inv_sorted _ _ _ I k)) as ND. rewrite (inv_ids _ _ _ I) in ND.
    clear I. revert H H' ND. generalize (group d k). induction l as [|x l IH]; simpl; [intuition|].
    intros [->|H] [->|H'] ND; auto.
    - inversion ND; subst. match goal with N : ~ In _ _ |- _ => exfalso; apply N end. rewrite E. apply in_map; auto.
    - inversion ND; subst. match goal with N : ~ In _ _ |- _ => exfalso; apply N end. rewrite <- E. apply in_map; auto.
    - inversion ND; subst; auto.
  Qed.

  Definition same_content (d d' : sdict) : Prop :=
    offset d = offset d' /\ group d = group d' /\ ids d = ids d' /\ number d = number d'.
  Lemma same_content_inv d d' lo hi : same_content d d' -> Inv lo hi d -> Inv lo hi d'.
  Proof. intros (_ & G & I & _) []. constructor; try rewrite <- G; try rewrite <- I; auto. Qed.

  Lemma search_spec lo hi i (d : sdict) ks : Inv lo hi d ->
    exists d' r, search ks i d = Ok (d', r) /\ same_content d d' /\
    match r with
    | Some s => index s = i /\ exists k j, last d' = Some (k, j) /\ nth_error (group d k) j = Some s
    | None => d' = d /\ forall k, In k ks -> ~ In i (ids d k)
    end.
  Proof.
    intros I. induction ks as [|k ks IH]; simpl.
    - do 2 eexists; repeat split; auto.
    - pose proof (position_spec i (ids d k)) as P. destruct (position i (ids d k)) as [j|].
      + rewrite (inv_ids _ _ _ I), nth_error_map in P.
        destruct (nth_error (group d k) j) as [s|] eqn:N; [|discriminate].
        injection P as E. do 2 eexists. split; [reflexivity|]. split; [repeat split|].
        split; auto. do 2 eexists. split; [reflexivity|auto].
      + destruct IH as (d' & r & E & SC & R). exists d', r. split; auto. split; auto.
        destruct r; auto. destruct R as (-> & R). split; auto. intros k' [->|H]; auto.
  Qed.

  (** get_surface is correct whenever it returns, and returns when the cache is valid. *)
  Lemma get_spec lo hi i (d : sdict) : Inv lo hi d ->
    match get_surface i d with
    | Ok (d', r) => same_content d d' /\
        match r with
        | Some s => index s = i /\ exists k j, last d' = Some (k, j) /\ nth_error (group d k) j = Some s
        | None => d' = d /\ forall k, ~ In i (ids d k)
        end
    | Err e => e = IndexError /\ ~ last_ok d
    | Fuel => False
    end.
  Proof.
    intros I. unfold get_surface.
    destruct (search_spec lo hi i d all_keys I) as (d' & r & E & SC & R).
    assert (SP : match search all_keys i d with
      | Ok (d', r) => same_content d d' /\
        match r with
        | Some s => index s = i /\ exists k j, last d' = Some (k, j) /\ nth_error (group d k) j = Some s
        | None => d' = d /\ forall k, ~ In i (ids d k)
        end
      | Err e => e = IndexError /\ ~ last_ok d
      | Fuel => False
      end).
    { rewrite E. split; auto. destruct r; auto. destruct R as (-> & R). split; auto. intros k. apply R, key_in. }
    destruct (last d) as [[k j]|] eqn:L; auto.
    destruct (group d k) as [|s0 l] eqn:G; auto.
    destruct (nth_error (s0 :: l) j) as [s|] eqn:N.
    - destruct (Z.eqb_spec (index s) i); auto. split; [repeat split|]. split; auto.
      exists k, j. rewrite G. auto.
    - split; auto. unfold last_ok. rewrite L, G. intros [H|H]; [discriminate|].
      apply nth_error_None in N. simpl in *. lia.
  Qed.

  Lemma get_ok lo hi i (d : sdict) : Inv lo hi d -> last_ok d -> exists d' r,
    get_surface i d = Ok (d', r) /\ same_content d d' /\ last_ok d' /\
    (forall s, r = Some s <-> exists k, In s (group d k) /\ index s = i).
  Proof.
    intros I L. pose proof (get_spec lo hi i d I) as G.
    destruct (get_surface i d) as [[d' r]|e|]; [|destruct G; contradiction|contradiction].
    exists d', r. split; auto. destruct G as (SC & G). split; auto.
    destruct SC as (O & GR & ID & NB). destruct r as [s|].
    - destruct G as (E & k & j & LA & N). split.
      { unfold last_ok. rewrite LA, <- GR. right. apply nth_error_Some. congruence. }
      intros s'. split.
      + intros [= <-]. exists k. split; auto. eapply nth_error_In; eauto.
      + intros (k' & H & E'). f_equal. eapply (surf_uniq d lo hi k k'); eauto; [eapply nth_error_In; eauto|congruence].
    - destruct G as (-> & G). split; auto. intros s. split; [discriminate|].
      intros (k & H & E). exfalso. apply (G k). rewrite <- E. eapply index_in; eauto.
  Qed.

  (** add *)
  Lemma find_same_spec s l i0 : match find_same S same s i0 l with
    | Some (i, ix) => exists l1 t l2, l = l1 ++ t :: l2 /\ index t = ix /\ same s (geo t) = true /\
                        (forall u, In u l1 -> same s (geo u) = false) /\ i = (i0 + length l1)%nat
    | None => forall u, In u l -> same s (geo u) = false
    end.
  Proof.
    revert i0. induction l as [|t l IH]; intros i0; simpl; [intuition|].
    destruct (same s (geo t)) eqn:E.
    - exists [], t, l. simpl. repeat split; auto. intuition.
    - specialize (IH (Datatypes.S i0)). destruct (find_same S same s (Datatypes.S i0) l) as [[i ix]|].
      + destruct IH as (l1 & u & l2 & -> & A & B & C & D). exists (t :: l1), u, l2. simpl.
        repeat split; auto; [|lia]. intros w [->|H]; auto.
      + intros u [->|H]; auto.
  Qed.

  Lemma upd_same {A} (f : key -> A) k a : upd f k a k = a.
  Proof. unfold upd. destruct (key_eqb_spec k k); congruence. Qed.
  Lemma upd_other {A} (f : key -> A) k a x : x <> k -> upd f k a x = f x.
  Proof. unfold upd. destruct (key_eqb_spec x k); congruence. Qed.

  Lemma add_inv lo s (d : sdict) : Inv lo (offset d + number d) d -> lo <= offset d -> 0 <= number d ->
    let d' := fst (add S cls same s d) in
    Inv lo (offset d' + number d') d' /\ offset d' = offset d /\ 0 <= number d' /\
    (last_ok d -> last_ok d') /\
    (complete lo (offset d + number d) d -> complete lo (offset d' + number d') d').
  Proof.
    intros I LO NN. cbv zeta. unfold add. set (k := cls s).
    pose proof (find_same_spec s (group d k) 0) as F.
    destruct (find_same S same s 0 (group d k)) as [[i ix]|]; cbn [fst].
    - cbn [offset number]. split; [destruct I; constructor; auto|]. repeat split; auto.
      intros _. unfold last_ok. cbn [last group]. right.
      destruct F as (l1 & t & l2 & -> & _ & _ & _ & ->). rewrite app_length. simpl. lia.
    - cbn [offset number]. split; [|split; [auto|split; [lia|split]]].
      + constructor; cbn [ids group].
        * intros k'. destruct (key_eqb_spec k' k) as [->|N].
          { rewrite !upd_same, map_app, (inv_ids _ _ _ I). reflexivity. }
          { rewrite !upd_other; auto. apply I. }
        * intros k'. destruct (key_eqb_spec k' k) as [->|N].
          { rewrite upd_same. apply SSorted_snoc; [apply I|]. intros y Hy. apply (inv_range _ _ _ I) in Hy. lia. }
          { rewrite upd_other; auto. apply I. }
        * intros k' j. destruct (key_eqb_spec k' k) as [->|N].
          { rewrite upd_same, in_app_iff. intros [H|[<-|[]]]; [apply (inv_range _ _ _ I) in H|]; lia. }
          { rewrite upd_other; auto. intros H. apply (inv_range _ _ _ I) in H. lia. }
        * intros k1 k2 j. destruct (key_eqb_spec k1 k) as [->|N1], (key_eqb_spec k2 k) as [->|N2]; auto.
          { rewrite upd_same, upd_other, in_app_iff; auto. intros [H|[<-|[]]] H2; [eapply inv_uniq; eauto|].
            apply (inv_range _ _ _ I) in H2. lia. }
          { rewrite upd_same, upd_other, in_app_iff; auto. intros H2 [H|[<-|[]]]; [eapply inv_uniq; eauto|].
            apply (inv_range _ _ _ I) in H2. lia. }
          { rewrite !upd_other; auto. eapply inv_uniq; eauto. }
      + intros _. unfold last_ok. cbn [last group]. right. rewrite upd_same, app_length. simpl. lia.
      + intros C i Hi. destruct (Z.eq_dec i (offset d + number d + 1)) as [->|N].
        * exists k. cbn [ids]. rewrite upd_same, in_app_iff. right. left. lia.
        * destruct (C i) as (k' & H); [lia|]. exists k'. cbn [ids].
          destruct (key_eqb_spec k' k) as [->|N']; [rewrite upd_same, in_app_iff; auto|rewrite upd_other; auto].
  Qed.

  (** deletion *)
  Lemma remove1_at (l : list (surf S)) i j s : NoDup (map index l) -> nth_error l j = Some s -> index s = i ->
    remove1 i (map index l) = Some (map index (remove_at j l)).
  Proof.
    revert j. induction l as [|x l IH]; intros j ND N E; [destruct j; discriminate|].
    destruct j as [|j]; simpl in *.
    - injection N as ->. rewrite E, Z.eqb_refl. reflexivity.
    - inversion ND; subst. destruct (Z.eqb_spec (index x) (index s)) as [E|NE].
      + match goal with N : ~ In _ _ |- _ => exfalso; apply N end. rewrite E. apply in_map. eapply nth_error_In; eauto.
      + rewrite (IH j); auto.
  Qed.
  Lemma remove_at_in {A} j (l : list A) x : In x (remove_at j l) -> In x l.
  Proof.
    revert j. induction l as [|y l IH]; intros [|j]; simpl; auto.
    intros [->|H]; auto. right; eapply IH; eauto.
  Qed.
  Lemma remove_at_sorted j l : StronglySorted Z.lt l -> StronglySorted Z.lt (remove_at j l).
  Proof.
    intros H. revert j. induction H; intros [|j]; simpl; auto; try constructor; auto.
    rewrite Forall_forall in *. intros y Hy. apply H0. eapply remove_at_in; eauto.
  Qed.
  Lemma map_remove_at {A B} (f : A -> B) j l : map f (remove_at j l) = remove_at j (map f l).
  Proof. revert j. induction l; intros [|j]; simpl; auto. rewrite IHl. reflexivity. Qed.
  Lemma remove1_in i l l' : remove1 i l = Some l' -> In i l.
  Proof.
    revert l'. induction l as [|x l IH]; simpl; [discriminate|]. intros l'.
    destruct (Z.eqb_spec x i); auto. destruct (remove1 i l) eqn:E; [|discriminate]. intros _. right. eapply IH; eauto.
  Qed.

  Lemma del_spec lo hi i (d d' : sdict) : Inv lo hi d -> del_surface i d = Ok d' ->
    Inv lo hi d' /\ offset d' = offset d /\ number d' = number d /\
    exists k j s, nth_error (group d k) j = Some s /\ index s = i /\ last d' = Some (k, j) /\
      group d' = upd (group d) k (remove_at j (group d k)).
  Proof.
    intros I H. unfold del_surface in H. pose proof (get_spec lo hi i d I) as G.
    destruct (get_surface i d) as [[d1 r]|e|]; cbn [bind] in H; try discriminate.
    destruct G as ((O & GR & ID & NB) & G).
    destruct (last d1) as [[k j]|] eqn:L; [|discriminate].
    destruct (remove1 i (ids d1 k)) as [l|] eqn:R; [|discriminate].
    destruct (Nat.ltb_spec j (length (group d1 k))); [|discriminate]. injection H as <-.
    destruct r as [s|].
    - destruct G as (E & k' & j' & L' & N). injection L' as <- <-.
      assert (EQ : l = remove_at j (ids d k)).
      { rewrite <- ID, (inv_ids _ _ _ I) in R. rewrite (remove1_at (group d k) i j s) in R; auto.
        - injection R as <-. rewrite map_remove_at. rewrite (inv_ids _ _ _ I). reflexivity.
        - rewrite <- (inv_ids _ _ _ I). apply SSorted_nodup, I. }
      subst l. cbn [offset number last group ids]. rewrite <- GR, <- ID. split.
      + constructor; cbn [ids group].
        * intros k'. destruct (key_eqb_spec k' k) as [->|NE]; [rewrite !upd_same|rewrite !upd_other; auto; apply I].
          rewrite map_remove_at, (inv_ids _ _ _ I). reflexivity.
        * intros k'. destruct (key_eqb_spec k' k) as [->|NE]; [rewrite !upd_same|rewrite !upd_other; auto; apply I].
          apply remove_at_sorted, I.
        * intros k' x. destruct (key_eqb_spec k' k) as [->|NE]; [rewrite !upd_same|rewrite !upd_other; auto; apply I].
          intros Hx. apply remove_at_in in Hx. eapply inv_range; eauto.
        * assert (SB : forall k' x, In x (upd (ids d) k (remove_at j (ids d k)) k') -> In x (ids d k')).
          { intros k' x. destruct (key_eqb_spec k' k) as [->|NE]; [rewrite !upd_same|rewrite !upd_other; auto].
            apply remove_at_in. }
          intros k1 k2 x H1 H2. eapply inv_uniq; eauto.
      + repeat split; auto. exists k, j, s. auto.
    - destruct G as (-> & G). exfalso. apply (G k). eapply remove1_in; eauto.
  Qed.

  (** sorting *)
  Fixpoint zseq (a : Z) (n : nat) : list Z :=
    match n with O => [] | Datatypes.S n => a :: zseq (a + 1) n end.

  Lemma sort_loop_spec : forall n i (d : sdict),
    Inv (i - 1) (i - 1 + Z.of_nat n) d -> complete (i - 1) (i - 1 + Z.of_nat n) d -> last_ok d ->
    exists l, sort_loop n i d = Ok l /\ map index l = zseq i n /\
      (forall s, In s l <-> exists k, In s (group d k)).
  Proof.
    induction n as [|n IH]; intros i d I C L.
    - exists []. split; auto. split; auto. intros s. split; [intros []|]. intros (k & H).
      apply (index_in d (i - 1) (i - 1 + Z.of_nat 0)) in H; auto. apply (inv_range _ _ _ I) in H. lia.
    - cbn [sort_loop]. destruct (get_ok _ _ i d I L) as (d1 & r & E & SC & L1 & R). rewrite E. cbn [bind].
      destruct (C i) as (k & Hi); [lia|]. rewrite (inv_ids _ _ _ I) in Hi. apply in_map_iff in Hi.
      destruct Hi as (s & Es & Hs). assert (r = Some s) as -> by (apply R; eauto).
      pose proof (same_content_inv _ _ _ _ SC I) as I1. destruct SC as (O & GR & ID & NB).
      pose proof (get_spec _ _ i d1 I1) as G1.
      destruct (get_surface i d1) as [[d2 r2]|e|] eqn:E2; [|destruct G1; contradiction|contradiction].
      assert (DEL : exists d3, del_surface i d1 = Ok d3).
      { unfold del_surface. rewrite E2. cbn [bind]. destruct G1 as ((O2 & GR2 & ID2 & NB2) & G1).
        destruct r2 as [s2|].
        - destruct G1 as (E3 & k2 & j2 & LA & N). rewrite LA.
          rewrite <- ID2, (inv_ids _ _ _ I1). rewrite (remove1_at _ i j2 s2); auto.
          + rewrite <- GR2. destruct (Nat.ltb_spec j2 (length (group d1 k2))); eauto.
            exfalso. apply nth_error_None in H. congruence.
          + rewrite <- (inv_ids _ _ _ I1). apply SSorted_nodup, I1.
        - destruct G1 as (_ & G1). exfalso. apply (G1 k). rewrite (inv_ids _ _ _ I1), <- GR. rewrite <- Es. apply in_map; auto. }
      destruct DEL as (d3 & DEL). rewrite DEL. cbn [bind].
      destruct (del_spec _ _ _ _ _ I1 DEL) as (I3 & O3 & NB3 & k3 & j3 & s3 & N3 & E3 & L3 & G3).
      assert (k3 = k /\ s3 = s) as [-> ->].
      { apply (surf_uniq d1 _ _ k3 k s3 s I1); [eapply nth_error_In; eauto|rewrite <- GR; auto|congruence]. }
      (* i is the smallest index: it is at the head of its group *)
      assert (j3 = 0%nat) as ->.
      { pose proof (inv_sorted _ _ _ I1 k) as SS. rewrite (inv_ids _ _ _ I1) in SS.
        destruct (group d1 k) as [|a l] eqn:GK; [destruct j3; discriminate|].
        destruct j3; auto. simpl in N3, SS. exfalso.
        assert (In (index a) (ids d1 k)) as Ha by (rewrite (inv_ids _ _ _ I1), GK; simpl; auto).
        apply (inv_range _ _ _ I1) in Ha. inversion SS; subst. rewrite Forall_forall in H2.
        assert (index a < index s); [|lia]. apply H2. apply in_map. eapply nth_error_In; eauto. }
      destruct (group d1 k) as [|a l] eqn:GK; [discriminate|]. simpl in N3. injection N3 as ->.
      cbn [remove_at] in G3.
      assert (IDS3 : forall k', ids d3 k' = if key_eqb k' k then map index l else ids d1 k').
      { intros k'. rewrite (inv_ids _ _ _ I3), G3. unfold upd. destruct (key_eqb k' k); auto. rewrite (inv_ids _ _ _ I1). auto. }
      destruct (IH (i + 1) d3) as (l' & SL & ML & IL).
      + constructor; try apply I3. intros k' x Hx.
        pose proof (inv_range _ _ _ I3 k' x Hx) as B.
        assert (x <> i); [|lia]. intros ->. rewrite IDS3 in Hx.
        destruct (key_eqb_spec k' k) as [->|NE].
        * pose proof (SSorted_nodup _ (inv_sorted _ _ _ I1 k)) as ND. rewrite (inv_ids _ _ _ I1), GK in ND.
          simpl in ND. inversion ND; subst. auto.
        * apply NE. eapply (inv_uniq _ _ _ I1); eauto. rewrite (inv_ids _ _ _ I1), GK. simpl. auto.
      + intros x Hx. destruct (C x) as (k' & Hk'); [lia|]. exists k'. rewrite IDS3.
        rewrite ID in Hk'. destruct (key_eqb_spec k' k) as [->|NE]; auto.
        rewrite (inv_ids _ _ _ I1), GK in Hk'. simpl in Hk'. destruct Hk'; auto. lia.
      + unfold last_ok. rewrite L3, G3, upd_same. destruct l; auto. right. simpl. lia.
      + rewrite SL. cbn [bind]. exists (s :: l'). split; auto. split; [simpl; rewrite ML, Es; auto|].
        intros u. simpl. rewrite IL, G3. split.
        * intros [->|(k' & H)]; [exists k; auto|]. exists k'. rewrite GR.
          destruct (key_eqb_spec k' k) as [->|NE]; [rewrite upd_same in H; rewrite GK; simpl; auto|rewrite upd_other in H; auto].
        * intros (k' & H). rewrite GR in H. destruct (key_eqb_spec k' k) as [->|NE].
          { rewrite GK in H. destruct H as [->|H]; auto. right. exists k. rewrite upd_same. auto. }
          { right. exists k'. rewrite upd_other; auto. }
  Qed.

  (** histories *)
  Definition no_del (h : list (op S)) : Prop := forall i, ~ In (Del i) h.
  Definition Good (o : Z) (d : sdict) : Prop :=
    offset d = o /\ 0 <= number d /\ Inv o (o + number d) d.

  Lemma empty_good o : Good o (empty o) /\ complete o (o + number (empty (S := S) o)) (empty o) /\ last_ok (empty o).
  Proof.
    split; [|split].
    - split; [reflexivity|]. split; [simpl; lia|]. constructor; simpl; intros; try contradiction; auto. constructor.
    - intros i Hi. simpl in Hi. lia.
    - exact Logic.I.
  Qed.

  Lemma run_good o : forall h d d', Good o d -> run S cls same h d = Ok d' -> Good o d'.
  Proof.
    induction h as [|x h IH]; intros d d' G H; simpl in H; [congruence|].
    inv_bind. apply (IH a); auto. clear IH H. destruct G as (O & NN & I). destruct x as [s|i|i]; simpl in Ha.
    - injection Ha as <-. pose proof (add_inv o s d) as A. rewrite O in A. cbv zeta in A.
      destruct A as (A1 & A2 & A3 & _); auto; try lia. rewrite A2 in A1. split; [congruence|]. auto.
    - inv_bind. destruct a0 as [d1 r]. injection Ha as <-.
      pose proof (get_spec _ _ i d I) as G. rewrite Ha0 in G. destruct G as (SC & _).
      pose proof (same_content_inv _ _ _ _ SC I). destruct SC as (A & _ & _ & B). unfold Good. rewrite <- A, <- B, O. auto.
    - destruct (del_spec _ _ _ _ _ I Ha) as (I' & A & B & _). unfold Good. rewrite A, B. auto.
  Qed.

  Lemma run_total o : forall h d, no_del h -> Good o d -> complete o (o + number d) d -> last_ok d ->
    exists d', run S cls same h d = Ok d' /\ Good o d' /\ complete o (o + number d') d' /\ last_ok d'.
  Proof.
    induction h as [|x h IH]; intros d ND G C L; simpl; [eauto|].
    assert (ND' : no_del h) by (intros i Hi; apply (ND i); right; auto).
    destruct G as (O & NN & I). destruct x as [s|i|i]; simpl.
    - pose proof (add_inv o s d) as A. rewrite O in A. cbv zeta in A.
      destruct A as (A1 & A2 & A3 & A4 & A5); auto; try lia. rewrite A2 in A1, A5.
      apply IH; auto. split; auto.
    - destruct (get_ok _ _ i d I L) as (d1 & r & E & SC & L1 & _). rewrite E. cbn [bind].
      pose proof (same_content_inv _ _ _ _ SC I) as I1. destruct SC as (A & B & D & E'). apply IH; auto.
      + unfold Good. rewrite <- A, <- E', O. auto.
      + rewrite <- E'. intros j Hj. rewrite <- D. apply C; auto.
    - exfalso. apply (ND i). left; auto.
  Qed.

  (** registered surfaces are pairwise different for the test *)
  Definition distinct (d : sdict) : Prop :=
    forall k l1 s l2 t l3, group d k = l1 ++ s :: l2 ++ t :: l3 -> same (geo t) (geo s) = false.
  Lemma add_cls s (d : sdict) : let d' := fst (add S cls same s d) in
    distinct d -> distinct d'.
  Proof.
    cbv zeta. unfold add. intros D. pose proof (find_same_spec s (group d (cls s)) 0) as F.
    destruct (find_same S same s 0 (group d (cls s))) as [[i ix]|]; cbn [fst]; auto.
    intros k l1 a l2 b l3. cbn [group]. destruct (key_eqb_spec k (cls s)) as [->|NE];
      [rewrite upd_same|rewrite upd_other by auto; apply D].
    intros E. destruct l3 as [|c l3 _] using rev_ind.
    - assert (group d (cls s) = l1 ++ a :: l2 /\ Surf (number d + 1 + offset d) s = b) as [G <-].
      { replace (l1 ++ a :: l2 ++ [b]) with ((l1 ++ a :: l2) ++ [b]) in E by (rewrite <- app_assoc; reflexivity).
        apply app_inj_tail in E. auto. }
      apply F. rewrite G. apply in_or_app. right; left; auto.
    - apply (D (cls s) l1 a l2 b l3).
      replace (l1 ++ a :: l2 ++ b :: l3 ++ [c]) with ((l1 ++ a :: l2 ++ b :: l3) ++ [c]) in E
        by (rewrite <- !app_assoc; simpl; rewrite <- !app_assoc; reflexivity).
      apply app_inj_tail in E. apply E.
  Qed.
  Lemma run_distinct : forall h d d', no_del h -> distinct d -> run S cls same h d = Ok d' -> distinct d'.
  Proof.
    induction h as [|x h IH]; intros d d' ND D H; simpl in H; [injection H as <-; auto|].
    assert (ND' : no_del h) by (intros i Hi; apply (ND i); right; auto).
    inv_bind. apply (IH a); auto. destruct x as [s|i|i]; simpl in Ha.
    - injection Ha as <-. apply add_cls; auto.
    - inv_bind. destruct a0 as [d1 r]. injection Ha as <-.
      assert (G : group d1 = group d); [|unfold distinct; rewrite G; auto].
      unfold get_surface in Ha0.
      assert (SG : forall ks q, search ks i d = Ok q -> group (fst q) = group d).
      { induction ks as [|k ks IHk]; simpl; intros q E; [injection E as <-; auto|].
        destruct (position i (ids d k)); auto. destruct (nth_error (group d k) n); [|discriminate].
        injection E as <-. reflexivity. }
      destruct (last d) as [[k j]|]; [|apply SG in Ha0; auto].
      destruct (group d k) as [|s0 l] eqn:GK; [apply SG in Ha0; auto|].
      destruct (nth_error (s0 :: l) j); [|discriminate].
      destruct (index s =? i); [injection Ha0 as <- <-; auto|apply SG in Ha0; auto].
    - exfalso. apply (ND i). left; auto.
  Qed.
End Proofs.
