(** The six planes of a box define the half open box, whatever surfaces are
    already registered. *)
From Coq Require Import QArith Lqa.
From Verif Require Import Prelude BoolSpec BoolSeq BoolProofs SurfDict SurfDictProofs VoidBoxes VoidBoxSpec VoidBoxProofs BoxDef BoxSpec.
Open Scope Z_scope.

Section BoxDefProofs.
  Variable T : Type.
  Variable sideT : T -> bool.
  Variable cls : surface T -> key.
  Variable same : surface T -> surface T -> bool.
  Variable o : Z.
  Hypothesis Ho : 0 <= o.
  Hypothesis Hsame : exact_planes T same.
  Variable p : place.
  Variable v : point.
  Notation Rel := (reachable T cls same o).
  Notation Ag := (agrees T sideT p v).
  Notation sd := (sdict (surface T)).

  Lemma run_app h1 h2 : forall d : sd, run _ cls same (h1 ++ h2) d =
    (do d' <- run _ cls same h1 d; run _ cls same h2 d').
  Proof.
    induction h1 as [|x h1 IH]; intros d; cbn [app run bind]; auto.
    destruct (step (surface T) cls same x d); cbn [bind]; auto.
  Qed.
  Lemma rel_dok d : Rel d -> Good _ o d /\ last_ok _ d.
  Proof.
    intros (h & ND & R). destruct (empty_good (surface T) o) as (G & C & L).
    destruct (run_total _ cls same o h _ ND G C L) as (d' & R' & A & B & C').
    assert (d' = d) as -> by congruence. auto.
  Qed.
  Lemma rel_step d d' x : Rel d -> (forall i, x <> Del i) -> step _ cls same x d = Ok d' -> Rel d'.
  Proof.
    intros (h & ND & R) NX S. exists (h ++ [x]). split.
    - intros i H. apply in_app_or in H. destruct H as [H|[H|[]]]; [eapply ND; eauto|eapply NX; eauto].
    - rewrite run_app, R. cbn [bind run]. rewrite S. reflexivity.
  Qed.
  Lemma rel_empty : Rel (empty o).
  Proof. exists []. split; auto. Qed.
  Lemma rel_add s d : Rel d -> Rel (fst (add _ cls same s d)).
  Proof. intros R. apply (rel_step d _ (Add s)); auto. discriminate. Qed.

  Lemma add_agrees s d : Ag (fst (add _ cls same s d)) -> Ag d.
  Proof.
    intros A k t H. apply A with (k := k). unfold add. destruct (find_same _ same s 0 (group d (cls s))) as [[i ix]|]; cbn [fst group]; auto.
    destruct (key_eqb_spec k (cls s)) as [->|NE]; [rewrite upd_same; apply in_or_app; auto|rewrite upd_other; auto].
  Qed.

  (** adding a surface: positive number, its side if new *)
  Lemma add_value s d : Rel d -> let '(d1, (id, found)) := add _ cls same s d in
    0 < id /\ exists t k, In t (group d1 k) /\ index t = id /\ (if found then same s (geo t) = true else geo t = s).
  Proof.
    intros R. pose proof (rel_add s d R) as R1. destruct (rel_dok _ R1) as ((_ & _ & I) & _).
    unfold add in *. pose proof (find_same_spec _ cls same s (group d (cls s)) 0) as F.
    destruct (find_same _ same s 0 (group d (cls s))) as [[i ix]|]; cbn [fst] in *.
    - destruct F as (l1 & t & l2 & A & B & C & _ & _). assert (IN : In t (group d (cls s))) by (rewrite A; apply in_or_app; simpl; auto).
      split; [|exists t, (cls s); auto].
      assert (In (index t) (ids d (cls s))) as X. { eapply (index_in _ (SD _ _ _ _ _)) in I; [exact I|exact IN]. }
      apply (inv_range _ _ _ _ I) in X. cbn in X. lia.
    - set (d1 := SD _ _ _ _ _) in *. set (t := Surf (number d + 1 + offset d) s).
      assert (IN : In t (group d1 (cls s))).
      { unfold d1. cbn [group]. rewrite upd_same. apply in_or_app. simpl. auto. }
      split; [|exists t, (cls s); auto]. pose proof (index_in _ _ _ _ _ _ I IN) as X.
      apply (inv_range _ _ _ _ I) in X. cbn in X. lia.
  Qed.

  Lemma get_rel d i : Rel d -> exists d' r, get_surface i d = Ok (d', r) /\ Rel d' /\ (Ag d' -> Ag d) /\
    forall s, r = Some s <-> exists k, In s (group d k) /\ index s = i.
  Proof.
    intros R. destruct (rel_dok _ R) as ((O & NN & I) & L).
    destruct (get_ok _ _ _ i d I L) as (d' & r & E & SC & L' & H). exists d', r. split; auto.
    split. { apply (rel_step d _ (Get i)); auto; [discriminate|]. cbn [step]. rewrite E. reflexivity. }
    split; auto. destruct SC as (_ & G & _). intros A k s. rewrite G. apply A.
  Qed.

  Lemma lit_neg z : z <> 0 -> lit_val v (- z) = negb (lit_val v z).
  Proof.
    intros. unfold lit_val. destruct (Z.ltb_spec z 0), (Z.ltb_spec (- z) 0); try lia;
      rewrite ?Z.opp_involutive, ?negb_involutive; reflexivity.
  Qed.
  Lemma lit_pos z : 0 < z -> lit_val v z = v z.
  Proof. intros. unfold lit_val. destruct (Z.ltb_spec z 0); [lia|auto]. Qed.

  Lemma plane_side_dir q q' : paxis q' = paxis q -> (pco q' == pco q)%Q ->
    plane_side p q' = if eqb (pdir q) (pdir q') then plane_side p q else negb (plane_side p q).
  Proof.
    intros A C. unfold plane_side. rewrite A.
    assert (L : Qle_bool (pco q') (p (paxis q)) = Qle_bool (pco q) (p (paxis q))).
    { apply Bool.eq_iff_eq_true. rewrite !Qle_bool_iff. split; intros; lra. }
    assert (L2 : Qltb (p (paxis q)) (pco q') = Qltb (p (paxis q)) (pco q)).
    { unfold Qltb. rewrite L. reflexivity. }
    rewrite L, L2. unfold Qltb. destruct (pdir q), (pdir q'); cbn [eqb]; rewrite ?negb_involutive; reflexivity.
  Qed.

  (** vb 172-176 *)
  Lemma lookup_spec q d : Rel d -> let '(d1, (id, found)) := add _ cls same (inl q) d in
    exists d2, Rel d2 /\
      (if found then exists s, get_surface id d1 = Ok (d2, Some s) /\ (Ag d2 -> lit_val v (if opposite T q (geo s) then - id else id) = plane_side p q)
       else d2 = d1 /\ (Ag d2 -> lit_val v id = plane_side p q)) /\
      id <> 0 /\ (Ag d2 -> Ag d).
  Proof.
    intros R. pose proof (rel_add (inl q) d R) as R1. pose proof (add_agrees (inl q) d) as AA.
    pose proof (add_value (inl q) d R) as V. destruct (add _ cls same (inl q) d) as [d1 [id found]]. cbn [fst] in *.
    destruct V as (P & t & k & IN & IX & V). destruct found.
    - destruct (get_rel d1 id R1) as (d2 & r & E & R2 & A2 & H). exists d2. split; auto.
      assert (r = Some t) as -> by (apply H; eauto). split; [|split; [lia|auto]].
      exists t. split; auto. intros A. destruct (Hsame _ _ V) as (q' & G & AX' & CO). rewrite G. cbn [opposite].
      pose proof (A2 A k t IN) as S. rewrite G, IX in S. cbn [side] in S.
      pose proof (plane_side_dir _ _ AX' CO) as D. destruct (eqb (pdir q) (pdir q')); cbn [negb].
      + rewrite lit_pos by auto. congruence.
      + rewrite lit_neg, lit_pos by lia. rewrite S, D, negb_involutive. reflexivity.
    - exists d1. split; auto. split; [|split; [lia|auto]]. split; auto. intros A.
      rewrite lit_pos by auto. rewrite <- IX, (A k t IN), V. reflexivity.
  Qed.

  Lemma box_literal_spec b q d : Rel d -> exists d' z, box_literal T cls same b q d = Ok (d', z) /\ Rel d' /\ z <> 0 /\
    (Ag d' -> Ag d /\ ((0 < len b (paxis q))%Q -> lit_val v z = plane_side p q)).
  Proof.
    intros R. unfold box_literal. pose proof (lookup_spec q d R) as L.
    destruct (add _ cls same (inl q) d) as [d1 [id found]]. destruct L as (d2 & R2 & L & NZ & A).
    assert (X : exists id2, (if found then do (d2, s) <- get_surface id d1;
         match s with None => Err AttributeError | Some s => Ok (d2, if opposite T q (geo s) then - id else id) end
       else Ok (d1, id)) = Ok (d2, id2) /\ id2 <> 0 /\ (Ag d2 -> lit_val v id2 = plane_side p q)).
    { destruct found.
      - destruct L as (s & E & L). rewrite E. cbn [bind]. eexists; split; [reflexivity|]. split; auto. destruct (opposite T q (geo s)); lia.
      - destruct L as (-> & L). eauto. }
    destruct X as (id2 & -> & NZ2 & L2). cbn [bind]. eexists _, _; split; [reflexivity|]. split; auto. split.
    - destruct (Qltb 0 (len b (paxis q))); lia.
    - intros A2. split; auto. intros P. apply Qltb_spec in P. rewrite P. auto.
  Qed.

  Lemma box_literals_spec b : (forall a, (0 < len b a)%Q) -> forall ps d, Rel d ->
    exists d' l, box_literals T cls same b ps d = Ok (d', l) /\ Rel d' /\ length l = length ps /\
      Forall (fun n => exists z, n = Lit z /\ z <> 0) l /\
      (Ag d' -> Ag d /\ forallb (eval v) l = forallb (plane_side p) ps).
  Proof.
    intros P. induction ps as [|q ps IH]; intros d R; cbn [box_literals].
    - exists d, []. repeat split; auto.
    - destruct (box_literal_spec b q d R) as (d1 & z & -> & R1 & NZ & A1). cbn [bind].
      destruct (IH d1 R1) as (d2 & l & -> & R2 & LL & F & A2). cbn [bind].
      exists d2, (Lit z :: l). split; auto. split; auto. split; [simpl; congruence|]. split; [constructor; eauto|].
      intros A. destruct (A2 A) as (A1' & E2). destruct (A1 A1') as (A0 & E1). split; auto. cbn [forallb eval].
      rewrite E1, E2; auto.
  Qed.

  Lemma bound_half b : forallb (plane_side p) (bound_planes b) = halfb b p.
  Proof.
    unfold bound_planes, halfb, plane_side. cbn [forallb pdir pco paxis axes]. rewrite !andb_true_r, <- !andb_assoc. reflexivity.
  Qed.
  Lemma wf_lits op l : Forall (fun n => exists z, n = Lit z /\ z <> 0) l -> wf (Seq op 0 l).
  Proof.
    intros F. apply wf_seq. split; [lia|]. split; [intros _|]; revert F; apply Forall_impl; intros n (z & -> & NZ); cbn; auto.
  Qed.

  (** boxDef *)
  Lemma box_def_spec b d : (forall a, (0 < len b a)%Q) -> Rel d -> exists d' l,
    box_def T cls same b d = Ok (d', Seq AND 0 l) /\ Rel d' /\ wf (Seq AND 0 l) /\ length l = 6%nat /\
    (Ag d' -> Ag d /\ eval v (Seq AND 0 l) = halfb b p).
  Proof.
    intros P R. unfold box_def. destruct (box_literals_spec b P (bound_planes b) d R) as (d' & l & -> & R' & LL & F & A).
    cbn [bind]. exists d', l. split; auto. split; auto. split; [apply wf_lits; auto|]. split; auto.
    intros A'. destruct (A A') as (A0 & E). split; auto. cbn [eval]. rewrite E. apply bound_half.
  Qed.

  (** complement of the universe *)
  Lemma compl_literal_spec q d : Rel d -> exists d' z, compl_literal T cls same q d = Ok (d', z) /\ Rel d' /\ z <> 0 /\
    (Ag d' -> Ag d /\ lit_val v z = negb (plane_side p q)).
  Proof.
    intros R. unfold compl_literal. pose proof (lookup_spec q d R) as L.
    destruct (add _ cls same (inl q) d) as [d1 [id found]]. destruct L as (d2 & R2 & L & NZ & A). destruct found.
    - destruct L as (s & E & L). rewrite E. cbn [bind]. eexists _, _; split; [reflexivity|]. split; auto. split; [destruct (opposite T q (geo s)); lia|].
      intros A2. split; auto. rewrite <- (L A2). destruct (opposite T q (geo s)); [rewrite lit_neg, negb_involutive; auto|apply lit_neg; auto].
    - destruct L as (-> & L). eexists _, _; split; [reflexivity|]. split; auto. split; [lia|]. intros A2. split; auto.
      rewrite lit_neg by auto. rewrite (L A2). reflexivity.
  Qed.
  Lemma compl_literals_spec : forall ps d, Rel d ->
    exists d' l, compl_literals T cls same ps d = Ok (d', l) /\ Rel d' /\
      Forall (fun n => exists z, n = Lit z /\ z <> 0) l /\
      (Ag d' -> Ag d /\ existsb (eval v) l = negb (forallb (plane_side p) ps)).
  Proof.
    induction ps as [|q ps IH]; intros d R; cbn [compl_literals].
    - exists d, []. repeat split; auto.
    - destruct (compl_literal_spec q d R) as (d1 & z & -> & R1 & NZ & A1). cbn [bind].
      destruct (IH d1 R1) as (d2 & l & -> & R2 & F & A2). cbn [bind].
      exists d2, (Lit z :: l). split; auto. split; auto. split; [constructor; eauto|].
      intros A. destruct (A2 A) as (A1' & E2). destruct (A1 A1') as (A0 & E1). split; auto. cbn [existsb forallb eval].
      rewrite E1, E2, negb_andb; auto.
  Qed.
  Lemma universe_compl_spec b d : Rel d -> exists d' l,
    universe_compl T cls same b d = Ok (d', Seq OR 0 l) /\ Rel d' /\ wf (Seq OR 0 l) /\
    (Ag d' -> Ag d /\ eval v (Seq OR 0 l) = negb (halfb b p)).
  Proof.
    intros R. unfold universe_compl. destruct (compl_literals_spec (bound_planes b) d R) as (d' & l & -> & R' & F & A).
    cbn [bind]. exists d', l. split; auto. split; auto. split; [apply wf_lits; auto|].
    intros A'. destruct (A A') as (A0 & E). split; auto. cbn [eval]. rewrite E, bound_half. reflexivity.
  Qed.

  Lemma box_in_sphere b : halfb b p = true -> in_sphere b p = true.
  Proof.
    intros H. unfold in_sphere. apply Qle_bool_iff. pose proof (proj1 (halfb_spec b p) H) as I. clear H.
    assert (S : forall a, (sq (p a - center b a) <= (1#4) * sq (len b a))%Q).
    { intros a. specialize (I a). unfold sq, center, len. nra. }
    assert (P : forall a, (0 <= sq (len b a))%Q) by (intros a; unfold sq; nra).
    unfold dist2, diag2. pose proof (S AX). pose proof (S AY). pose proof (S AZ).
    pose proof (P AX). pose proof (P AY). pose proof (P AZ). change (sq (51#100)) with (2601 # 10000)%Q. lra.
  Qed.

  (** the two outer cells *)
  Lemma graveyard_spec b sph d : Rel d ->
    (forall s, same (inr sph) s = true -> exists t, s = inr t /\ sideT t = sideT sph) ->
    sideT sph = negb (in_sphere b p) ->
    exists d' inn out, graveyard T cls same b sph d = Ok (d', (inn, out)) /\ Rel d' /\
      (Ag d' -> Ag d /\ eval v inn = in_sphere b p && negb (halfb b p) /\ eval v out = negb (in_sphere b p)).
  Proof.
    intros R HS HB. unfold graveyard. destruct (universe_compl_spec b d R) as (d1 & l & -> & R1 & W & A1). cbn [bind].
    pose proof (rel_add (inr sph) d1 R1) as R2. pose proof (add_agrees (inr sph) d1) as A2.
    pose proof (add_value (inr sph) d1 R1) as V. destruct (add _ cls same (inr sph) d1) as [d2 [id found]]. cbn [fst] in *.
    destruct V as (P & t & k & IN & IX & V). cbn [append append_loop bind].
    eexists _, _, _; split; [reflexivity|]. split; auto. intros A. destruct (A1 (A2 A)) as (A0 & E). split; auto.
    assert (LV : lit_val v id = negb (in_sphere b p)).
    { rewrite lit_pos by auto. rewrite <- IX, (A k t IN), <- HB. destruct found.
      - destruct (HS _ V) as (t' & -> & X). exact X.
      - rewrite V. reflexivity. }
    cbn [eval app forallb existsb] in *. rewrite lit_neg, LV, negb_involutive, !andb_true_r, E by lia. auto.
  Qed.
End BoxDefProofs.
