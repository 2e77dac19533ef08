(** Proofs about Build.v: cutting a shape with the surfaces of a list of surfaces (SplitSolid,
    BuildSolidParts). *)
From Verif Require Import Prelude BoolSpec BoolSeq BoolProofs BoolProofs2 BoolEditProofs RBool RBoolSpec RBoolProofs RBox RPlanes RPlaneQuad Build BuildSpec.
Open Scope Z_scope.

Lemma lit_val_abs v b z : z <> 0 -> v (Z.abs z) = b -> lit_val v z = (if z <? 0 then negb b else b).
Proof. intros Z0 <-. unfold lit_val. destruct (Z.ltb_spec z 0); [rewrite Z.abs_neq by lia|rewrite Z.abs_eq by lia]; reflexivity. Qed.

Lemma kleene_sound v vs n : wf n ->
  (forall z b, In z (surfs n) -> val_of vs z = Some b -> v z = b) ->
  forall b, kleene vs n = Some b -> eval v n = b.
Proof.
  intros W HV. assert (HV' : forall z b, In z (lits n) -> val_of vs (Z.abs z) = Some b -> v (Z.abs z) = b).
  { intros z b Hz. apply HV. apply surfs_spec. eauto. } clear HV.
  revert W HV'. induction n as [z|op lev c|op lev l IH] using node_ind'; intros W HV b H.
  - cbn in *. change (side vs (Z.abs z)) with (val_of vs (Z.abs z)) in H. destruct (val_of vs (Z.abs z)) as [c|] eqn:V; [|discriminate]. injection H as <-. apply lit_val_abs; auto.
  - cbn in *. injection H as <-. reflexivity.
  - rewrite eval_seq. apply wf_seq in W as (_ & _ & W). change (kl vs op l = Some b) in H. cbn [lits] in HV.
    revert b H. induction l as [|e l IHl]; intros b H.
    + cbn in H. injection H as <-. apply evl_nil.
    + apply Forall_cons_iff in IH as (IE & IH). apply Forall_cons_iff in W as (WE & W). rewrite kl_cons in H. rewrite evl_cons. cbn [flat_map] in HV.
      assert (HE : forall c, kleene vs e = Some c -> eval v e = c) by (apply IE; auto; intros; apply HV; auto; apply in_or_app; auto).
      assert (HR : forall c, kl vs op l = Some c -> evl v op l = c) by (apply IHl; auto; intros; apply HV; auto; apply in_or_app; auto).
      destruct (kleene vs e) as [[]|], (kl vs op l) as [[]|], op; cbn in H; try discriminate; injection H as <-;
        rewrite ?(HE _ eq_refl), ?(HR _ eq_refl); cbn; rewrite ?andb_false_r, ?orb_true_r; reflexivity.
Qed.

Lemma val_of_sides l z : val_of (sides_of l) z = None \/ exists b, In (z, Some b) l /\ val_of (sides_of l) z = Some b.
Proof.
  induction l as [|(k, o) l IH]; cbn; [auto|]. destruct o as [b|]; cbn.
  - destruct (Z.eqb_spec k z) as [->|]; [right; eauto|]. destruct IH as [|(c & A & B)]; eauto.
  - destruct IH as [|(c & A & B)]; eauto.
Qed.
Lemma dget_In {A} z (a : A) l : dget z l = Some a -> In (z, a) l.
Proof. induction l as [|(k, o) l IH]; cbn; [discriminate|]. destruct (Z.eqb_spec k z) as [->|]; [intros [= ->]; auto|auto]. Qed.
Lemma val_of_known l z b : In (z, Some b) l -> exists c, val_of (sides_of l) z = Some c.
Proof.
  induction l as [|(k, o) l IH]; cbn; [tauto|]. intros [E|HI].
  - injection E as -> ->. cbn. rewrite Z.eqb_refl. eauto.
  - destruct o as [d|]; cbn; auto. destruct (k =? z); eauto.
Qed.

Section Cut.
  Variable C : cad.
  Variable R : reading C.
  Hypothesis G : good_cad C R.
  Variable order : node -> list Z.
  Hypothesis OR1 : orders order.

  (** * what the split does, piece by piece *)
  Definition made (def : node) (o : side_of) (z : Z) (want : option bool) (l : list (piece C)) (p : piece C) : Prop :=
    exists b t n', In b l /\ thin C (p_shape b) = false /\ In t (slice C (p_shape b) z) /\ small C t = false /\
      p = Piece t (updated z (side_at C t z) (p_known b)) (join_or o (p_or b)) /\
      revaluate (sides_of (updated z (side_at C t z) (p_known b))) def = Ok (want, n').

  Lemma sort_parts_char def o z known : forall l f c, sort_parts C def o z known l = Ok (f, c) ->
    let is want p := exists t n', In t l /\ small C t = false /\ p = Piece t (updated z (side_at C t z) known) o /\
      revaluate (sides_of (updated z (side_at C t z) known)) def = Ok (want, n') in
    (forall p, In p f <-> is (Some true) p) /\ (forall p, In p c <-> is None p) /\
    (forall t, In t l -> small C t = false -> exists v n', revaluate (sides_of (updated z (side_at C t z) known)) def = Ok (v, n')).
  Proof.
    induction l as [|t l IH]; intros f c H; cbn [sort_parts] in H; cbn zeta.
    - injection H as <- <-. split; [|split]; try (intros p; split; [intros []|intros (t & n' & [] & _)]). intros t [].
    - inv_bind. destruct a as (f', c'). destruct (IH _ _ Ha) as (A & B & D). cbn zeta in *. clear IH.
      destruct (small C t) eqn:SM.
      + injection H as <- <-. split; [|split].
        * intros p. rewrite A. split; intros (u & n' & HI & HS & E); exists u, n'; repeat split; try apply E; auto; [now right|]. destruct HI as [<-|HI]; [congruence|auto].
        * intros p. rewrite B. split; intros (u & n' & HI & HS & E); exists u, n'; repeat split; try apply E; auto; [now right|]. destruct HI as [<-|HI]; [congruence|auto].
        * intros u [<-|HI] HS; [congruence|auto].
      + inv_bind. destruct a as (v, n'). set (q := Piece t (updated z (side_at C t z) known) o) in *.
        assert (E1 : forall want p, (exists u n', In u (t :: l) /\ small C u = false /\ p = Piece u (updated z (side_at C u z) known) o /\
            revaluate (sides_of (updated z (side_at C u z) known)) def = Ok (want, n')) <->
            (v = want /\ p = q) \/ (exists u n', In u l /\ small C u = false /\ p = Piece u (updated z (side_at C u z) known) o /\
            revaluate (sides_of (updated z (side_at C u z) known)) def = Ok (want, n'))).
        { intros want p. split.
          - intros (u & m & [<-|HI] & HS & HP & HR); [left; rewrite Ha0 in HR; injection HR as -> _; auto|right; exists u, m; auto].
          - intros [(-> & ->)|(u & m & HI & HX)]; [exists t, n'; repeat split; auto; now left|exists u, m; split; [now right|auto]]. }
        assert (E3 : forall u, In u (t :: l) -> small C u = false -> exists v n', revaluate (sides_of (updated z (side_at C u z) known)) def = Ok (v, n')).
        { intros u [<-|HI] HS; eauto. }
        destruct v as [[|]|]; injection H as <- <-.
        * split; [|split]; auto; intros p; rewrite E1, <- ?A, <- ?B; cbn [In]; split; intros HX; repeat destruct HX as [HX|HX]; try (destruct HX as (HX & ->)); try discriminate; auto.
        * split; [|split]; auto; intros p; rewrite E1, <- ?A, <- ?B; cbn [In]; split; intros HX; repeat destruct HX as [HX|HX]; try (destruct HX as (HX & ->)); try discriminate; auto.
        * split; [|split]; auto; intros p; rewrite E1, <- ?A, <- ?B; cbn [In]; split; intros HX; repeat destruct HX as [HX|HX]; try (destruct HX as (HX & ->)); try discriminate; auto.
  Qed.

  Lemma split_all_char def o z : forall l f c, split_all C def o z l = Ok (f, c) ->
    (forall p, In p f <-> made def o z (Some true) l p) /\ (forall p, In p c <-> made def o z None l p) /\
    (forall b t, In b l -> thin C (p_shape b) = false -> In t (slice C (p_shape b) z) -> small C t = false ->
       exists v n', revaluate (sides_of (updated z (side_at C t z) (p_known b))) def = Ok (v, n')).
  Proof.
    induction l as [|b l IH]; intros f c H; cbn [split_all] in H.
    - injection H as <- <-. split; [|split]; try (intros p; split; [intros []|intros (b & t & n' & [] & _)]). intros b t [].
    - inv_bind. destruct a as (f1, c1). inv_bind. destruct a as (f2, c2). injection H as <- <-.
      destruct (IH _ _ Ha0) as (A & B & D). clear IH. unfold split_one in Ha. destruct (thin C (p_shape b)) eqn:T.
      + injection Ha as <- <-. cbn [app]. split; [|split].
        * intros p. rewrite A. split; intros (u & t & n' & HI & HX); exists u, t, n'; (split; [|exact HX]); [now right|]. destruct HI as [<-|HI]; [destruct HX; congruence|auto].
        * intros p. rewrite B. split; intros (u & t & n' & HI & HX); exists u, t, n'; (split; [|exact HX]); [now right|]. destruct HI as [<-|HI]; [destruct HX; congruence|auto].
        * intros u t [<-|HI] HT; [congruence|auto].
      + destruct (sort_parts_char _ _ _ _ _ _ _ Ha) as (A' & B' & D'). cbn zeta in *. split; [|split].
        * intros p. rewrite in_app_iff, A, A'. split.
          -- intros [(t & n' & HX)|(u & t & n' & HI & HX)]; [exists b, t, n'; repeat split; try apply HX; auto; now left|exists u, t, n'; split; [now right|auto]].
          -- intros (u & t & n' & [<-|HI] & HT & HX); [left; exists t, n'; auto|right; exists u, t, n'; auto].
        * intros p. rewrite in_app_iff, B, B'. split.
          -- intros [(t & n' & HX)|(u & t & n' & HI & HX)]; [exists b, t, n'; repeat split; try apply HX; auto; now left|exists u, t, n'; split; [now right|auto]].
          -- intros (u & t & n' & [<-|HI] & HT & HX); [left; exists t, n'; auto|right; exists u, t, n'; auto].
        * intros u t [<-|HI] HT HS; [intros; eapply D'; eauto|intros; eapply D; eauto].
  Qed.

  Lemma updated_In z b known q : In q known -> In q (updated z b known).
  Proof. intros H. unfold updated. destruct (dget z known); auto. now right. Qed.
  Lemma updated_inv z b known q : In q (updated z b known) -> In q known \/ q = (z, Some b).
  Proof. unfold updated. destruct (dget z known); auto. intros [<-|]; auto. Qed.

  (** * the sides known and the orientations, for all the pieces *)
  Definition keys (zs : list Z) (base r : list (piece C)) : Prop :=
    forall q k o, In q r -> In (k, o) (p_known q) -> In k zs \/ exists p, In p base /\ In (k, o) (p_known p).
  Definition calm (loud : Prop) (l : list (piece C)) : Prop := forall p, In p l -> p_or p = Fwd \/ loud.
  Lemma join_or_ok (loud : Prop) o b : (b = Fwd \/ loud) -> join_or o b = Fwd \/ loud.
  Proof. intros [->|HL]; auto. left. destruct o; reflexivity. Qed.

  Lemma made_keys def o z want l p : made def o z want l p -> keys [z] l [p].
  Proof.
    intros (b & t & n' & HI & _ & _ & _ & -> & _) q k w [<-|[]] HK. cbn [p_known] in HK. apply updated_inv in HK as [HK|E]; [right; eauto|]. injection E as -> _. left. now left.
  Qed.
  Lemma cut_loop_keys def o base : forall zs ys full cut r, keys ys base full -> keys ys base cut ->
    incl zs ys -> cut_loop C def o zs full cut = Ok r -> keys ys base r.
  Proof.
    induction zs as [|z zs IH]; intros ys full cut r HF HC HI H; cbn [cut_loop] in H; [injection H as <-; auto|].
    inv_bind. destruct a as (f, c). destruct (split_all_char _ _ _ _ _ _ Ha) as (A & B & _).
    assert (MK : forall want p k w, made def o z want cut p -> In (k, w) (p_known p) -> In k ys \/ exists p, In p base /\ In (k, w) (p_known p)).
    { intros want p k w M HK. destruct (made_keys _ _ _ _ _ _ M p k w (or_introl eq_refl) HK) as [[<-|[]]|(b & HB & HK')]; [left; apply HI; now left|eauto]. }
    assert (HF' : keys ys base (full ++ f)). { intros q k w HQ. apply in_app_or in HQ as [HQ|HQ]; [apply HF; auto|]. apply A in HQ. eapply MK; eauto. }
    destruct c as [|p c]; [injection H as <-; auto|]. eapply IH; [exact HF'| |intros w Hw; apply HI; now right|exact H].
    intros q k w HQ. apply B in HQ. eapply MK; eauto.
  Qed.
  Lemma cut_loop_calm loud def o : forall zs full cut r, calm loud full -> calm loud cut -> cut_loop C def o zs full cut = Ok r -> calm loud r.
  Proof.
    induction zs as [|z zs IH]; intros full cut r HF HC H; cbn [cut_loop] in H; [injection H as <-; auto|].
    inv_bind. destruct a as (f, c). destruct (split_all_char _ _ _ _ _ _ Ha) as (A & B & _).
    assert (MK : forall want p, made def o z want cut p -> p_or p = Fwd \/ loud) by (intros want p (b & t & n' & HB & _ & _ & _ & -> & _); cbn [p_or]; apply join_or_ok; auto).
    assert (HF' : calm loud (full ++ f)). { intros q HQ. apply in_app_or in HQ as [HQ|HQ]; [apply HF; auto|]. apply A in HQ. eapply MK; eauto. }
    destruct c as [|p c]; [injection H as <-; auto|]. eapply IH; [exact HF'| |exact H]. intros q HQ. apply B in HQ. eapply MK; eauto.
  Qed.

  (** * at a point *)
  Variable x : pt R.
  (** the sides known are true for [x], but for the surfaces of [J] *)
  Definition truth (J : list Z) (p : piece C) : Prop := forall k o, In (k, o) (p_known p) -> ~ In k J -> o = Some (sd R x k).
  Definition at_x (p : piece C) : Prop := mem R (p_shape p) x.
  Definition inp (l : list (piece C)) : Prop := exists p, In p l /\ at_x p.
  Definition has (J : list Z) (l : list (piece C)) : Prop := exists p, In p l /\ at_x p /\ truth J p.
  Definition pure (J : list Z) (l : list (piece C)) : Prop := forall p, In p l -> at_x p -> truth J p.
  Lemma truth_mono J K p : incl J K -> truth J p -> truth K p.
  Proof. intros HI T k o HK HJ. apply T; auto. Qed.
  Lemma has_mono J K l : incl J K -> has J l -> has K l.
  Proof. intros HI (p & A & B & D). exists p. eauto using truth_mono. Qed.
  Lemma pure_mono J K l : incl J K -> pure J l -> pure K l.
  Proof. intros HI H p HP HX. eapply truth_mono; eauto. Qed.
  Lemma has_app J l m : has J (l ++ m) <-> has J l \/ has J m.
  Proof.
    split; [intros (p & HI & M); apply in_app_or in HI as [|]; [left|right]; exists p; auto|].
    intros [(p & HI & M)|(p & HI & M)]; exists p; split; auto; apply in_or_app; auto.
  Qed.
  Lemma inp_app l m : inp (l ++ m) <-> inp l \/ inp m.
  Proof.
    split; [intros (p & HI & M); apply in_app_or in HI as [|]; [left|right]; exists p; auto|].
    intros [(p & HI & M)|(p & HI & M)]; exists p; split; auto; apply in_or_app; auto.
  Qed.
  Lemma pure_app J l m : pure J (l ++ m) <-> pure J l /\ pure J m.
  Proof. split; [intros H; split; intros p HP; apply H, in_or_app; auto|intros (A & B) p HP; apply in_app_or in HP as [|]; auto]. Qed.
  Lemma pure_nil J : pure J []. Proof. intros p []. Qed.
  Lemma inp_nil : ~ inp []. Proof. intros (p & [] & _). Qed.

  Section Def.
    Variable def : node.
    Variable J : list Z.
    Hypothesis W : wf def.
    Hypothesis HJ : apart J (surfs def).

    Lemma decided (p : piece C) r n' : truth J p -> revaluate (sides_of (p_known p)) def = Ok (Some r, n') -> eval (sd R x) def = r.
    Proof.
      intros HT H. apply reval_kleene in H. symmetry in H. eapply kleene_sound; [exact W| |exact H].
      intros z c Hz V. destruct (val_of_sides (p_known p) z) as [E|(d & A & B)]; [congruence|]. rewrite V in B. injection B as <-.
      assert (E : Some c = Some (sd R x z)) by (eapply HT; [exact A|intros HK; exact (HJ z HK Hz)]). congruence.
    Qed.
    Lemma undecided (p : piece C) n' : revaluate (sides_of (p_known p)) def = Ok (None, n') -> exists z, In z (surfs def) /\ forall b, ~ In (z, Some b) (p_known p).
    Proof.
      intros H. apply reval_none in H as (z & A & B). exists (Z.abs z). split; [apply surfs_spec; eauto|].
      intros b HI. apply val_of_known in HI as (c & E). congruence.
    Qed.
    (** a part of a piece that has [x] *)
    Lemma part_truth z (b : piece C) t o : In t (slice C (p_shape b) z) -> mem R t x -> truth J b ->
      truth J (Piece t (updated z (side_at C t z) (p_known b)) o).
    Proof.
      intros HT M T k w HK Hk. cbn [p_known] in HK. apply updated_inv in HK as [HK|E]; [apply T; auto|]. injection E as -> ->. f_equal. symmetry. eapply side_ok; eauto.
    Qed.
    Lemma part_knows z (b : piece C) v : In z (surfs def) -> truth J b -> exists c, In (z, Some c) (updated z v (p_known b)).
    Proof.
      intros Hz T. unfold updated. destruct (dget z (p_known b)) as [o|] eqn:D; [|exists v; now left].
      apply dget_In in D. rewrite (T z o D) in D by (intros HK; exact (HJ z HK Hz)). eauto.
    Qed.

    Lemma cut_loop_lower o : eval (sd R x) def = true -> forall zs seen full cut r,
      (forall z, In z (surfs def) <-> In z (seen ++ zs)) ->
      has J full \/ (zs <> [] /\ exists p, In p cut /\ at_x p /\ truth J p /\ forall z, In z seen -> exists b, In (z, Some b) (p_known p)) ->
      cut_loop C def o zs full cut = Ok r -> has J r.
    Proof.
      intros EV. induction zs as [|z zs IH]; intros seen full cut r HZ HC H; cbn [cut_loop] in H; [destruct HC as [HC|(HC & _)]; [|congruence]; injection H as <-; auto|].
      inv_bind. destruct a as (f, c). destruct (split_all_char _ _ _ _ _ _ Ha) as (A & B & D).
      assert (Hz : In z (surfs def)) by (apply HZ; apply in_or_app; right; now left).
      assert (HC' : has J (full ++ f) \/ (zs <> [] /\ exists p, In p c /\ at_x p /\ truth J p /\ forall y, In y (seen ++ [z]) -> exists b, In (y, Some b) (p_known p))).
      { destruct HC as [HC|(_ & b & B1 & B2 & B3 & B4)]; [left; apply has_app; auto|].
        assert (T : thin C (p_shape b) = false) by (destruct (thin C (p_shape b)) eqn:T; auto; destruct (thin_ok C R G _ T x B2)).
        destruct (proj1 (slice_ok C R G (p_shape b) z x) B2) as (t & T1 & T2).
        assert (SM : small C t = false) by (destruct (small C t) eqn:SM; auto; destruct (small_ok C R G _ SM x T2)).
        destruct (D b t B1 T T1 SM) as (v & n' & HR). set (q := Piece t (updated z (side_at C t z) (p_known b)) (join_or o (p_or b))).
        assert (QT : truth J q) by (apply part_truth; auto).
        destruct v as [v|].
        - pose proof (decided q v n' QT HR) as E. rewrite EV in E. subst v. left. apply has_app. right. exists q. split; [|split; auto]. apply A. exists b, t, n'. repeat split; auto.
        - right. assert (QS : forall y, In y (seen ++ [z]) -> exists b0, In (y, Some b0) (p_known q)).
          { intros y Hy. apply in_app_or in Hy as [Hy|[<-|[]]]; [|eapply part_knows; eauto]. destruct (B4 y Hy) as (w & Hw). exists w. apply updated_In. auto. }
          split.
          + intros ->. destruct (undecided q n' HR) as (w & W1 & W2). apply HZ in W1. destruct (QS w W1) as (d & Hd). exact (W2 d Hd).
          + exists q. split; [|split; [|split]]; auto. apply B. exists b, t, n'. repeat split; auto. }
      destruct c as [|p c].
      - injection H as <-. destruct HC' as [HC'|(_ & p & [] & _)]; auto.
      - eapply (IH (seen ++ [z])); [|exact HC'|exact H]. intros w. rewrite HZ, <- app_assoc. reflexivity.
    Qed.

    Lemma cut_loop_upper o : forall zs full cut r, pure J full -> (inp full -> eval (sd R x) def = true) -> pure J cut ->
      cut_loop C def o zs full cut = Ok r ->
      pure J r /\ (inp r -> inp full \/ inp cut) /\ (inp r -> eval (sd R x) def = true).
    Proof.
      induction zs as [|z zs IH]; intros full cut r PF EF PC H; cbn [cut_loop] in H; [injection H as <-; auto|].
      inv_bind. destruct a as (f, c). destruct (split_all_char _ _ _ _ _ _ Ha) as (A & B & _).
      assert (MK : forall want p, made def o z want cut p -> at_x p -> truth J p /\ inp cut /\ forall w, want = Some w -> eval (sd R x) def = w).
      { intros want p (b & t & n' & B1 & B2 & B3 & B4 & -> & HR) M. unfold at_x in M. cbn [p_shape] in M.
        assert (MB : mem R (p_shape b) x) by (apply (slice_ok C R G (p_shape b) z); eauto).
        assert (QT : truth J (Piece t (updated z (side_at C t z) (p_known b)) (join_or o (p_or b)))) by (apply part_truth; auto).
        split; auto. split; [exists b; auto|]. intros w ->. eapply decided; [exact QT|exact HR]. }
      assert (PF' : pure J (full ++ f)) by (apply pure_app; split; auto; intros p HP M; apply A in HP; eapply MK; eauto).
      assert (EF' : inp (full ++ f) -> (inp full \/ inp cut) /\ eval (sd R x) def = true).
      { intros HX. apply inp_app in HX as [HX|(p & HP & M)]; [auto|]. apply A in HP. destruct (MK _ _ HP M) as (_ & ? & E). auto. }
      destruct c as [|p c]; [injection H as <-; split; [|split]; auto; intros HX; apply EF' in HX; tauto|].
      assert (PC' : pure J (p :: c)) by (intros q HQ M; apply B in HQ; eapply MK; eauto).
      destruct (IH _ _ _ PF' (fun HX => proj2 (EF' HX)) PC' H) as (D1 & D2 & D3).
      split; [|split]; auto. intros HX. destruct (D2 HX) as [HX'|(q & HQ & M)]; [apply EF' in HX'; tauto|]. apply B in HQ. destruct (MK _ _ HQ M) as (_ & ? & _). auto.
    Qed.
  End Def.
End Cut.
