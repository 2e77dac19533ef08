From Verif Require Import Prelude Vec3 Geom Prim PrimProofs SurfCards AddPlane AddPlaneSpec AddPlaneProofs.
From Coq Require Import List Relations Permutation Sorted.
Open Scope R_scope.

Lemma ss_split {A} (Rr : A -> A -> Prop) l1 r l2 : StronglySorted Rr (l1 ++ r :: l2) ->
  (forall x, In x l1 -> Rr x r) /\ (forall x, In x l2 -> Rr r x).
Proof.
  induction l1 as [|a l IH]; cbn; intros H; inversion H as [|? ? Hs Hf]; subst.
  - split; [intros x []|]. rewrite Forall_forall in Hf. auto.
  - destruct (IH Hs) as [H1 H2]. split; auto. intros x [<-|Hx]; auto.
    rewrite Forall_forall in Hf. apply Hf, in_or_app. right. left. auto.
Qed.

Section Turn.
Variable us : nat -> R * R.
Variable ks : list nat.
Hypothesis Hnd : NoDup ks.
Hypothesis Hlt : forall k, In k ks -> fst (us k) < snd (us k).
Variable w : R.
Hypothesis Hw : forall k, In k ks -> w <= fst (us k) /\ snd (us k) <= w + 2 * PI.
Variable my : nat.
Hypothesis Hmy : In my ks.

Notation conn := (joined gap us ks).
Notation conn2 := (joined_turn gap (1/100) us ks).

Lemma conn_conn2 a b : conn a b -> conn2 a b.
Proof.
  induction 1 as [a b [Ha [Hb H]]|a|a b c _ IH1 _ IH2]; [|apply rt_refl|eapply rt_trans; eauto].
  apply rt_step. auto.
Qed.
Lemma conn2_sym a b : conn2 a b -> conn2 b a.
Proof.
  induction 1 as [a b [Ha [Hb [[H1 H2]|[H|H]]]]|a|a b c _ IH1 _ IH2]; [| | |apply rt_refl|eapply rt_trans; eauto];
    apply rt_step; (split; [auto|split; [auto|]]); [left; split; auto|right; right; auto|right; left; auto].
Qed.

Lemma range_facts r : range_of us ks r -> exists k0 c,
  In k0 (r_idx r) /\ In c (r_idx r) /\ In k0 ks /\ In c ks /\ r_min r = (fst (us k0), k0) /\ r_max r = (snd (us c), c)
  /\ fst (r_min r) < fst (r_max r)
  /\ (forall k, In k (r_idx r) -> In k ks /\ fst (r_min r) <= fst (us k) /\ snd (us k) <= fst (r_max r) /\ conn k0 k).
Proof.
  intros [k0 [c [H1 [H2 [H3 [H4 H5]]]]]]. exists k0, c.
  destruct (H5 k0 H1) as [A1 [A2 [A3 A4]]]. destruct (H5 c H2) as [B1 [B2 [B3 B4]]].
  rewrite H3, H4. cbn [fst]. pose proof (Hlt k0 A1). repeat split; auto; try lra; apply (H5 k); auto.
Qed.

Lemma range_conn r k k' : range_of us ks r -> In k (r_idx r) -> In k' (r_idx r) -> conn k k'.
Proof.
  intros H Hk Hk'. destruct (range_facts r H) as (k0 & c & _ & _ & _ & _ & _ & _ & _ & F).
  destruct (F k Hk) as (_ & _ & _ & C1). destruct (F k' Hk') as (_ & _ & _ & C2).
  eapply rt_trans; [apply conn_sym|]; eauto.
Qed.

Section Rs.
Variable rs : list rng.
Hypothesis Hrs : ranges us ks rs.

Lemma ranges_in r : In r rs -> range_of us ks r.
Proof. destruct Hrs as [H _]. rewrite Forall_forall in H. auto. Qed.

(** a face is in the range, before it or after it *)
Lemma ranges_cases l1 r l2 k : rs = l1 ++ r :: l2 -> In k ks ->
  In k (r_idx r)
  \/ (exists r', In r' l1 /\ In k (r_idx r') /\ snd (us k) + gap <= fst (r_min r))
  \/ (exists r', In r' l2 /\ In k (r_idx r') /\ fst (r_max r) + gap <= fst (us k)).
Proof.
  intros E Hk. destruct Hrs as [_ [SS T]]. rewrite E in SS. apply ss_split in SS as [B1 B2].
  destruct (T k Hk) as [r' [Hr' Hi]].
  destruct (range_facts r' (ranges_in r' Hr')) as (k0 & c & _ & _ & _ & _ & _ & _ & _ & F).
  destruct (F k Hi) as (_ & F1 & F2 & _).
  rewrite E in Hr'. apply in_app_or in Hr' as [Hr'|[<-|Hr']]; auto.
  - right. left. exists r'. specialize (B1 r' Hr'). unfold before in B1. repeat split; auto. lra.
  - right. right. exists r'. specialize (B2 r' Hr'). unfold before in B2. repeat split; auto. lra.
Qed.

(** near faces are in the same range *)
Lemma ranges_near l1 r l2 k k' : rs = l1 ++ r :: l2 -> In k ks -> In k' ks -> near gap us k k' -> In k (r_idx r) -> In k' (r_idx r).
Proof.
  intros E Hk Hk' [N1 N2] Hi.
  assert (Hr : In r rs) by (rewrite E; apply in_or_app; right; left; auto).
  destruct (range_facts r (ranges_in r Hr)) as (k0 & c & _ & _ & _ & _ & _ & _ & _ & F).
  destruct (F k Hi) as (_ & F1 & F2 & _).
  destruct (ranges_cases l1 r l2 k' E Hk') as [|[[r' [_ [_ B]]]|[r' [_ [_ B]]]]]; auto; exfalso; lra.
Qed.
Lemma ranges_joined l1 r l2 k k' : rs = l1 ++ r :: l2 -> conn k k' -> In k (r_idx r) -> In k' (r_idx r).
Proof.
  intros E. induction 1 as [a b [Ha [Hb H]]|a|a b c _ IH1 _ IH2]; auto. apply (ranges_near l1 r l2 a b); auto.
Qed.
End Rs.

(** the arc from u1 to u2 holds the faces joined to [my] and no other *)
Definition inside (u1 u2 : R) (k : nat) : Prop :=
  exists z : Z, u1 <= fst (us k) + 2 * PI * IZR z /\ snd (us k) + 2 * PI * IZR z <= u2.
Definition outside (u1 u2 : R) (k : nat) : Prop :=
  exists z : Z, u2 < fst (us k) + 2 * PI * IZR z /\ snd (us k) + 2 * PI * IZR z < u1 + 2 * PI.

Definition boundary_ok (b : option (node * node)) : Prop :=
  match b with
  | None => (forall k, In k ks -> conn2 my k) /\ (exists k k', In k ks /\ In k' ks /\ (snd (us k') - fst (us k) > 2 * PI - 1/100 \/ 0 <= fst (us k') - snd (us k) < 1/100))
  | Some (n1, n2) =>
      In (snd n1) ks /\ In (snd n2) ks
      /\ (fst n1 = fst (us (snd n1)) \/ fst n1 = fst (us (snd n1)) - 2 * PI) /\ fst n2 = snd (us (snd n2))
      /\ 0 < fst n2 - fst n1 < 2 * PI
      /\ (forall k, In k ks -> (conn2 my k /\ inside (fst n1) (fst n2) k) \/ (~ conn my k /\ outside (fst n1) (fst n2) k))
      /\ inside (fst n1) (fst n2) my
  end.

Lemma find_app_mid {A} (f : A -> bool) l1 r l2 : (forall x, In x l1 -> f x = false) -> f r = true -> find f (l1 ++ r :: l2) = Some r.
Proof. induction l1 as [|a l IH]; cbn; intros H1 H2; [rewrite H2; auto|]. rewrite (H1 a) by auto. apply IH; auto. Qed.

Lemma has_true r : existsb (Nat.eqb my) (r_idx r) = true <-> In my (r_idx r).
Proof. rewrite existsb_exists. split; [intros [x [H E]]; apply Nat.eqb_eq in E; subst; auto|intros H; exists my; split; auto; apply Nat.eqb_refl]. Qed.

Lemma in_first (r : rng) (rs : list rng) f : In r rs -> f r = true -> exists l1 r' l2, rs = l1 ++ r' :: l2 /\ f r' = true /\ (forall x, In x l1 -> f x = false).
Proof.
  induction rs as [|a l IH]; [intros []|]. intros Hin Hf. destruct (f a) eqn:E.
  - exists [], a, l. repeat split; auto. intros x [].
  - destruct Hin as [<-|Hin]; [congruence|]. destruct (IH Hin Hf) as (l1 & r' & l2 & -> & H1 & H2).
    exists (a :: l1), r', l2. repeat split; auto. intros x [<-|Hx]; auto.
Qed.

Lemma pi_pos : 0 < PI. Proof. apply PI_RGT_0. Qed.

(** the faces of a range that is not touched by the turn *)
Lemma plain_ok rs l1 r l2 : ranges us ks rs -> rs = l1 ++ r :: l2 -> In my (r_idx r) ->
  (forall k, In k ks -> fst (r_max r) < fst (us k) + 2 * PI /\ snd (us k) < fst (r_min r) + 2 * PI) ->
  fst (r_max r) - fst (r_min r) < 2 * PI ->
  boundary_ok (Some (r_min r, r_max r)).
Proof.
  intros Hrs E Hi Hfar Hsmall.
  assert (Hr : In r rs) by (rewrite E; apply in_or_app; right; left; auto).
  pose proof (ranges_in rs Hrs r Hr) as Hro.
  destruct (range_facts r Hro) as (k0 & c & G1 & G2 & G3 & G4 & G5 & G6 & G7 & F).
  pose proof gap_pos as GP. cbn [boundary_ok]. rewrite G5, G6 in *. cbn [fst snd] in *.
  split; auto. split; auto. split; auto. split; auto. split; [lra|].
  assert (Hin : forall k, In k (r_idx r) -> inside (fst (us k0)) (snd (us c)) k).
  { intros k Hk. destruct (F k Hk) as (_ & F1 & F2 & _). exists 0%Z. cbn. lra. }
  split; auto. intros k Hk. destruct (ranges_cases rs Hrs l1 r l2 k E Hk) as [H|[[r' [Hr' [Hi' H]]]|[r' [Hr' [Hi' H]]]]].
  - left. split; auto. apply conn_conn2. eapply range_conn; eauto.
  - right. split.
    + intros C. pose proof (ranges_joined rs Hrs l1 r l2 my k E C Hi) as X. destruct (F k X) as (X1 & X2 & _).
      pose proof (Hlt k X1). rewrite G5 in H. cbn [fst] in H. lra.
    + exists 1%Z. rewrite G5 in H. cbn [fst] in H. destruct (Hfar k Hk) as [Q1 Q2]. cbn. lra.
  - right. split.
    + intros C. pose proof (ranges_joined rs Hrs l1 r l2 my k E C Hi) as X. destruct (F k X) as (X1 & X2 & X3 & _).
      pose proof (Hlt k X1). rewrite G6 in H. cbn [fst] in H. lra.
    + exists 0%Z. rewrite G6 in H. cbn [fst] in H. destruct (Hfar k Hk) as [Q1 Q2]. cbn. lra.
Qed.

Lemma full_turn_true a b : full_turn a b = true <-> Rabs (b - a - 2 * PI) < 1/100.
Proof. apply rltb_true. Qed.
Lemma full_turn_false a b : full_turn a b = false <-> 1/100 <= Rabs (b - a - 2 * PI).
Proof. apply rltb_false. Qed.

Theorem boundary_total : exists b, get_u_value_boundary us ks my = Ok b /\ boundary_ok b.
Proof.
  assert (Hne : ks <> []) by (intros E; rewrite E in Hmy; destruct Hmy).
  assert (Hle : forall k, In k ks -> fst (us k) <= snd (us k)) by (intros k Hk; specialize (Hlt k Hk); lra).
  destruct (intervals_ranges us ks Hnd Hle Hne) as [rs [E Hrs]].
  unfold get_u_value_boundary, get_closed_ranges.
  match goal with |- context [get_intervals ?X] => change (get_intervals X = Ok rs) in E end.
  rewrite E. cbn [bind]. pose proof pi_pos as PP. pose proof gap_pos as GP.
  pose proof Hrs as [HF [SS HT]].
  destruct rs as [|r0 rest] eqn:Er.
  { exfalso. destruct (HT my Hmy) as [r [[] _]]. }
  rewrite <- Er in Hrs.
  assert (Hr0 : range_of us ks r0) by (inversion HF; auto).
  destruct (range_facts r0 Hr0) as (k0 & c0 & A1 & A2 & A3 & A4 & A5 & A6 & A7 & F0).
  destruct rest as [|r1 rest'].
  - (* one range *)
    cbn [last]. destruct (HT my Hmy) as [r [[<-|[]] Hi]].
    assert (Hall : forall k, In k ks -> In k (r_idx r0)) by (intros k Hk; destruct (HT k Hk) as [r [[<-|[]] Hi']]; auto).
    destruct (full_turn (fst (r_min r0)) (fst (r_max r0))) eqn:FT.
    + exists None. split; auto. split.
      * intros k Hk. apply conn_conn2. eapply range_conn; eauto.
      * exists k0, c0. apply full_turn_true in FT. rewrite A5, A6 in FT. cbn [fst] in FT. apply Rabs_def2 in FT. repeat split; auto. left. lra.
    + cbn [bind find]. apply has_true in Hi as Hi'. rewrite Hi'. eexists. split; [reflexivity|].
      apply (plain_ok rs [] r0 []); auto.
      * intros k Hk. destruct (F0 k (Hall k Hk)) as (_ & F1 & F2 & _). apply full_turn_false in FT.
        rewrite A5, A6 in *. cbn [fst] in *. destruct (Hw k0 A3), (Hw c0 A4).
        rewrite Rabs_left1 in FT by lra. lra.
      * apply full_turn_false in FT. rewrite A5, A6 in *. cbn [fst] in *. destruct (Hw k0 A3), (Hw c0 A4).
        rewrite Rabs_left1 in FT by lra. lra.
  - (* several ranges *)
    set (rl := last (r1 :: rest') r0).
    assert (Erest : r1 :: rest' = removelast (r1 :: rest') ++ [rl]) by (apply app_removelast_last; discriminate).
    assert (Hrl : range_of us ks rl).
    { rewrite Forall_forall in HF. apply HF. right. rewrite Erest. apply in_or_app. right. left. auto. }
    destruct (range_facts rl Hrl) as (kl & cl & B1 & B2 & B3 & B4 & B5 & B6 & B7 & Fl).
    assert (Esplit : rs = (r0 :: removelast (r1 :: rest')) ++ rl :: []) by (rewrite Er, Erest at 1; reflexivity).
    assert (Hb : before r0 rl).
    { rewrite <- Er in SS. rewrite Esplit in SS. apply ss_split in SS as [S1 _]. apply S1. left; auto. }
    unfold before in Hb.
    destruct (full_turn (fst (r_min r0)) (fst (r_max rl))) eqn:FT.
    + apply full_turn_true in FT as FT'. apply Rabs_def2 in FT'.
      assert (Hmeet : conn2 k0 cl).
      { apply rt_step. repeat split; auto. right. left. apply full_turn_true in FT. rewrite A5, B6 in FT. exact FT. }
      assert (Hcirc : forall k k', In k (r_idx r0 ++ r_idx rl) -> In k' (r_idx r0 ++ r_idx rl) -> conn2 k k').
      { assert (X : forall k, In k (r_idx r0 ++ r_idx rl) -> conn2 k0 k).
        { intros k Hk. apply in_app_or in Hk as [Hk|Hk].
          - apply conn_conn2. apply (range_conn r0); auto.
          - eapply rt_trans; [exact Hmeet|]. apply conn_conn2. apply (range_conn rl); auto. }
        intros k k' Hk Hk'. apply rt_trans with k0; [apply conn2_sym; exact (X k Hk)|exact (X k' Hk')]. }
      set (r0' := Rng (fst (r_min rl) - 2 * PI, snd (r_min rl)) (r_max r0) (r_idx r0 ++ r_idx rl)).
      (* the joined first and last ranges *)
      assert (Hmerge : full_turn (fst (r_min rl) - 2 * PI) (fst (r_max r0)) = false \/ removelast (r1 :: rest') <> [] ->
                       In my (r_idx r0') -> boundary_ok (Some (r_min r0', r_max r0'))).
      { intros _ Hi. unfold r0', boundary_ok. cbn [r_min r_max fst snd r_idx] in *. rewrite B5, A6 in *. cbn [fst snd] in *.
        rewrite A5 in *. rewrite B6 in *. cbn [fst] in *. destruct (Hw k0 A3), (Hw cl B4).
        split; auto. split; auto. split; auto. split; auto. split; [split; lra|].
        assert (Hin : forall k, In k (r_idx r0 ++ r_idx rl) -> inside (fst (us kl) - 2 * PI) (snd (us c0)) k).
        { intros k Hk. apply in_app_or in Hk as [Hk|Hk].
          - destruct (F0 k Hk) as (_ & F1 & F2 & _). exists 0%Z. cbn. lra.
          - destruct (Fl k Hk) as (_ & F1 & F2 & _). exists (-1)%Z. cbn. lra. }
        split; auto. intros k Hk.
        destruct (ranges_cases rs Hrs [] r0 (r1 :: rest') k Er Hk) as [X|[[r' [[] _]]|[r' [Hr' [Hi' X]]]]].
        - left. split; [apply Hcirc|apply Hin]; auto; apply in_or_app; auto.
        - destruct (ranges_cases rs Hrs _ rl [] k Esplit Hk) as [Y|[[r'' [Hr'' [Hi'' Y]]]|[r'' [[] _]]]].
          + left. split; [apply Hcirc|apply Hin]; auto; apply in_or_app; auto.
          + right. split.
            * intros C. apply in_app_or in Hi as [Hi|Hi].
              -- pose proof (ranges_joined rs Hrs [] r0 (r1 :: rest') my k Er C Hi) as Z. destruct (F0 k Z) as (Z1 & Z2 & Z3 & _).
                 pose proof (Hlt k Z1). rewrite A6 in X. cbn [fst] in X. lra.
              -- pose proof (ranges_joined rs Hrs _ rl [] my k Esplit C Hi) as Z. destruct (Fl k Z) as (Z1 & Z2 & Z3 & _).
                 pose proof (Hlt k Z1). rewrite B5 in Y. cbn [fst] in Y. lra.
            * exists 0%Z. rewrite A6 in X. rewrite B5 in Y. cbn [fst] in X, Y. cbn. lra. }
      destruct (removelast (r1 :: rest')) as [|m mid] eqn:Emid.
      * assert (Hall : forall k, In k ks -> In k (r_idx r0')).
        { intros k Hk. destruct (HT k Hk) as [r [Hr Hi]]. cbn in Erest. cbn [r0' r_idx]. apply in_or_app.
          rewrite Erest in Hr. destruct Hr as [<-|[<-|[]]]; auto. }
        fold r0'. cbn [fst]. destruct (full_turn (fst (r_min rl) - 2 * PI) (fst (r_max r0))) eqn:FT2.
        -- exists None. split; auto. split.
           ++ intros k Hk. apply Hcirc; apply Hall; auto.
           ++ exists c0, kl. apply full_turn_true in FT2. apply Rabs_def2 in FT2. rewrite A6, B5 in *. cbn [fst] in *.
              repeat split; auto. right. lra.
        -- cbn [bind find]. pose proof (Hall my Hmy) as Hi. apply has_true in Hi as Hi'. rewrite Hi'. eexists. split; [reflexivity|].
           apply Hmerge; auto.
      * fold r0'. destruct (existsb (Nat.eqb my) (r_idx r0')) eqn:Em.
        -- cbn [bind find]. rewrite Em. eexists. split; [reflexivity|]. apply has_true in Em. apply Hmerge; auto. right. discriminate.
        -- assert (Nm : ~ In my (r_idx r0')) by (intros X; apply has_true in X; congruence).
           destruct (HT my Hmy) as [r [Hr Hi]].
           assert (Hr' : In r (m :: mid)).
           { rewrite Erest in Hr. destruct Hr as [<-|Hr]; [exfalso; apply Nm; cbn [r0' r_idx]; apply in_or_app; auto|].
             apply in_app_or in Hr as [Hr|[<-|[]]]; auto. exfalso. apply Nm. cbn [r0' r_idx]. apply in_or_app; auto. }
           apply has_true in Hi as Hi'.
           destruct (in_first r (m :: mid) (fun r => existsb (Nat.eqb my) (r_idx r)) Hr' Hi') as (l1 & r' & l2 & El & Hf & Hno).
           cbn [bind find]. rewrite Em. change (if existsb (Nat.eqb my) (r_idx m) then Some m else find (fun r2 => existsb (Nat.eqb my) (r_idx r2)) mid)
             with (find (fun r2 => existsb (Nat.eqb my) (r_idx r2)) (m :: mid)).
           cbn [bind]. rewrite El. rewrite find_app_mid by auto. eexists. split; [reflexivity|].
           apply has_true in Hf.
           assert (Es : rs = (r0 :: l1) ++ r' :: (l2 ++ [rl])).
           { rewrite Esplit, El. cbn. rewrite <- app_assoc. reflexivity. }
           assert (S' : before r0 r' /\ before r' rl).
           { rewrite <- Er, Es in SS. apply ss_split in SS as [S1 S2]. split; [apply S1; left; auto|apply S2, in_or_app; right; left; auto]. }
           unfold before in S'. destruct S' as [S1 S2].
           assert (Hrr : range_of us ks r').
           { rewrite Forall_forall in HF. apply HF. rewrite <- Er, Es. apply in_or_app. right. left. auto. }
           destruct (range_facts r' Hrr) as (kr & cr & R1 & R2 & R3 & R4 & R5 & R6 & R7 & Fr).
           apply (plain_ok rs (r0 :: l1) r' (l2 ++ [rl])); auto.
           ++ intros k Hk. destruct (Hw k Hk), (Hw k0 A3), (Hw cl B4). rewrite A5, B6 in *. cbn [fst] in *. lra.
           ++ destruct (Hw k0 A3), (Hw cl B4). rewrite A5, B6 in *. cbn [fst] in *. lra.
    + apply full_turn_false in FT.
      destruct (HT my Hmy) as [r [Hr Hi]]. apply has_true in Hi as Hi'.
      destruct (in_first r (r0 :: r1 :: rest') (fun r => existsb (Nat.eqb my) (r_idx r)) Hr Hi') as (l1 & r' & l2 & El & Hf & Hno).
      cbn [bind]. rewrite El. rewrite find_app_mid by auto. eexists. split; [reflexivity|]. apply has_true in Hf.
      assert (Hlo : forall k, In k ks -> fst (r_min r0) <= fst (us k)).
      { intros k Hk. destruct (ranges_cases rs Hrs [] r0 (r1 :: rest') k Er Hk) as [X|[[x [[] _]]|[x [_ [_ X]]]]]; [apply (F0 k X)|lra]. }
      assert (Hhi : forall k, In k ks -> snd (us k) <= fst (r_max rl)).
      { intros k Hk. destruct (ranges_cases rs Hrs _ rl [] k Esplit Hk) as [X|[[x [_ [_ X]]]|[x [[] _]]]]; [apply (Fl k X)|lra]. }
      assert (Hrr : range_of us ks r').
      { rewrite Forall_forall in HF. apply HF. rewrite El. apply in_or_app. right. left. auto. }
      destruct (range_facts r' Hrr) as (kr & cr & R1 & R2 & R3 & R4 & R5 & R6 & R7 & Fr).
      assert (FT' : fst (r_max rl) - fst (r_min r0) <= 2 * PI - 1/100).
      { rewrite A5, B6 in *. cbn [fst] in *. destruct (Hw k0 A3), (Hw cl B4). rewrite Rabs_left1 in FT by lra. lra. }
      apply (plain_ok rs l1 r' l2); auto.
      * rewrite Er. exact El.
      * intros k Hk. pose proof (Hlo k Hk). pose proof (Hhi k Hk). pose proof (Hlo kr R3). pose proof (Hhi cr R4).
        rewrite R5, R6. cbn [fst]. lra.
      * pose proof (Hlo kr R3). pose proof (Hhi cr R4). rewrite R5, R6. cbn [fst]. lra.
Qed.
End Turn.
