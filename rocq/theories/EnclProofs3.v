(** Non-termination on sets that are not trees, and the partition of space into
    the regions of the enclosures. *)
From Coq Require Import Permutation Sorted.
From Verif Require Import Prelude Enclosures EnclSpec EnclProofs EnclProofs2.

Lemma level_loop_stuck l : forall n parents temp, (forall i, In i parents -> rooted l i) -> (forall e, In e temp -> In e l) ->
  (exists e, In e temp /\ ~ rooted l (pid e)) -> level_loop n parents temp = Fuel.
Proof.
  induction n as [|n IH]; intros parents temp HP HT (e & Ie & NR); destruct temp as [|x t]; try (destruct Ie; fail); [reflexivity|].
  set (temp := x :: t) in *.
  assert (E : level_loop (S n) parents temp =
    (do r <- level_loop n (map eid (filter (fun e => memZ (pid e) parents) temp)) (filter (fun e => negb (memZ (pid e) parents)) temp);
     Ok (filter (fun e => memZ (pid e) parents) temp :: r))) by reflexivity.
  rewrite E, IH; [reflexivity| | |].
  - intros i I. apply in_map_iff in I. destruct I as (f & <- & I). apply filter_In in I. destruct I as (I & M). apply memZ_spec in M.
    constructor; auto.
  - intros f I. apply filter_In in I. apply HT; tauto.
  - exists e. split; auto. apply filter_In. split; auto. destruct (memZ (pid e) parents) eqn:M; auto.
    apply memZ_spec in M. exfalso. auto.
Qed.

(** ** sons *)
Lemma sons_spec l levels : tree l ->
  (forall n e, at_level l n e <-> exists lv, nth_error levels n = Some lv /\ In e lv) ->
  forall i e c, at_level l i e -> (In c (sons (levels ++ [[]]) i e) <-> In c l /\ pid c = eid e).
Proof.
  intros T HL i e c A. unfold sons. pose proof A as B. apply HL in B. destruct B as (lv & N & I).
  assert (LT : (i < length levels)%nat) by (apply nth_error_Some; congruence).
  assert (SON : In c l -> pid c = eid e -> exists nxt, nth_error (levels ++ [[]]) (S i) = Some nxt /\ In c nxt).
  { intros Ic P. pose proof (son_level l _ _ _ A Ic P) as X. apply HL in X. destruct X as (nxt & N' & I'). exists nxt. split; auto.
    rewrite nth_error_app1; auto. apply nth_error_Some. congruence. }
  assert (BACK : forall nxt c, nth_error (levels ++ [[]]) (S i) = Some nxt -> In c nxt -> In c l).
  { intros nxt c' N' I'. destruct (Nat.lt_ge_cases (S i) (length levels)) as [LT'|GE].
    - rewrite nth_error_app1 in N' by auto. apply (proj2 (HL (S i) c')). eauto.
    - rewrite nth_error_app2 in N' by auto. destruct (S i - length levels)%nat as [|k]; cbn in N'; [injection N' as <-; destruct I'|destruct k; discriminate]. }
  destruct (nth_error (levels ++ [[]]) (S i)) as [nxt|] eqn:E.
  - rewrite filter_In, Z.eqb_eq. split.
    + intros (I' & P). split; auto. eapply BACK; eauto.
    + intros (I' & P). split; auto. destruct (SON I' P) as (nxt' & X & Y). injection X as ->. auto.
  - split; [intros []|]. intros (I' & P). destruct (SON I' P) as (? & ? & _). discriminate.
Qed.

(** ** the owner of a point *)
Section Owner.
  Variable l : list encl.
  Hypothesis T : tree l.
  Variable levels : list (list encl).
  Hypothesis HP : Permutation l (concat levels).
  Hypothesis HL : forall n e, at_level l n e <-> exists lv, nth_error levels n = Some lv /\ In e lv.
  Variable inE : encl -> bool.
  Hypothesis Hnest : forall e c, In e l -> In c l -> pid c = eid e -> inE c = true -> inE e = true.
  Hypothesis Hsib : forall e e', In e l -> In e' l -> pid e = pid e' -> inE e = true -> inE e' = true -> e = e'.

  (** in the enclosure, but in none of its sons *)
  Definition owns (e : encl) : Prop := In e l /\ inE e = true /\ forall c, In c l -> pid c = eid e -> inE c = false.
  Lemma owner_uniq e f : owns e -> owns f -> e = f.
  Proof.
    assert (G : forall n k e f, at_level l n e -> at_level l (n + S k) f -> owns e -> owns f -> False).
    { intros n k e0 f0 A B (_ & I & SN) (_ & I' & _). rewrite <- plus_n_Sm in B.
      replace (S (n + k)) with (S n + k)%nat in B by lia.
      destruct (ancestor l inE Hnest _ _ _ B I') as (g & Ag & Ig). destruct (parent_ex _ _ _ Ag) as (h & Ah & Eh).
      assert (h = e0) as ->.
      { apply (uniq_level l inE Hnest Hsib n); auto. apply (Hnest h g); auto; [apply Ah|apply Ag]. }
      rewrite (SN g) in Ig; [discriminate|apply Ag|auto]. }
    intros Oe Of. destruct (at_level_ex l T e) as (n & A); [apply Oe|]. destruct (at_level_ex l T f) as (m & B); [apply Of|].
    destruct (Nat.lt_trichotomy n m) as [L|[->|L]].
    - exfalso. apply (G n (m - S n)%nat e f); auto. replace (n + S (m - S n))%nat with m by lia. auto.
    - apply (uniq_level l inE Hnest Hsib m); auto; [apply Oe|apply Of].
    - exfalso. apply (G m (n - S m)%nat f e); auto. replace (m + S (n - S m))%nat with n by lia. auto.
  Qed.
  Lemma owner_ex : (exists e, In e l /\ inE e = true) -> exists e, owns e.
  Proof.
    intros (e & Ie & I).
    destruct (at_level_ex l T e Ie) as (n & A).
    assert (G : forall k n e, (length levels - n <= k)%nat -> at_level l n e -> inE e = true -> exists f, owns f).
    { induction k as [|k IH]; intros n0 e0 L A0 I0.
      - apply HL in A0. destruct A0 as (lv & N & _). assert (n0 < length levels)%nat by (apply nth_error_Some; congruence). lia.
      - destruct (existsb (fun c => (pid c =? eid e0) && inE c) l) eqn:X.
        + apply existsb_exists in X. destruct X as (c & Ic & X). apply andb_true_iff in X. destruct X as (P & X). apply Z.eqb_eq in P.
          apply (IH (S n0) c); auto; [|eapply son_level; eauto].
          assert (n0 < length levels)%nat; [|lia]. apply HL in A0. destruct A0 as (lv & N & _). apply nth_error_Some. congruence.
        + exists e0. split; [apply A0|]. split; auto. intros c Ic P. destruct (inE c) eqn:IC; auto.
          assert (existsb (fun c => (pid c =? eid e0) && inE c) l = true) as Y; [|congruence].
          apply existsb_exists. exists c. split; auto. rewrite P, Z.eqb_refl, IC. reflexivity. }
    apply (G (length levels) n e); auto. lia.
  Qed.
  Lemma no_owner : (forall e, at_level l 0 e -> inE e = false) -> forall e, In e l -> inE e = false.
  Proof.
    intros H e Ie. destruct (at_level_ex l T e Ie) as (n & A). destruct (inE e) eqn:X; auto.
    replace n with (0 + n)%nat in A by lia. destruct (ancestor l inE Hnest _ _ _ A X) as (g & Ag & Ig). rewrite H in Ig; auto.
  Qed.

  Lemma levels_nodup : NoDup (concat levels).
  Proof. eapply Permutation_NoDup; [exact HP|]. destruct T as (N & _). eapply NoDup_map_inv; exact N. Qed.
  Lemma levels_in e : In e (concat levels) <-> In e l.
  Proof. split; intros; (eapply Permutation_in; [|eassumption]); [symmetry|]; exact HP. Qed.
End Owner.

(** ** regions *)
Definition region_list (levels all : list (list encl)) (k : nat) : list (option encl * list encl) :=
  flat_map (fun i => map (fun e => (Some e, sons all i e)) (filter (fun e => negb (envel e)) (nth (i - k) levels [])))
           (seq k (length levels)).
Lemma list_sum_flat {A} (f : A -> nat) (ls : list (list A)) : list_sum (map f (concat ls)) = list_sum (map (fun x => list_sum (map f x)) ls).
Proof. induction ls as [|x ls IH]; cbn [concat map]; auto. rewrite map_app, list_sum_app, IH. reflexivity. Qed.
Lemma sum_cons a b : list_sum (a :: b) = (a + list_sum b)%nat.
Proof. reflexivity. Qed.
Lemma sum_one {A} (f : A -> nat) (x : A) : forall ls, NoDup ls -> In x ls -> (forall y, In y ls -> y <> x -> f y = 0%nat) ->
  list_sum (map f ls) = f x.
Proof.
  induction ls as [|y ls IH]; intros N I H; [destruct I|]. inversion N; subst. cbn [map]. change (list_sum (f y :: map f ls)) with (f y + list_sum (map f ls))%nat. destruct I as [->|I].
  - assert (Z : list_sum (map f ls) = 0%nat); [|lia].
    assert (G : forall y, In y ls -> f y = 0%nat) by (intros y Y; apply H; simpl; auto; intros ->; auto).
    clear -G. induction ls as [|y ls IH]; cbn; auto. rewrite (G y) by (simpl; auto). apply IH. intros; apply G; simpl; auto.
  - rewrite (H y); [|simpl; auto|intros ->; auto]. apply IH; auto. intros; apply H; simpl; auto.
Qed.
Lemma sum_zero {A} (f : A -> nat) : forall ls, (forall y, In y ls -> f y = 0%nat) -> list_sum (map f ls) = 0%nat.
Proof. induction ls as [|y ls IH]; intros G; cbn; auto. rewrite (G y) by (simpl; auto). apply IH. intros; apply G; simpl; auto. Qed.

Section Count.
  Variable l : list encl.
  Hypothesis T : tree l.
  Variable levels : list (list encl).
  Hypothesis HP : Permutation l (concat levels).
  Hypothesis HL : forall n e, at_level l n e <-> exists lv, nth_error levels n = Some lv /\ In e lv.
  (** anything counted per region *)
  Variable cnt : option encl -> list encl -> nat.
  Variable g : encl -> nat.
  Hypothesis Hg : forall i e, at_level l i e -> cnt (Some e) (sons (levels ++ [[]]) i e) = g e.

  Lemma regions_sum :
    list_sum (map (fun r => cnt (fst r) (snd r)) (regions (levels ++ [[]]))) =
    (cnt None (nth 0 (levels ++ [[]]) []) + list_sum (map (fun e => if envel e then 0 else g e) (concat levels)))%nat.
  Proof.
    unfold regions. cbn [map list_sum fold_right fst snd]. f_equal. fold (list_sum (map (fun r : option encl * list encl => cnt (fst r) (snd r))
      (flat_map (fun i => map (fun e => (Some e, sons (levels ++ [[]]) i e)) (filter (fun e => negb (envel e)) (nth i (levels ++ [[]]) [])))
         (seq 0 (length (levels ++ [[]])))))).
    rewrite app_length, seq_app, flat_map_app, map_app, list_sum_app. cbn [length seq flat_map]. rewrite (app_nth2 levels) by lia.
    replace (0 + length levels - length levels)%nat with 0%nat by lia. cbn [nth filter map app list_sum fold_right]. rewrite Nat.add_0_r.
    assert (G : forall k ls, (forall i lv, nth_error ls i = Some lv -> nth_error levels (k + i) = Some lv) ->
      list_sum (map (fun r : option encl * list encl => cnt (fst r) (snd r))
        (flat_map (fun i => map (fun e => (Some e, sons (levels ++ [[]]) i e)) (filter (fun e => negb (envel e)) (nth i (levels ++ [[]]) []))) (seq k (length ls)))) =
      list_sum (map (fun e => if envel e then 0%nat else g e) (concat ls))).
    { intros k ls. revert k. induction ls as [|lv ls IH]; intros k H; cbn [length seq flat_map concat]; auto.
      rewrite !map_app, !list_sum_app. f_equal.
      - specialize (H 0%nat lv eq_refl). rewrite Nat.add_0_r in H. rewrite app_nth1 by (apply nth_error_Some; congruence).
        rewrite (nth_error_nth _ _ _ H).
        assert (AT : forall e, In e lv -> at_level l k e) by (intros e Ie; apply HL; eauto).
        clear H. induction lv as [|e lv IH']; cbn [filter map]; auto. destruct (envel e); cbn [negb map fst snd]; rewrite ?sum_cons.
        + rewrite IH'; [reflexivity|]. intros; apply AT; simpl; auto.
        + rewrite (Hg k) by (apply AT; simpl; auto). f_equal. apply IH'. intros; apply AT; simpl; auto.
      - apply IH. intros i lv' N. specialize (H (S i) lv' N). rewrite <- Nat.add_succ_comm in H. exact H. }
    apply (G 0%nat levels). auto.
  Qed.
End Count.
