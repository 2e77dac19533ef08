From Verif Require Import Prelude Vec3 Geom Prim PrimProofs SurfCards AddPlane AddPlaneSpec.
From Coq Require Import List Relations Permutation Sorted.
Open Scope R_scope.

Lemma look_ok {A} (o : option A) e a : look o e = Ok a <-> o = Some a.
Proof. destruct o; cbn; split; intros H; inversion H; auto. Qed.

(** *** sorting *)
Definition nle (a b : node) : Prop := fst a < fst b \/ (fst a = fst b /\ (snd a <= snd b)%nat).
Lemma node_leb_spec a b : node_leb a b = true <-> nle a b.
Proof.
  unfold node_leb, nle. destruct (Rlt_dec (fst a) (fst b)); [tauto|].
  destruct (Rlt_dec (fst b) (fst a)).
  - split; [discriminate|]. intros [H|[H _]]; lra.
  - rewrite Nat.leb_le. split; [right; split; auto; lra | intros [H|[_ H]]; auto; lra].
Qed.
Lemma node_leb_total a b : node_leb a b = false -> nle b a.
Proof.
  unfold node_leb, nle. destruct (Rlt_dec (fst a) (fst b)); [discriminate|].
  destruct (Rlt_dec (fst b) (fst a)); [auto|]. rewrite Nat.leb_gt. intros H. right. split; [lra|lia].
Qed.
Lemma nle_trans a b c : nle a b -> nle b c -> nle a c.
Proof. unfold nle. intros [H|[H H']] [K|[K K']]; [left; lra|left; lra|left; lra|right; split; [lra|lia]]. Qed.
Lemma insert_perm n l : Permutation (n :: l) (insert_node n l).
Proof.
  induction l as [|m r IH]; cbn; auto. destruct (node_leb n m); auto.
  etransitivity; [apply perm_swap|]. auto.
Qed.
Lemma sort_nodes_perm l : Permutation l (sort_nodes l).
Proof. induction l; cbn; auto. etransitivity; [|apply insert_perm]. auto. Qed.
Lemma insert_sorted n l : StronglySorted nle l -> StronglySorted nle (insert_node n l).
Proof.
  induction 1 as [|m r Hs IH Hf]; cbn; [repeat constructor|].
  destruct (node_leb n m) eqn:E.
  - apply node_leb_spec in E. constructor; [constructor; auto|]. constructor; auto.
    rewrite Forall_forall in *. intros x Hx. eapply nle_trans; eauto.
  - apply node_leb_total in E. constructor; auto.
    rewrite Forall_forall in *. intros x Hx.
    apply (Permutation_in x (Permutation_sym (insert_perm n r))) in Hx. destruct Hx as [<-|Hx]; auto.
Qed.
Lemma sort_nodes_sorted l : StronglySorted nle (sort_nodes l).
Proof. induction l; cbn; [constructor|]. apply insert_sorted; auto. Qed.

(** *** positions *)
Lemma first_pos_app k l1 n l2 :
  (forall m, In m l1 -> snd m <> k) -> snd n = k -> first_pos k (l1 ++ n :: l2) = Some (List.length l1).
Proof.
  intros H <-. induction l1 as [|m r IH]; cbn.
  - rewrite Nat.eqb_refl. auto.
  - destruct (Nat.eqb_spec (snd m) (snd n)) as [E|E]; [exfalso; apply (H m); cbn; auto|].
    rewrite IH; auto. intros x Hx. apply H; cbn; auto.
Qed.
Lemma last_pos_none k l : (forall m, In m l -> snd m <> k) -> last_pos k l = None.
Proof.
  induction l as [|m r IH]; cbn; intros H; auto. rewrite IH by auto.
  destruct (Nat.eqb_spec (snd m) k) as [E|E]; auto. exfalso. apply (H m); auto.
Qed.
Lemma last_pos_app k l1 n l2 :
  (forall m, In m l2 -> snd m <> k) -> snd n = k -> last_pos k (l1 ++ n :: l2) = Some (List.length l1).
Proof.
  intros H <-. induction l1 as [|m r IH]; cbn.
  - rewrite last_pos_none by auto. rewrite Nat.eqb_refl. auto.
  - rewrite IH. auto.
Qed.

Lemma filter_split {A} (f : A -> bool) l x r :
  filter f l = x :: r -> exists l1 l2, l = l1 ++ x :: l2 /\ (forall m, In m l1 -> f m = false) /\ f x = true /\ filter f l2 = r.
Proof.
  induction l as [|y t IH]; cbn; [discriminate|]. destruct (f y) eqn:E.
  - intros H. inversion H; subst. exists [], t. repeat split; auto. intros m [].
  - intros H. destruct (IH H) as [l1 [l2 [-> [H1 [H2 H3]]]]]. exists (y :: l1), l2. repeat split; auto.
    intros m [<-|Hm]; auto.
Qed.
Lemma filter_none {A} (f : A -> bool) l : filter f l = [] -> forall m, In m l -> f m = false.
Proof.
  induction l as [|y t IH]; cbn; [intros _ m []|]. destruct (f y) eqn:E; [discriminate|].
  intros H m [<-|Hm]; auto.
Qed.
Lemma filter_perm {A} (f : A -> bool) l l' : Permutation l l' -> Permutation (filter f l) (filter f l').
Proof.
  induction 1; cbn; auto.
  - destruct (f x); auto.
  - destruct (f x), (f y); auto. apply perm_swap.
  - etransitivity; eauto.
Qed.
Lemma filter_sorted (f : node -> bool) l : StronglySorted nle l -> StronglySorted nle (filter f l).
Proof.
  induction 1 as [|m r Hs IH Hf]; cbn; [constructor|]. destruct (f m); auto. constructor; auto.
  rewrite Forall_forall in *. intros x Hx. apply filter_In in Hx as [Hx _]. auto.
Qed.

Section Nodes.
Variable us : nat -> R * R.
Definition pair_nodes (k : nat) : list node := [(fst (us k), k); (snd (us k), k)].

Lemma filter_pairs ks k : NoDup ks -> In k ks ->
  filter (fun n : node => Nat.eqb (snd n) k) (flat_map pair_nodes ks) = pair_nodes k.
Proof.
  assert (Z : forall ks, ~ In k ks -> filter (fun n : node => Nat.eqb (snd n) k) (flat_map pair_nodes ks) = []).
  { clear ks. induction ks as [|j r IH]; cbn; intros H; auto.
    destruct (Nat.eqb_spec j k) as [E|E]; [exfalso; auto|]. apply IH. tauto. }
  induction 1 as [|j r Hj Hr IH]; [intros []|]. intros [<-|Hk]; cbn.
  - rewrite Nat.eqb_refl. rewrite Z; auto.
  - destruct (Nat.eqb_spec j k) as [E|E]; [subst; tauto|]. auto.
Qed.

Variable ks : list nat.
Hypothesis Hnd : NoDup ks.
Hypothesis Hle : forall k, In k ks -> fst (us k) <= snd (us k).
Let ns := sort_nodes (flat_map pair_nodes ks).

Lemma sorted_pair k : In k ks -> filter (fun n : node => Nat.eqb (snd n) k) ns = pair_nodes k.
Proof.
  intros Hk.
  assert (P : Permutation (pair_nodes k) (filter (fun n : node => Nat.eqb (snd n) k) ns)).
  { rewrite <- (filter_pairs ks k Hnd Hk). apply filter_perm, sort_nodes_perm. }
  assert (SS : StronglySorted nle (filter (fun n : node => Nat.eqb (snd n) k) ns)) by apply filter_sorted, sort_nodes_sorted.
  unfold pair_nodes in *. apply Permutation_length_2_inv in P as [P|P]; [auto|].
  rewrite P in *. inversion SS as [|? ? _ Hf]; subst. inversion Hf as [|? ? Hn _]; subst.
  specialize (Hle k Hk). unfold nle in Hn; cbn in Hn. f_equal; [|f_equal]; f_equal; lra.
Qed.

Lemma nodes_split k : In k ks -> exists l1 l2 l3,
  ns = l1 ++ (fst (us k), k) :: l2 ++ (snd (us k), k) :: l3
  /\ (forall m, In m l1 \/ In m l2 \/ In m l3 -> snd m <> k).
Proof.
  intros Hk. pose proof (sorted_pair k Hk) as E. unfold pair_nodes in E.
  apply filter_split in E as [l1 [l2 [E1 [H1 [_ E2]]]]].
  apply filter_split in E2 as [l3 [l4 [-> [H3 [_ E3]]]]].
  pose proof (filter_none _ _ E3) as H4.
  exists l1, l3, l4. split; auto. intros m [Hm|[Hm|Hm]]; [apply H1 in Hm|apply H3 in Hm|apply H4 in Hm]; apply Nat.eqb_neq; auto.
Qed.

(** positions of the two ends of face k *)
Definition P (k : nat) : nat := match first_pos k ns with Some i => i | None => 0%nat end.
Definition Q (k : nat) : nat := match last_pos k ns with Some i => i | None => 0%nat end.

Lemma pos_facts k : In k ks ->
  first_pos k ns = Some (P k) /\ pos_max ns k = Some (Q k) /\ (P k < Q k)%nat
  /\ nth_error ns (P k) = Some (fst (us k), k) /\ nth_error ns (Q k) = Some (snd (us k), k).
Proof.
  intros Hk. destruct (nodes_split k Hk) as [l1 [l2 [l3 [E H]]]].
  assert (F : first_pos k ns = Some (List.length l1)) by (rewrite E; apply first_pos_app; auto).
  assert (L : last_pos k ns = Some (List.length (l1 ++ (fst (us k), k) :: l2))).
  { rewrite E. replace (l1 ++ (fst (us k), k) :: l2 ++ (snd (us k), k) :: l3)
      with ((l1 ++ (fst (us k), k) :: l2) ++ (snd (us k), k) :: l3) by (rewrite <- app_assoc; auto).
    apply last_pos_app; auto. }
  assert (LT : (List.length l1 < List.length (l1 ++ (fst (us k), k) :: l2))%nat) by (rewrite app_length; cbn; lia).
  unfold P, Q, pos_max. rewrite F, L. apply Nat.ltb_lt in LT as LT'. rewrite LT'. repeat split; auto.
  - rewrite E, nth_error_app2, Nat.sub_diag by lia. auto.
  - rewrite E. replace (l1 ++ (fst (us k), k) :: l2 ++ (snd (us k), k) :: l3)
      with ((l1 ++ (fst (us k), k) :: l2) ++ (snd (us k), k) :: l3) by (rewrite <- app_assoc; auto).
    rewrite nth_error_app2, Nat.sub_diag by lia. auto.
Qed.

Lemma in_nodes n : In n ns -> In (snd n) ks.
Proof.
  intros H. apply (Permutation_in n (Permutation_sym (sort_nodes_perm _))) in H.
  apply in_flat_map in H as [k [Hk [<-|[<-|[]]]]]; auto.
Qed.

Lemma owner i n : nth_error ns i = Some n -> In (snd n) ks /\ (i = P (snd n) \/ i = Q (snd n)).
Proof.
  intros Hi. assert (Hk : In (snd n) ks) by (apply in_nodes; eapply nth_error_In; eauto). split; auto.
  destruct (pos_facts _ Hk) as (F & M & LT & Hp & Hq).
  destruct (nodes_split _ Hk) as [l1 [l2 [l3 [E H]]]]. set (k := snd n) in *.
  assert (F' : first_pos k ns = Some (List.length l1)) by (rewrite E; apply first_pos_app; auto).
  assert (L : last_pos k ns = Some (List.length (l1 ++ (fst (us k), k) :: l2))).
  { rewrite E. replace (l1 ++ (fst (us k), k) :: l2 ++ (snd (us k), k) :: l3)
      with ((l1 ++ (fst (us k), k) :: l2) ++ (snd (us k), k) :: l3) by (rewrite <- app_assoc; auto).
    apply last_pos_app; auto. }
  unfold P, Q. rewrite F', L. clear F M LT Hp Hq F' L.
  rewrite E in Hi. destruct (Nat.lt_trichotomy i (List.length l1)) as [L|[L|L]]; auto.
  - rewrite nth_error_app1 in Hi by auto. apply nth_error_In in Hi. exfalso. apply (H n); auto.
  - rewrite nth_error_app2 in Hi by lia. destruct (i - List.length l1)%nat as [|j] eqn:Ej; [lia|]. cbn in Hi.
    destruct (Nat.lt_trichotomy j (List.length l2)) as [L'|[L'|L']].
    + rewrite nth_error_app1 in Hi by auto. apply nth_error_In in Hi. exfalso. apply (H n); auto.
    + right. rewrite app_length. cbn. lia.
    + rewrite nth_error_app2 in Hi by lia. destruct (j - List.length l2)%nat as [|j'] eqn:Ej'; [lia|]. cbn in Hi.
      apply nth_error_In in Hi. exfalso. apply (H n); auto.
Qed.

Lemma sorted_nth i j a b : (i <= j)%nat -> nth_error ns i = Some a -> nth_error ns j = Some b -> fst a <= fst b.
Proof.
  assert (SS : StronglySorted nle ns) by apply sort_nodes_sorted.
  clearbody ns. revert i j. induction SS as [|m r Hs IH Hf]; intros i j L Ha Hb.
  - destruct i; discriminate.
  - destruct i as [|i], j as [|j]; cbn in *; try lia.
    + inversion Ha; inversion Hb; subst. lra.
    + inversion Ha; subst. rewrite Forall_forall in Hf. apply nth_error_In in Hb. destruct (Hf b Hb) as [K|[K _]]; lra.
    + eapply (IH i j); eauto. lia.
Qed.

Lemma pq_sorted i j k k' : (i <= j)%nat -> In k ks -> In k' ks -> 
  (i = P k -> j = P k' -> fst (us k) <= fst (us k')) /\
  (i = P k -> j = Q k' -> fst (us k) <= snd (us k')) /\
  (i = Q k -> j = P k' -> snd (us k) <= fst (us k')) /\
  (i = Q k -> j = Q k' -> snd (us k) <= snd (us k')).
Proof.
  intros L Hk Hk'. destruct (pos_facts k Hk) as (_ & _ & _ & Hp & Hq).
  destruct (pos_facts k' Hk') as (_ & _ & _ & Hp' & Hq').
  repeat split; intros -> ->; [apply (sorted_nth _ _ _ _ L Hp Hp')|apply (sorted_nth _ _ _ _ L Hp Hq')
    |apply (sorted_nth _ _ _ _ L Hq Hp')|apply (sorted_nth _ _ _ _ L Hq Hq')].
Qed.

(** *** the scan *)
Lemma scan_spec x later : (forall n, In n later -> In (snd n) ks) ->
  (exists m n, In n later /\ m = snd n /\ fst (us m) < x + gap /\ scan ns x later = Ok (Some (Q m)))
  \/ ((forall n, In n later -> x + gap <= fst (us (snd n))) /\ scan ns x later = Ok None).
Proof.
  induction later as [|n r IH]; cbn; intros H; [right; split; [intros n []|auto]|].
  destruct (pos_facts (snd n)) as (F & M & _ & Hp & _); [auto|].
  rewrite F. cbn. rewrite Hp. cbn. destruct (rltb (fst (us (snd n)) - x) gap) eqn:E.
  - apply rltb_true in E. rewrite M. cbn. left. exists (snd n), n. repeat split; auto. lra.
  - apply rltb_false in E. destruct IH as [[m [n' [H1 [H2 [H3 H4]]]]]|[H1 H2]]; [auto| |].
    + left. exists m, n'. auto.
    + right. split; auto. intros n' [<-|Hn']; auto. lra.
Qed.

Notation conn := (joined gap us ks).
Lemma gap_pos : 0 < gap.
Proof. unfold gap. lra. Qed.
Lemma conn_step k k' : In k ks -> In k' ks -> near gap us k k' -> conn k k'.
Proof. intros. apply rt_step. auto. Qed.
Lemma conn_trans a b c : conn a b -> conn b c -> conn a c.
Proof. apply rt_trans. Qed.
Lemma conn_sym a b : conn a b -> conn b a.
Proof.
  induction 1 as [a b [Ha [Hb [H1 H2]]]|a|a b c _ IH1 _ IH2]; [|apply rt_refl|eapply rt_trans; eauto].
  apply rt_step. repeat split; auto.
Qed.

(** what is returned from position [p0] on *)
Inductive good : nat -> list (node * node) -> Prop :=
| good_nil p0 : (List.length ns <= p0)%nat -> good p0 []
| good_cons p0 k0 c rest :
    In k0 ks -> In c ks -> p0 = P k0 -> (p0 <= P c)%nat ->
    (forall k, In k ks -> (p0 <= P k)%nat ->
       ((Q k <= Q c)%nat /\ conn k0 k) \/ ((Q c < P k)%nat /\ snd (us c) + gap <= fst (us k))) ->
    good (S (Q c)) rest ->
    good p0 (((fst (us k0), k0), (snd (us c), c)) :: rest).

(** the faces all begin at or after [p0] or end before it *)
Definition cut (p0 : nat) : Prop := forall k, In k ks -> (p0 <= P k)%nat \/ (Q k < p0)%nat.

Lemma q_lt k : In k ks -> (Q k < List.length ns)%nat.
Proof. intros Hk. destruct (pos_facts k Hk) as (_ & _ & _ & _ & Hq). apply nth_error_Some. congruence. Qed.

Lemma skipn_In (l : list node) i n : In n (skipn i l) -> exists j, (i <= j)%nat /\ nth_error l j = Some n.
Proof.
  revert l. induction i as [|i IH]; intros l H.
  - cbn in H. apply In_nth_error in H as [j Hj]. exists j. split; auto. lia.
  - destruct l as [|a r]; cbn in H; [destruct H|]. apply IH in H as [j [H1 H2]]. exists (S j). split; auto. lia.
Qed.
Lemma In_skipn (l : list node) i j n : (i <= j)%nat -> nth_error l j = Some n -> In n (skipn i l).
Proof.
  revert l j. induction i as [|i IH]; intros l j L H.
  - cbn. eapply nth_error_In; eauto.
  - destruct l as [|a r]; [destruct j; discriminate|]. destruct j as [|j]; [lia|]. cbn in *. apply (IH r j); auto; lia.
Qed.

Lemma runs_spec : forall fuel p0 k0 c acc,
  (List.length ns - Q c < fuel)%nat ->
  In k0 ks -> In c ks -> p0 = P k0 -> (p0 <= P c)%nat -> cut p0 ->
  (forall k, In k ks -> (p0 <= P k)%nat -> (Q k <= Q c)%nat -> conn k0 k) ->
  exists rest, runs fuel ns (fst (us k0), k0) (Q c) acc = Ok (acc ++ rest) /\ good p0 rest.
Proof.
  induction fuel as [|f IH]; intros p0 k0 c acc Hf Hk0 Hc Hp0 Hpc Hcut Hconn; [lia|].
  cbn [runs]. destruct (pos_facts c Hc) as (_ & _ & Hlt & Hp & Hq). rewrite Hq. cbn [look bind fst].
  pose proof (q_lt c Hc) as Hlen. pose proof gap_pos as G.
  destruct (scan_spec (snd (us c)) (skipn (S (Q c)) ns)) as [[m [n [Hn [Hm [Hlo E]]]]]|[Hall E]].
  { intros n Hn. apply skipn_In in Hn as [j [_ Hj]]. apply (owner _ _ Hj). }
  - rewrite E. cbn [bind]. apply skipn_In in Hn as [j [Hj Hnj]].
    destruct (owner _ _ Hnj) as [Hmk Hown]. rewrite <- Hm in *.
    destruct (pos_facts m Hmk) as (_ & _ & Hltm & Hpm & Hqm).
    assert (HQ : (Q c < Q m)%nat) by (destruct Hown; lia).
    assert (Hcm : conn c m).
    { apply conn_step; auto. split; [auto|].
      destruct (pq_sorted (Q c) (Q m) c m) as (_ & _ & _ & B); try lia; auto.
      specialize (B eq_refl eq_refl). pose proof (Hle c Hc). lra. }
    assert (Hkc : conn k0 c) by (apply Hconn; auto).
    assert (Hpm0 : (p0 <= P m)%nat).
    { destruct (Hcut m Hmk) as [|Hbad]; auto. lia. }
    apply (IH p0 k0 m acc); auto; try lia.
    intros k Hk Hpk Hqk. destruct (Nat.le_gt_cases (Q k) (Q c)) as [L|L]; [apply Hconn; auto|].
    destruct (pq_sorted (Q c) (Q k) c k) as (_ & _ & _ & B); try lia; auto. specialize (B eq_refl eq_refl).
    destruct (pq_sorted (Q k) (Q m) k m) as (_ & _ & _ & B'); auto. specialize (B' eq_refl eq_refl).
    pose proof (Hle c Hc). pose proof (Hle k Hk). pose proof (Hle m Hmk).
    destruct (Rlt_dec (fst (us k)) (snd (us c) + gap)) as [N|N].
    + eapply conn_trans; [exact Hkc|]. apply conn_step; auto. split; lra.
    + eapply conn_trans; [exact Hkc|]. eapply conn_trans; [exact Hcm|]. apply conn_step; auto. split; lra.
  - rewrite E. cbn [bind]. cbv zeta.
    assert (Hdone : forall k, In k ks -> (p0 <= P k)%nat ->
       ((Q k <= Q c)%nat /\ conn k0 k) \/ ((Q c < P k)%nat /\ snd (us c) + gap <= fst (us k))).
    { intros k Hk Hpk. destruct (Nat.le_gt_cases (Q k) (Q c)) as [L|L]; [left; split; auto|]. right.
      destruct (pos_facts k Hk) as (_ & _ & Hltk & Hpk' & Hqk').
      assert (K : snd (us c) + gap <= fst (us k)).
      { apply (Hall (snd (us k), k)). eapply In_skipn; [|eauto]. lia. }
      split; auto. destruct (Nat.le_gt_cases (P k) (Q c)) as [L'|L']; [|lia]. exfalso.
      destruct (pq_sorted (P k) (Q c) k c) as (_ & B & _ & _); auto. specialize (B eq_refl eq_refl). lra. }
    destruct (nth_error ns (S (Q c))) as [u|] eqn:Eu.
    + destruct (owner _ _ Eu) as [Huk Hown]. destruct u as [uv uk]. cbn [snd] in *.
      destruct (pos_facts uk Huk) as (_ & M & Hltu & Hpu & Hqu). rewrite M. cbn [look bind].
      assert (Hpuk : (p0 <= P uk)%nat).
      { destruct (Hcut uk Huk) as [|Hbad]; auto. destruct Hown; lia. }
      assert (Hown' : S (Q c) = P uk).
      { destruct Hown as [Ho|Ho]; auto. destruct (Hdone uk Huk Hpuk) as [[B _]|[B _]]; lia. }
      assert (Huv : uv = fst (us uk)) by (rewrite Hown' in Eu; congruence). subst uv.
      destruct (IH (S (Q c)) uk uk (acc ++ [(fst (us k0), k0, (snd (us c), c))])) as [rest [E' Hg]]; auto; try lia.
      * intros k Hk. destruct (Nat.le_gt_cases p0 (P k)) as [L|L].
        { destruct (Hdone k Hk L) as [[B _]|[B _]]; [right|left]; lia. }
        right. destruct (Hcut k Hk) as [B|B]; [lia|]. lia.
      * intros k Hk Hpk Hqk. apply conn_step; auto.
        destruct (pq_sorted (P uk) (P k) uk k) as (B & _); auto; [lia|]. specialize (B eq_refl eq_refl).
        destruct (pq_sorted (Q k) (Q uk) k uk) as (_ & _ & _ & B'); auto. specialize (B' eq_refl eq_refl).
        pose proof (Hle k Hk). pose proof (Hle uk Huk). split; lra.
      * exists (((fst (us k0), k0), (snd (us c), c)) :: rest). split.
        { etransitivity; [exact E'|]. rewrite <- app_assoc. reflexivity. }
        econstructor; eauto.
    + exists [((fst (us k0), k0), (snd (us c), c))]. split; auto. econstructor; eauto. constructor.
      apply nth_error_None in Eu. lia.
Qed.

(** *** the result *)
Hypothesis Hne : ks <> [].

Lemma ns_first : exists k0, In k0 ks /\ P k0 = 0%nat /\ nth_error ns 0 = Some (fst (us k0), k0).
Proof.
  destruct (nth_error ns 0) as [[x k]|] eqn:E.
  - destruct (owner _ _ E) as [Hk Ho]. cbn [snd] in *. destruct (pos_facts k Hk) as (_ & _ & L & Hp & _).
    assert (H : P k = 0%nat) by lia. exists k. split; [auto|]. split; [auto|]. rewrite H in Hp. congruence.
  - exfalso. assert (X : exists k, In k ks) by (revert Hne; clear; destruct ks as [|k r]; [tauto|exists k; left; auto]).
    destruct X as [k Hk]. pose proof (q_lt k Hk). apply nth_error_None in E. lia.
Qed.

Lemma intervals_good : exists rs, get_intervals ns = Ok (map (add_index ns) rs) /\ good 0 rs.
Proof.
  destruct ns_first as [k0 [Hk0 [Hp0 E]]]. destruct (pos_facts k0 Hk0) as (_ & M & L & _ & _).
  unfold get_intervals. rewrite E. cbn [look bind snd]. rewrite M. cbn [look bind].
  destruct (runs_spec (S (List.length ns)) 0%nat k0 k0 []) as [rest [Er Hg]]; auto; try lia.
  - intros k Hk. left. lia.
  - intros k Hk _ Hqk. apply conn_step; auto.
    destruct (pq_sorted (P k0) (P k) k0 k) as (B & _); auto; [lia|]. specialize (B eq_refl eq_refl).
    destruct (pq_sorted (Q k) (Q k0) k k0) as (_ & _ & _ & B'); auto. specialize (B' eq_refl eq_refl).
    pose proof (Hle k Hk). pose proof (Hle k0 Hk0). pose proof gap_pos. split; lra.
  - exists rest. rewrite Er. auto.
Qed.

(** the ranges, in terms of the faces only *)
Definition range_of (r : rng) : Prop :=
  exists k0 c, In k0 (r_idx r) /\ In c (r_idx r) /\ r_min r = (fst (us k0), k0) /\ r_max r = (snd (us c), c)
  /\ (forall k, In k (r_idx r) -> In k ks /\ fst (us k0) <= fst (us k) /\ snd (us k) <= snd (us c) /\ conn k0 k).
Definition before (r r' : rng) : Prop := fst (r_max r) + gap <= fst (r_min r').

Lemma index_spec k0 c : In k0 ks -> In c ks -> (P k0 <= P c)%nat ->
  (forall k, In k ks -> (P k0 <= P k)%nat /\ (Q k <= Q c)%nat
     \/ snd (us k) + gap <= fst (us k0) \/ snd (us c) + gap <= fst (us k)) ->
  forall k, In k (r_idx (add_index ns ((fst (us k0), k0), (snd (us c), c)))) <-> In k ks /\ (P k0 <= P k)%nat /\ (Q k <= Q c)%nat.
Proof.
  intros Hk0 Hc Hpc H k. pose proof gap_pos as G. cbn [r_idx add_index fst snd]. rewrite in_map_iff. split.
  - intros [[x j] [<- Hn]]. cbn [snd]. apply filter_In in Hn as [Hn Hb]. cbn [fst] in Hb.
    apply andb_true_iff in Hb as [B1 B2]. apply rltb_true in B1, B2.
    pose proof Hn as Hn'. apply in_nodes in Hn. cbn [snd] in Hn. split; auto.
    apply In_nth_error in Hn' as [i Hi]. destruct (owner _ _ Hi) as [_ Ho]. cbn [snd] in Ho.
    destruct (pos_facts j Hn) as (_ & _ & _ & Hp & Hq). pose proof (Hle j Hn).
    assert (X : x = fst (us j) \/ x = snd (us j)).
    { destruct Ho as [Ho|Ho]; rewrite Ho in Hi; [left|right]; [pose proof (eq_trans (eq_sym Hi) Hp) as Y|pose proof (eq_trans (eq_sym Hi) Hq) as Y]; injection Y as Y; auto. }
    destruct (H j Hn) as [|[B|B]]; auto; exfalso; destruct X; subst x; lra.
  - intros [Hk [L1 L2]]. exists (fst (us k), k). split; auto. apply filter_In. split.
    + destruct (pos_facts k Hk) as (_ & _ & _ & Hp & _). eapply nth_error_In; eauto.
    + cbn [fst]. destruct (pq_sorted (P k0) (P k) k0 k) as (B & _); auto. specialize (B eq_refl eq_refl).
      destruct (pq_sorted (Q k) (Q c) k c) as (_ & _ & _ & B'); auto. specialize (B' eq_refl eq_refl).
      pose proof (Hle k Hk). apply andb_true_iff. split; apply rltb_true; lra.
Qed.

Lemma good_ranges p0 rs : good p0 rs -> cut p0 ->
  (forall k k', In k ks -> In k' ks -> (Q k < p0)%nat -> (p0 <= P k')%nat -> snd (us k) + gap <= fst (us k')) ->
  let rs := map (add_index ns) rs in
  Forall range_of rs /\ StronglySorted before rs
  /\ Forall (fun r => exists k, In k ks /\ (p0 <= P k)%nat /\ fst (r_min r) = fst (us k)) rs
  /\ (forall k, In k ks -> (p0 <= P k)%nat -> exists r, In r rs /\ In k (r_idx r)).
Proof.
  induction 1 as [p0 Hlen|p0 k0 c rest Hk0 Hc Hp0 Hpc Hdone Hg IH]; intros Hcut Hsep; cbn zeta.
  - cbn. repeat split; try constructor. intros k Hk L. exfalso.
    destruct (pos_facts k Hk) as (_ & _ & _ & Hp & _). assert (P k < List.length ns)%nat by (apply nth_error_Some; congruence). lia.
  - assert (Hcut' : cut (S (Q c))).
    { intros k Hk. destruct (Hcut k Hk) as [L|L].
      - destruct (Hdone k Hk L) as [[B _]|[B _]]; [right|left]; lia.
      - right. destruct (pos_facts c Hc) as (_ & _ & B & _). lia. }
    assert (Hsep' : forall k k', In k ks -> In k' ks -> (Q k < S (Q c))%nat -> (S (Q c) <= P k')%nat -> snd (us k) + gap <= fst (us k')).
    { intros k k' Hk Hk' L L'. destruct (pos_facts c Hc) as (_ & _ & B & _).
      assert (snd (us k) <= snd (us c)). { destruct (pq_sorted (Q k) (Q c) k c) as (_ & _ & _ & X); auto; lia. }
      destruct (Hdone k' Hk') as [[B' _]|[_ B']]; [lia| |lra]. destruct (pos_facts k' Hk') as (_ & _ & B2 & _). lia. }
    destruct (IH Hcut' Hsep') as (I1 & I2 & I3 & I4). clear IH. cbn zeta in *.
    assert (Hidx : forall k, In k (r_idx (add_index ns ((fst (us k0), k0), (snd (us c), c)))) <-> In k ks /\ (P k0 <= P k)%nat /\ (Q k <= Q c)%nat).
    { apply index_spec; auto; [lia|]. intros k Hk. destruct (Hcut k Hk) as [L|L].
      - destruct (Hdone k Hk L) as [[B _]|[_ B]]; [left; split; lia|auto].
      - right. left. apply Hsep; auto. lia. }
    assert (Hq0 : (Q k0 <= Q c)%nat).
    { destruct (Hdone k0 Hk0) as [[B _]|[B _]]; auto; [lia|]. destruct (pos_facts c Hc) as (_ & _ & B2 & _).
      destruct (pos_facts k0 Hk0) as (_ & _ & B3 & _). lia. }
    cbn [map]. repeat split.
    + constructor; auto. exists k0, c. cbn [r_min r_max add_index fst snd].
      split; [apply Hidx; auto|]. split; [apply Hidx; split; auto; lia|]. split; auto. split; auto.
      intros k Hk. apply Hidx in Hk as [Hk [L1 L2]]. split; auto.
      destruct (pq_sorted (P k0) (P k) k0 k) as (B & _); auto. specialize (B eq_refl eq_refl).
      destruct (pq_sorted (Q k) (Q c) k c) as (_ & _ & _ & B'); auto. specialize (B' eq_refl eq_refl).
      split; auto. split; auto. destruct (Hdone k Hk) as [[_ X]|[X _]]; auto; [lia|].
      destruct (pos_facts k Hk) as (_ & _ & B3 & _). lia.
    + constructor; auto. rewrite Forall_forall in I3 |- *. intros r Hr. destruct (I3 r Hr) as [k [Hk [L E]]].
      unfold before. rewrite E. cbn [r_max add_index fst snd]. apply Hsep'; auto.
    + constructor.
      * exists k0. cbn. repeat split; auto. lia.
      * rewrite Forall_forall in I3 |- *. intros r Hr. destruct (I3 r Hr) as [k [Hk [L E]]]. exists k. repeat split; auto.
        destruct (pos_facts c Hc) as (_ & _ & B & _). lia.
    + intros k Hk L. destruct (Hdone k Hk L) as [[B _]|[B _]].
      * eexists. split; [left; reflexivity|]. apply Hidx. repeat split; auto. lia.
      * destruct (I4 k Hk) as [r [Hr Hi]]; [lia|]. exists r. split; [right; auto|auto].
Qed.

Definition ranges (rs : list rng) : Prop :=
  Forall range_of rs /\ StronglySorted before rs /\ (forall k, In k ks -> exists r, In r rs /\ In k (r_idx r)).

Lemma intervals_ranges : exists rs, get_intervals ns = Ok rs /\ ranges rs.
Proof.
  destruct intervals_good as [rs [E G]]. exists (map (add_index ns) rs). split; auto.
  destruct (good_ranges 0 rs G) as (H1 & H2 & _ & H4).
  - intros k Hk. left. lia.
  - intros; lia.
  - split; auto. split; auto. intros k Hk. apply H4; auto. lia.
Qed.
End Nodes.
