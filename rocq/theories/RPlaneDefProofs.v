(** change_surf, plane_definition. *)
From Verif Require Import Prelude BoolSpec BoolSeq BoolProofs BoolTotal BoolEditProofs RBool RBoolProofs Vec3 Prim RBox RPlanes.
Open Scope Z_scope.

(** no constants, no surface 0 *)
Fixpoint gd (n : node) : Prop :=
  match n with
  | Lit z => z <> 0
  | Cst _ _ _ => False
  | Seq _ _ l => fold_right (fun c p => gd c /\ p) True l
  end.
Lemma gd_seq op lev l : gd (Seq op lev l) <-> Forall gd l.
Proof. cbn. induction l; cbn; rewrite ?Forall_cons_iff; [split; auto|]. rewrite IHl. tauto. Qed.
Lemma gd_nz n : gd n -> nz n.
Proof.
  induction n as [z|op lev b|op lev l IH] using node_ind'; auto; [intros []|]. rewrite gd_seq, nz_seq.
  intros H. rewrite Forall_forall in *. auto.
Qed.
Lemma rclean_gd n : gd n -> is_const (rclean n) = true \/ gd (rclean n).
Proof.
  induction n as [z|op lev b|op lev l IH] using node_ind'; intros G; [right; exact G|left; reflexivity|].
  cbn [rclean]. destruct (clean_list rclean op l) as [b|l'] eqn:E; [left; reflexivity|].
  destruct l' as [|x l']; [left; reflexivity|]. right. cbn [rclean_end]. apply gd_seq in G. apply gd_seq.
  rewrite Forall_forall in IH, G. revert E. generalize (x :: l'). clear x l'. clear lev.
  induction l as [|e l IHl]; intros l' E; cbn [clean_list] in E; [injection E as <-; constructor|].
  destruct (clean_list rclean op l) as [b|r'] eqn:E'; [discriminate|].
  assert (F : Forall gd r') by (apply IHl; auto; intros y Hy; [apply IH|apply G]; right; exact Hy).
  destruct (IH e (or_introl eq_refl) (G e (or_introl eq_refl))) as [C|C]; destruct (rclean e) as [z|o lv b|o lv xs]; try discriminate; try (now destruct C).
  - destruct (eqb b (absorbing op)); [discriminate|]. injection E as <-. exact F.
  - injection E as <-. constructor; auto.
  - injection E as <-. constructor; auto.
Qed.
Lemma rclean_lits_in z n : In z (lits (rclean n)) -> In z (lits n).
Proof.
  induction n as [y|op lev b|op lev l IH] using node_ind'; auto. cbn [rclean]. destruct (clean_list rclean op l) as [b|l'] eqn:E; [intros []|].
  destruct l' as [|x l']; [intros []|]. cbn [rclean_end lits]. intros I. apply in_flat_map in I. destruct I as (e & I & Ie).
  destruct (clean_list_incl _ _ _ _ E e I) as (e0 & I0 & Q). rewrite Forall_forall in IH. apply in_flat_map. exists e0. split; auto. apply IH; auto. congruence.
Qed.

(** * The two directions: [R up a b]: b contains a (up), or is contained in a *)
Section Dir.
  Variable up : bool.
  Definition R2 (a b : bool) : Prop := if up then a = true -> b = true else b = true -> a = true.
  Lemma R2_refl a : R2 a a. Proof. unfold R2. destruct up; auto. Qed.
  Lemma R2_trans a b c : R2 a b -> R2 b c -> R2 a c. Proof. unfold R2. destruct up; auto. Qed.
  Lemma R2_opb op a b c d : R2 a b -> R2 c d -> R2 (opb op a c) (opb op b d).
  Proof. unfold R2. destruct up, op, a, b, c, d; cbn; auto. Qed.

  Variable u : point.
  Definition eve (e : elt) : bool := match e with EN n => eval u n | EB b => b end.
  Definition evle (op : bop) (l : list elt) : bool := fold_right (fun e k => opb op (eve e) k) (neutral op) l.
  Definition evr (op : bop) (r : bool + list elt) : bool := match r with inl b => b | inr l => evle op l end.
  Lemma evle_app op l1 l2 : evle op (l1 ++ l2) = opb op (evle op l1) (evle op l2).
  Proof. 
    induction l1 as [|e l1 IH]; [cbn; destruct op; reflexivity|]. cbn [app evle fold_right]. fold (evle op (l1 ++ l2)) (evle op l1).
    rewrite IH. destruct op; cbn; [apply andb_assoc|apply orb_assoc].
  Qed.
  Lemma evle_split op l i e : nth_error l i = Some e -> evle op l = opb op (eve e) (evle op (remove_at i l)).
  Proof.
    revert i. induction l as [|x l IH]; intros [|i] H; cbn in H; try discriminate; [injection H as ->; reflexivity|].
    cbn [evle fold_right remove_at]. fold (evle op l) (evle op (remove_at i l)). rewrite (IH i H). destruct op, (eve x), (eve e), (evle _ _); reflexivity.
  Qed.
  Lemma evle_repl op l i e e' : nth_error l i = Some e -> evle op (firstn i l ++ e' :: skipn (S i) l) = opb op (eve e') (evle op (remove_at i l)).
  Proof.
    revert i. induction l as [|x l IH]; intros [|i] H; cbn in H; try discriminate; [reflexivity|].
    change (opb op (eve x) (evle op (firstn i l ++ e' :: skipn (S i) l)) = opb op (eve e') (opb op (eve x) (evle op (remove_at i l)))). rewrite (IH i H). destruct op, (eve x), (eve e'), (evle _ _); reflexivity.
  Qed.
  Definition okl (e : elt) : Prop := e <> EN (Lit 0) /\ (up = true \/ e <> EB true).
  Lemma remove_first_sub {A} (p : A -> bool) l e : In e (remove_first p l) -> In e l.
  Proof. induction l as [|x l IH]; cbn; auto. destruct (p x); cbn; intuition. Qed.
  Lemma remove_at_sub {A} i (l : list A) e : In e (remove_at i l) -> In e l.
  Proof. revert i. induction l as [|x l IH]; intros [|i]; cbn; intuition eauto. Qed.
  Lemma repl_sub {A} i (l : list A) (e' e : A) : In e (firstn i l ++ e' :: skipn (S i) l) -> e = e' \/ In e l.
  Proof.
    intros I. apply in_app_or in I. destruct I as [I|[I|I]]; auto; right.
    - rewrite <- (firstn_skipn i l). apply in_or_app. auto.
    - rewrite <- (firstn_skipn (S i) l). apply in_or_app. auto.
  Qed.
  Lemma remove_first_eval op b l : b = neutral op -> In (EB b) l -> Forall okl l ->
    R2 (evle op l) (evle op (remove_first (same_py b) l)).
  Proof.
    intros -> I F. induction l as [|x l IH]; [destruct I|]. cbn [remove_first]. apply Forall_cons_iff in F. destruct F as ((F1 & F2) & F).
    destruct (same_py (neutral op) x) eqn:E.
    - cbn [evle fold_right]. fold (evle op l). destruct x as [[z|o lv c|o lv xs]|c]; cbn in E; try discriminate.
      + destruct op; cbn in E; [|apply Z.eqb_eq in E; subst z; congruence].
        apply Z.eqb_eq in E. subst z. destruct F2 as [U|U].
        * unfold R2. rewrite U. cbn. destruct (u 1); cbn; auto; discriminate.
        * clear IH F1 U. destruct I as [I|I]; [discriminate|]. rewrite Forall_forall in F. destruct (F _ I) as (_ & [U|U]); [|cbn in U; congruence].
          unfold R2. rewrite U. cbn. destruct (u 1); cbn; auto; discriminate.
      + apply eqb_prop in E. subst c. cbn. destruct op; apply R2_refl.
    - cbn [evle fold_right]. fold (evle op l) (evle op (remove_first (same_py (neutral op)) l)). apply R2_opb; [apply R2_refl|]. apply IH; auto.
      destruct I as [->|I]; auto. cbn in E. rewrite eqb_reflx in E. discriminate.
  Qed.
  Lemma absorb op l i e : nth_error l i = Some e -> eve e = absorbing op -> evle op l = absorbing op.
  Proof. intros H E. rewrite (evle_split op l i e H), E. destruct op; reflexivity. Qed.
  Lemma neutral_of op b : eqb b (absorbing op) = false -> b = neutral op.
  Proof. destruct op, b; cbn; congruence. Qed.
  Lemma raw_clean_eval op : forall k l, Forall okl l -> R2 (evle op l) (evr op (raw_clean k op l)).
  Proof.
    induction k as [|k IH]; intros l F; [apply R2_refl|]. cbn [raw_clean].
    destruct (nth_error l k) as [e|] eqn:E; [|apply IH; auto].
    assert (Ie : In e l) by (eapply nth_error_In; eauto).
    destruct e as [n|b].
    - assert (G : match n with Lit _ => raw_clean k op l | e0 => match rclean e0 with Cst _ _ b => if eqb b (absorbing op) then inl b else raw_clean k op (remove_at k l) | e' => raw_clean k op (firstn k l ++ EN e' :: skipn (S k) l) end end =
        match n with Lit _ => raw_clean k op l | _ => match rclean n with Cst _ _ b => if eqb b (absorbing op) then inl b else raw_clean k op (remove_at k l) | e' => raw_clean k op (firstn k l ++ EN e' :: skipn (S k) l) end end) by (destruct n; reflexivity).
      pose proof (rclean_eval u n) as RE.
      assert (K : (exists z, n = Lit z) \/ (forall z, n <> Lit z) /\ (forall z, rclean n <> Lit z)).
      { destruct n; [left; eauto|right; split; [intros; discriminate|intros; discriminate]|right; split; [intros; discriminate|]].
        intros z Q. cbn [rclean] in Q. destruct (clean_list _ _ _) as [b|[|]]; discriminate. }
      destruct K as [(z & ->)|(K1 & K2)]; [apply IH; auto|].
      assert (H : R2 (evle op l) (evr op (match rclean n with Cst _ _ b => if eqb b (absorbing op) then inl b else raw_clean k op (remove_at k l) | e' => raw_clean k op (firstn k l ++ EN e' :: skipn (S k) l) end))).
      { destruct (rclean n) as [z|o lv b|o lv xs] eqn:RC; [exfalso; eapply K2; eauto| |].
        - cbn in RE. destruct (eqb b (absorbing op)) eqn:B.
          + apply eqb_prop in B. rewrite (absorb op l k _ E); [subst b; apply R2_refl|cbn; congruence].
          + apply neutral_of in B. eapply R2_trans; [|apply IH].
            * rewrite (evle_split op l k _ E). cbn [eve]. rewrite <- RE, B. destruct op; apply R2_refl.
            * rewrite Forall_forall in *. intros e I. apply F. eapply remove_at_sub; eauto.
        - eapply R2_trans; [|apply IH].
          + rewrite (evle_split op l k _ E), (evle_repl op l k _ _ E). cbn [eve]. rewrite RE. apply R2_refl.
          + rewrite Forall_forall in *. intros e I. apply repl_sub in I. destruct I as [->|I]; auto. split; [discriminate|right; discriminate]. }
      destruct n; try exact H. exfalso. eapply K1; eauto.
    - destruct (eqb b (absorbing op)) eqn:B.
      + apply eqb_prop in B. rewrite (absorb op l k _ E); [subst b; apply R2_refl|exact B].
      + apply neutral_of in B. eapply R2_trans; [apply (remove_first_eval op b); auto|apply IH].
        rewrite Forall_forall in *. intros e I. apply F. eapply remove_first_sub; eauto.
  Qed.
End Dir.

(** what is left after the cleaning *)
Definition safe (e : elt) : Prop := match e with EB _ => False | EN n => gd n end.
Definition clean_arg (e : elt) : Prop := match e with EB b => True | EN (Cst _ _ _) => True | EN n => gd n end.
Lemma remove_at_nth {A} (l : list A) : forall k j, (k <= j)%nat -> nth_error (remove_at k l) j = nth_error l (S j).
Proof.
  induction l as [|x l IH]; intros k j H; [destruct k, j; reflexivity|]. destruct k; [reflexivity|]. destruct j; [lia|]. cbn [remove_at nth_error]. rewrite IH by lia. reflexivity.
Qed.
Lemma remove_first_nth {A} (p : A -> bool) (l : list A) : forall k e, nth_error l k = Some e -> p e = true ->
  forall j, (k <= j)%nat -> nth_error (remove_first p l) j = nth_error l (S j).
Proof.
  induction l as [|x l IH]; intros [|k] e H P j J; cbn in H; try discriminate.
  - injection H as ->. cbn. rewrite P. reflexivity.
  - cbn. destruct (p x); [reflexivity|]. destruct j; [lia|]. cbn. eapply IH; eauto. lia.
Qed.
Lemma nth_repl {A} (l : list A) : forall k e e', nth_error l k = Some e -> forall j, (k < j)%nat -> nth_error (firstn k l ++ e' :: skipn (S k) l) j = nth_error l j.
Proof.
  induction l as [|x l IH]; intros [|k] e e' H j J; cbn in H; try discriminate.
  - destruct j; [lia|]. reflexivity.
  - destruct j; [lia|]. cbn. eapply IH; eauto. lia.
Qed.
Lemma nth_repl_at {A} (l : list A) : forall k e e', nth_error l k = Some e -> nth_error (firstn k l ++ e' :: skipn (S k) l) k = Some e'.
Proof. induction l as [|x l IH]; intros [|k] e e' H; cbn in H; try discriminate; [reflexivity|]. cbn. eapply IH; eauto. Qed.
Definition tail_safe (k : nat) (l : list elt) : Prop := forall j e, (k <= j)%nat -> nth_error l j = Some e -> safe e.
Lemma raw_clean_safe op : forall k l, Forall clean_arg l -> tail_safe k l -> forall l', raw_clean k op l = inr l' -> Forall safe l'.
Proof.
  induction k as [|k IH]; intros l F T l' H; cbn [raw_clean] in H.
  - injection H as <-. apply Forall_forall. intros e I. apply In_nth_error in I. destruct I as (j & J). apply (T j e); [lia|exact J].
  - destruct (nth_error l k) as [e|] eqn:E.
    2:{ apply (IH l); auto. intros j e J Q. destruct (Nat.eq_dec j k); [congruence|]. apply (T j); auto. lia. }
    assert (Fe : clean_arg e) by (rewrite Forall_forall in F; apply F; eapply nth_error_In; eauto).
    assert (REP : forall e', safe (EN e') -> forall l', raw_clean k op (firstn k l ++ EN e' :: skipn (S k) l) = inr l' -> Forall safe l').
    { intros e' S l0 H0. eapply IH; [| |exact H0].
      - rewrite Forall_forall in *. intros x I. apply repl_sub in I. destruct I as [->|I]; auto. destruct e'; auto; contradiction.
      - intros j x J Q. destruct (Nat.eq_dec j k); [subst j; rewrite (nth_repl_at l k e) in Q by auto; injection Q as <-; exact S|].
        rewrite (nth_repl l k e) in Q by (auto; lia). apply (T j); auto. lia. }
    destruct e as [n|b].
    + destruct n as [z|o lv b|o lv xs].
      * apply (IH l); auto. intros j e J Q. destruct (Nat.eq_dec j k); [subst j; rewrite E in Q; injection Q as <-; exact Fe|]. apply (T j); auto. lia.
      * cbn [rclean] in H. destruct (eqb b (absorbing op)); [discriminate|]. eapply IH; [| |exact H].
        -- rewrite Forall_forall in *. intros x I. apply F. eapply remove_at_sub; eauto.
        -- intros j x J Q. rewrite remove_at_nth in Q by lia. apply (T (S j)); auto. lia.
      * destruct (rclean_gd _ Fe) as [C|C]; destruct (rclean (Seq o lv xs)) as [z|o' lv' b|o' lv' xs'] eqn:RC; try discriminate; try (now destruct C);
          try (eapply REP; [exact C|exact H]).
        destruct (eqb b (absorbing op)); [discriminate|]. eapply IH; [| |exact H].
        -- rewrite Forall_forall in *. intros x I. apply F. eapply remove_at_sub; eauto.
        -- intros j x J Q. rewrite remove_at_nth in Q by lia. apply (T (S j)); auto. lia.
    + destruct (eqb b (absorbing op)); [discriminate|]. eapply IH; [| |exact H].
      * rewrite Forall_forall in *. intros x I. apply F. eapply remove_first_sub; eauto.
      * intros j x J Q. rewrite (remove_first_nth _ l k (EB b)) in Q; [apply (T (S j)); auto; lia|exact E|cbn; apply eqb_reflx|lia].
Qed.
Definition elits (e : elt) : list Z := match e with EN n => lits n | EB _ => [] end.
Lemma raw_clean_lits op z : forall k l l', raw_clean k op l = inr l' -> In z (flat_map elits l') -> In z (flat_map elits l).
Proof.
  induction k as [|k IH]; intros l l' H I; cbn [raw_clean] in H; [injection H as <-; exact I|].
  assert (SUB : forall m, (forall e, In e m -> In e l) -> In z (flat_map elits m) -> In z (flat_map elits l)).
  { intros m S J. apply in_flat_map in J. destruct J as (e & J & K). apply in_flat_map. eauto. }
  destruct (nth_error l k) as [[n|b]|] eqn:E; [| |eapply IH; eauto].
  - assert (REP : forall e', (forall y, In y (lits e') -> In y (lits n)) -> raw_clean k op (firstn k l ++ EN e' :: skipn (S k) l) = inr l' -> In z (flat_map elits l)).
    { intros e' S H0. apply (IH _ _ H0) in I. apply in_flat_map in I. destruct I as (x & Ix & Iz). apply repl_sub in Ix. destruct Ix as [->|Ix].
      - apply in_flat_map. exists (EN n). split; [eapply nth_error_In; eauto|]. cbn in *. auto.
      - apply in_flat_map. eauto. }
    destruct n as [y|o lv b|o lv xs]; [eapply IH; eauto| |].
    + cbn [rclean] in H. destruct (eqb b (absorbing op)); [discriminate|]. apply (IH _ _ H) in I. eapply SUB; [|exact I]. apply remove_at_sub.
    + pose proof (fun y => rclean_lits_in y (Seq o lv xs)) as RL. destruct (rclean (Seq o lv xs)) as [y|o' lv' b|o' lv' xs'].
      * eapply REP; [exact RL|exact H].
      * destruct (eqb b (absorbing op)); [discriminate|]. apply (IH _ _ H) in I. eapply SUB; [|exact I]. apply remove_at_sub.
      * eapply REP; [exact RL|exact H].
  - destruct (eqb b (absorbing op)); [discriminate|]. apply (IH _ _ H) in I. eapply SUB; [|exact I]. apply remove_first_sub.
Qed.

Definition newlits (n : newval) : list Z := match n with NS m => lits m | NB _ => [] end.
Definition newev (u : point) (n : newval) : bool := match n with NS m => eval u m | NB b => b end.
Definition newgd (n : newval) : Prop := match n with NS m => gd m | NB _ => True end.
Definition const_or_gd (n : node) : Prop := is_const n = true \/ gd n.

Section Change.
  Variable up : bool.
  Variable u : point.
  Variable old : Z.
  Variable new : newval.
  Hypothesis Hgd : newgd new.
  Hypothesis Hdir : up = true \/ new <> NB true.

  Definition node_ok (e r : node) : Prop :=
    const_or_gd r /\ (forall z, In z (lits r) -> In z (lits e) \/ In z (newlits new)) /\
    ((In old (lits e) -> R2 up (lit_val u old) (newev u new)) -> R2 up (eval u e) (eval u r)).
  Definition list_ok (op : bop) (l : list node) (k : bool + (bool * list elt)) : Prop :=
    match k with
    | inl b => b = absorbing op /\ ((In old (flat_map lits l) -> R2 up (lit_val u old) (newev u new)) -> R2 up (evl u op l) b)
    | inr (cl, l') =>
        Forall clean_arg l' /\ (cl = false -> Forall safe l') /\ Forall (okl up) l' /\
        (forall z, In z (flat_map elits l') -> In z (flat_map lits l) \/ In z (newlits new)) /\
        ((In old (flat_map lits l) -> R2 up (lit_val u old) (newev u new)) -> R2 up (evl u op l) (evle u op l'))
    end.
  Lemma R2_absorb op a b : b = absorbing op -> R2 up a b -> forall c, R2 up (opb op a c) b.
  Proof. unfold R2. intros ->. destruct up, op, a; cbn; intros H c; destruct c; cbn; auto. Qed.
  Lemma R2_absorb_r op a b : b = absorbing op -> R2 up a b -> forall c, R2 up (opb op c a) b.
  Proof. unfold R2. intros ->. destruct up, op, a; cbn; intros H c; destruct c; cbn; auto. Qed.
  Lemma step_inl op x l b : list_ok op l (inl b) -> list_ok op (x :: l) (inl b).
  Proof.
    intros (A & B). split; auto. intros H. rewrite evl_cons. apply R2_absorb_r; auto. apply B. intros I. apply H. cbn. apply in_or_app. auto.
  Qed.
  (** one element [x] replaced by [y] *)
  Lemma step_inr op x l cl l' y cl' : list_ok op l (inr (cl, l')) -> clean_arg y -> okl up y -> (cl' = false -> cl = false /\ safe y) ->
    (forall z, In z (elits y) -> In z (lits x) \/ In z (newlits new)) ->
    ((In old (lits x) -> R2 up (lit_val u old) (newev u new)) -> R2 up (eval u x) (eve u y)) ->
    list_ok op (x :: l) (inr (cl', y :: l')).
  Proof.
    intros (A & B & C & D & E) H1 H2 H3 H4 H5. cbn [list_ok]. split; [constructor; auto|]. split; [|split; [constructor; auto|split]].
    - intros Q. destruct (H3 Q) as (Q1 & Q2). constructor; auto.
    - intros z I. cbn [flat_map] in I |- *. apply in_app_or in I. rewrite in_app_iff. destruct I as [I|I]; [destruct (H4 z I); auto|destruct (D z I); auto].
    - intros H. rewrite evl_cons. cbn [evle fold_right]. apply R2_opb; [apply H5|apply E]; intros I; apply H; cbn [flat_map]; apply in_or_app; auto.
  Qed.
  Lemma gd_clean n : gd n -> clean_arg (EN n). Proof. destruct n; cbn; auto. Qed.
  Lemma gd_okl n : gd n -> okl up (EN n).
  Proof. intros G. split; [|right; discriminate]. intros E. injection E as ->. apply G. reflexivity. Qed.
  Lemma change_list_ok f op l : Forall gd l -> (forall e r, In e l -> f e = Ok r -> node_ok e r) ->
    forall k, change_list old new f op l = Ok k -> list_ok op l k.
  Proof.
    induction l as [|x l IH]; intros G F k H; cbn [change_list] in H.
    - injection H as <-. cbn. repeat split; auto. intros _. destruct op; apply R2_refl.
    - apply Forall_cons_iff in G. destruct G as (Gx & G).
      assert (IH' : forall k, change_list old new f op l = Ok k -> list_ok op l k) by (apply IH; auto; intros; apply F; auto; now right).
      clear IH.
      assert (SAME : forall n, (do k <- change_list old new f op l; Ok (match k with inl c => inl c | inr (cl, r') => inr (cl, EN n :: r') end)) = Ok k ->
        gd n -> (forall z, In z (lits n) -> In z (lits x) \/ In z (newlits new)) ->
        ((In old (lits x) -> R2 up (lit_val u old) (newev u new)) -> R2 up (eval u x) (eval u n)) -> list_ok op (x :: l) k).
      { clear H. intros n H Gn L E. destruct (change_list old new f op l) as [k'|?|]; try discriminate. cbn [bind] in H. injection H as <-.
        specialize (IH' _ eq_refl). destruct k' as [c|(cl, r')]; [apply step_inl; auto|]. eapply step_inr; eauto using gd_clean, gd_okl. }
      assert (INL : forall b, b = absorbing op -> ((In old (lits x) -> R2 up (lit_val u old) (newev u new)) -> R2 up (eval u x) b) -> list_ok op (x :: l) (inl b)).
      { intros b B E. split; auto. intros I. rewrite evl_cons. apply R2_absorb; auto. apply E. intros J. apply I. cbn [flat_map]. apply in_or_app. auto. }
      assert (CST : forall y, (do k <- change_list old new f op l; Ok (match k with inl c => inl c | inr (_, r') => inr (true, y :: r') end)) = Ok k ->
        clean_arg y -> okl up y -> elits y = [] ->
        ((In old (lits x) -> R2 up (lit_val u old) (newev u new)) -> R2 up (eval u x) (eve u y)) -> list_ok op (x :: l) k).
      { clear H. intros y H Cy Oy L E. destruct (change_list old new f op l) as [k'|?|]; try discriminate. cbn [bind] in H. injection H as <-.
        specialize (IH' _ eq_refl). destruct k' as [c|(cl, r')]; [apply step_inl; auto|]. eapply step_inr; eauto; [discriminate|]. rewrite L. intros z []. }
      assert (SUB : x = Lit (match x with Lit z => z | _ => 0 end) \/
         ((do e' <- f x; match e' with
                | Cst _ _ b =>
                    if eqb b (absorbing op) then Ok (inl b)
                    else do k <- change_list old new f op l;
                         Ok (match k with inl c => inl c | inr (_, r') => inr (true, EN e' :: r') end)
                | _ => do k <- change_list old new f op l;
                       Ok (match k with inl c => inl c | inr (cl, r') => inr (cl, EN e' :: r') end)
                end) = Ok k -> list_ok op (x :: l) k)).
      { destruct x as [z|o lv c|o lv xs]; [left; reflexivity|right|right]; clear H; intros H;
          (destruct (f _) as [e'|?|] eqn:Ef; try discriminate; cbn [bind] in H; destruct (F _ _ (or_introl eq_refl) Ef) as (C & L & E);
           destruct e' as [z|o' lv' b|o' lv' xs'];
           [destruct C as [C|C]; [discriminate|]; eapply SAME; eauto
           |destruct (eqb b (absorbing op)) eqn:B; [apply eqb_prop in B; injection H as <-; apply INL; auto|eapply CST; [exact H|exact Logic.I|split; [discriminate|right; discriminate]|reflexivity|exact E]]
           |destruct C as [C|C]; [discriminate|]; eapply SAME; eauto]). }
      destruct x as [z|o lv c|o lv xs].
      + destruct (z =? old) eqn:Z0.
        * apply Z.eqb_eq in Z0. subst z. destruct new as [b|m] eqn:EN0.
          -- destruct (eqb b (absorbing op)) eqn:B.
             ++ apply eqb_prop in B. injection H as <-. apply INL; auto. intros Q. apply Q. now left.
             ++ eapply (CST (EB b)); [exact H|exact Logic.I| |reflexivity|intros Q; apply Q; now left]. split; [discriminate|]. destruct Hdir as [|N]; auto. right. intros K. injection K as ->. now apply N.
          -- eapply SAME; eauto; intros Q; apply Q; now left.
        * eapply SAME; eauto. intros. apply R2_refl.
      + destruct SUB as [SUB|SUB]; [discriminate|]. destruct (existsb _ _); [exact (SUB H)|]. destruct Gx.
      + destruct SUB as [SUB|SUB]; [discriminate|]. destruct (existsb _ _); [exact (SUB H)|]. eapply SAME; eauto. intros. apply R2_refl.
  Qed.
  Lemma raw_end_ok op lev r n : raw_end op lev r = Ok n -> (forall l, r = inr l -> Forall safe l) ->
    const_or_gd n /\ eval u n = evr u op r /\ (forall z, In z (lits n) -> exists l, r = inr l /\ In z (flat_map elits l)).
  Proof.
    intros H S. destruct r as [b|l]; cbn in H.
    - injection H as <-. split; [left; reflexivity|]. split; [reflexivity|intros z []].
    - destruct l as [|e l]; [injection H as <-; split; [left; reflexivity|]; split; [reflexivity|intros z []]|].
      destruct (mapM _ (e :: l)) as [l'|?|] eqn:M; try discriminate. cbn [bind] in H. injection H as <-.
      specialize (S _ eq_refl). revert l' M S. generalize (e :: l). clear e l. intros l.
      assert (G : forall l', mapM (fun e => match e with EN n => Ok n | EB _ => Err AttributeError end) l = Ok l' -> Forall safe l ->
                  Forall gd l' /\ evl u op l' = evle u op l /\ flat_map lits l' = flat_map elits l).
      { induction l as [|e l IH]; intros l' M S; cbn [mapM] in M.
        - injection M as <-. repeat split; auto. destruct op; reflexivity.
        - apply Forall_cons_iff in S. destruct S as (Se & S). destruct e as [n|b]; [|destruct Se]. cbn [bind] in M.
          destruct (mapM _ l) as [l2|?|]; try discriminate. cbn [bind] in M. injection M as <-. destruct (IH _ eq_refl S) as (A & B & C).
          split; [constructor; auto|]. rewrite evl_cons, B. cbn [evle fold_right flat_map elits eve]. rewrite C. split; reflexivity. }
      intros l' M S. destruct (G l' M S) as (A & B & C). split; [right; apply gd_seq; auto|]. split; [rewrite eval_seq; exact B|].
      intros z I. exists l. split; auto. cbn [lits] in I. rewrite <- C. exact I.
  Qed.
  Lemma change_surf_ok n r : gd n -> change_surf old new n = Ok r -> node_ok n r.
  Proof.
    revert r. induction n as [z|op lev b|op lev l IH] using node_ind'; intros r G H; [discriminate|destruct G|].
    cbn [change_surf] in H. apply gd_seq in G. destruct (change_list old new (change_surf old new) op l) as [k|?|] eqn:E; try discriminate. cbn [bind] in H.
    apply change_list_ok in E; auto.
    2:{ intros e r' I F. rewrite Forall_forall in IH, G. eapply IH; eauto. }
    destruct k as [b|(cl, l')].
    - injection H as <-. destruct E as (E1 & E2). split; [left; reflexivity|]. split; [intros z []|]. rewrite eval_seq. exact E2.
    - destruct E as (E1 & E2 & E3 & E4 & E5).
      set (res := if cl then raw_clean (length l') op l' else inr l').
      assert (H' : raw_end op lev res = Ok r) by (unfold res; destruct cl; exact H).
      assert (S : forall l2, res = inr l2 -> Forall safe l2).
      { unfold res. intros l2 Q. destruct cl; [|injection Q as <-; auto]. eapply raw_clean_safe; [exact E1| |exact Q].
        intros j e J K. assert (nth_error l' j <> None) by congruence. apply nth_error_Some in H0. lia. }
      apply raw_end_ok in H'; auto. destruct H' as (A & B & C). split; [exact A|]. split.
      + intros z I. destruct (C z I) as (l2 & Q & J). apply E4. unfold res in Q. destruct cl; [|injection Q as <-; auto]. eapply raw_clean_lits; eauto.
      + intros O. rewrite eval_seq, B. eapply R2_trans; [apply E5; exact O|]. unfold res. destruct cl; [apply raw_clean_eval; auto|apply R2_refl].
  Qed.
  (** it returns *)
  Lemma change_surf_total n : gd n -> (exists op lev l, n = Seq op lev l) -> exists r, change_surf old new n = Ok r.
  Proof.
    induction n as [z|op lev b|op lev l IH] using node_ind'; intros G (o & lv & l0 & E); try discriminate. clear o lv l0 E.
    cbn [change_surf]. apply gd_seq in G.
    assert (T : exists k, change_list old new (change_surf old new) op l = Ok k).
    { revert G IH. induction l as [|e l IHl]; intros G IH; [eexists; reflexivity|]. apply Forall_cons_iff in G, IH. destruct G as (Ge & G), IH as (IHe & IH).
      destruct (IHl G IH) as (k & K). cbn [change_list]. destruct e as [z|o lv c|o lv xs].
      - destruct (z =? old); [destruct new as [b|m]; [destruct (eqb b (absorbing op)); [eexists; reflexivity|]|]|]; rewrite K; eexists; reflexivity.
      - destruct Ge.
      - destruct (existsb _ _); [|rewrite K; eexists; reflexivity]. destruct IHe as (r & R); auto; [eauto|]. rewrite R. cbn [bind].
        destruct r as [z|o' lv' b|o' lv' xs']; [rewrite K; eexists; reflexivity| |rewrite K; eexists; reflexivity].
        destruct (eqb b (absorbing op)); [eexists; reflexivity|]. rewrite K; eexists; reflexivity. }
    destruct T as (k & K). rewrite K. cbn [bind]. destruct k as [b|(cl, l')]; [eexists; reflexivity|].
    apply change_list_ok in K; auto.
    2:{ intros e r' I F. rewrite Forall_forall in G. apply change_surf_ok; auto. }
    destruct K as (E1 & E2 & _).
    set (res := if cl then raw_clean (length l') op l' else inr l').
    assert (S : forall l2, res = inr l2 -> Forall safe l2).
    { unfold res. intros l2 Q. destruct cl; [|injection Q as <-; auto]. eapply raw_clean_safe; [exact E1| |exact Q].
      intros j e J K. assert (H0 : nth_error l' j <> None) by congruence. apply nth_error_Some in H0. lia. }
    assert (X : exists r, raw_end op lev res = Ok r).
    { destruct res as [b|l2] eqn:RE; [eexists; reflexivity|]. cbn [raw_end]. destruct l2 as [|e l2]; [eexists; reflexivity|].
      specialize (S _ eq_refl). assert (Y : exists y, mapM (fun e => match e with EN n => Ok n | EB _ => Err AttributeError end) (e :: l2) = Ok y).
      { clear RE. revert S. generalize (e :: l2). intros l3 S. induction S as [|y l3 Y _ (z & IH3)]; [eexists; reflexivity|]. cbn [mapM]. destruct y as [n|b]; [|destruct Y]. cbn [bind]. rewrite IH3. eexists; reflexivity. }
      destruct Y as (y & ->). eexists; reflexivity. }
    destruct X as (r & X). exists r. unfold res in X. destruct cl; exact X.
  Qed.
End Change.
