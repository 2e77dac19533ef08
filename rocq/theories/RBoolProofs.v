(** Proofs about GEOReverse's BoolSequence. *)
From Coq Require Import Permutation.
From Verif Require Import Prelude BoolSpec BoolSeq BoolProofs BoolProofs2 BoolTotal RBool RBoolSpec.

(** ** append *)
Lemma rappend_loop_eval v op args : forall lev l, eval v (rappend_loop op lev l args) = opb op (evl v op l) (evl v op args).
Proof.
  induction args as [|a args IH]; intros lev l; cbn [rappend_loop].
  - now rewrite eval_seq, evl_nil, opb_neutral_r.
  - rewrite evl_cons. destruct a as [z|o lv b|o lv l']; rewrite ?IH, ?evl_app, ?evl_cons, ?evl_nil, ?opb_neutral_r, ?opb_assoc; auto.
    destruct (eqb b (absorbing op)) eqn:E; cbn [eval].
    + apply eqb_absorb_true in E. subst. now rewrite opb_absorb_r, opb_absorb.
    + apply eqb_absorb_false in E. subst. rewrite IH. now rewrite opb_neutral_r.
Qed.
Lemma rappend_loop_nz op args : forall lev l, Forall nz l -> Forall nz args -> nz (rappend_loop op lev l args).
Proof.
  induction args as [|a args IH]; intros lev l W F; cbn [rappend_loop]; [now apply nz_seq|]. inversion F as [|? ? Wa F']; subst.
  destruct a as [z|o lv b|o lv l'].
  - apply IH; auto. apply Forall_app; auto.
  - destruct (eqb b (absorbing op)); [cbn; lia|]. apply IH; auto.
  - apply IH; auto. apply Forall_app; auto.
Qed.
Lemma rappend_cst_spec v op lev b0 args r : rappend_cst op lev b0 args = Ok r -> lev <= 0 ->
  nz r /\ eval v r = opb op b0 (evl v op args).
Proof.
  intros H W. revert r H. induction args as [|a args IH]; cbn [rappend_cst]; intros r H.
  - inv H. split; auto. now rewrite evl_nil, opb_neutral_r.
  - destruct a as [z|o lv b|o lv l']; try discriminate. rewrite evl_cons. cbn [eval]. destruct (eqb b (absorbing op)) eqn:E.
    + inv H. apply eqb_absorb_true in E. subst. split; [cbn; lia|]. now rewrite opb_absorb, opb_absorb_r.
    + apply eqb_absorb_false in E. subst. destruct (IH _ H) as (P & Q). split; auto. now rewrite opb_neutral.
Qed.
Definition op_is (op : bop) (n : node) : Prop := match n with Lit _ => False | Cst o _ _ | Seq o _ _ => o = op end.
Lemma rappend_sound v self op args r : rappend self args = Ok r -> op_is op self -> nz self -> Forall nz args ->
  nz r /\ op_is op r /\ eval v r = opb op (eval v self) (evl v op args).
Proof.
  intros H P N F. destruct self as [z|o lv b|o lv l]; cbn in H, P; [discriminate| |].
  - subst o. destruct (rappend_cst_spec v _ _ _ _ _ H N) as (A & B). split; [|split]; auto.
    clear -H. revert r H. induction args as [|a args IH]; cbn [rappend_cst]; intros r H; [inv H; reflexivity|].
    destruct a; try discriminate. destruct (eqb b0 _); [inv H; reflexivity|auto].
  - subst o. inv H. apply nz_seq in N. split; [|split].
    + apply rappend_loop_nz; auto.
    + clear. revert lv l. induction args as [|a args IH]; intros lv l; cbn [rappend_loop]; [reflexivity|]. destruct a; auto. destruct (eqb _ _); [reflexivity|auto].
    + rewrite rappend_loop_eval, eval_seq. reflexivity.
Qed.

(** ** level_update, clean *)
Lemma lev_up_eval v n : eval v (lev_up n) = eval v n. Proof. destruct n; auto. Qed.
Lemma lev_up_nz n : nz n -> nz (lev_up n). Proof. destruct n; auto. cbn. lia. Qed.

Lemma rclean_end_eval v op lev l r :
  match r with inl b => evl v op l = b | inr l' => evl v op l' = evl v op l end ->
  eval v (rclean_end op lev r) = evl v op l.
Proof.
  destruct r as [b|[|x l']]; intros H.
  - simpl; auto.
  - simpl. rewrite <- H, evl_nil. reflexivity.
  - simpl rclean_end. rewrite eval_seq; auto.
Qed.
Lemma rclean_eval v n : eval v (rclean n) = eval v n.
Proof.
  induction n as [z|op lev b|op lev l IH] using node_ind'; auto.
  simpl rclean. rewrite eval_seq. apply rclean_end_eval, clean_list_eval. rewrite Forall_forall in IH. auto.
Qed.
Lemma rclean_nz n : nz n -> nz (rclean n).
Proof.
  induction n as [z|op lev b|op lev l IH] using node_ind'; auto. intros N. apply nz_seq in N. cbn [rclean].
  destruct (clean_list rclean op l) as [b|l'] eqn:E; [cbn; lia|]. pose proof (clean_list_incl _ _ _ _ E) as Hi.
  assert (F : Forall nz l').
  { rewrite Forall_forall in *. intros y Hy. destruct (Hi _ Hy) as (e & He & ->). auto. }
  destruct l'; [cbn; lia|]. cbn [rclean_end]. now apply nz_seq.
Qed.

(** ** substitute *)
Lemma subst_list_nz v f op name val l r :
  subst_list f op name val l = Ok r -> agrees v name val -> Forall nz l ->
  (forall e e', In e l -> f e = Ok e' -> nz e -> eval v e' = eval v e /\ nz e') ->
  match r with
  | inl b => evl v op l = b /\ b = absorbing op
  | inr l' => evl v op l' = evl v op l /\ Forall nz l'
  end.
Proof.
  revert r; induction l as [|e l IH]; simpl; intros r H Ag W Hf.
  - inv H. auto.
  - inv_bind. rename a into r1. apply Forall_cons_iff in W; destruct W as [We W].
    specialize (IH _ Ha Ag W (fun e0 e' Hi => Hf e0 e' (or_intror Hi))).
    destruct r1 as [b|r'].
    + inv H. destruct IH as (IH & ->). rewrite evl_cons, IH, opb_absorb_r. auto.
    + destruct IH as (IE & IW).
      destruct e as [z|o lv b|o lv xs].
      * destruct (Z.eqb (Z.abs z) name) eqn:Hn; [apply Z.eqb_eq in Hn|].
        -- pose proof (lit_name_cases v _ _ We Hn) as HL.
           destruct val as [b|w|].
           ++ simpl in Ag. set (bv := if name =? z then b else negb b) in *.
              assert (Hbv : lit_val v z = bv) by (unfold bv; rewrite HL, Ag; reflexivity).
              destruct (eqb bv (absorbing op)) eqn:E; inv H.
              ** apply eqb_absorb_true in E. rewrite evl_cons. simpl eval.
                 rewrite Hbv, E, opb_absorb. auto.
              ** apply eqb_absorb_false in E. rewrite evl_cons. simpl eval.
                 rewrite Hbv, E, opb_neutral. auto.
           ++ injection H as H; subst r. simpl in Ag. destruct Ag as (Ag & Hw). split.
              ** rewrite !evl_cons, IE. f_equal. simpl eval. rewrite HL, Ag.
                 destruct (name =? z); auto. apply lit_val_opp; auto.
              ** constructor; auto. simpl. destruct (name =? z); lia.
           ++ inv H. split.
              ** rewrite !evl_cons, IE; reflexivity.
              ** constructor; auto.
        -- inv H. split.
           ** rewrite !evl_cons, IE; reflexivity.
           ** constructor; auto.
      * inv_bind. inv H. destruct (Hf _ _ (or_introl eq_refl) Ha0 We) as (Q1 & Q2).
        split; auto. rewrite !evl_cons, IE, Q1; reflexivity.
      * inv_bind. inv H. destruct (Hf _ _ (or_introl eq_refl) Ha0 We) as (Q1 & Q2).
        split; auto. rewrite !evl_cons, IE, Q1; reflexivity.
Qed.
Lemma rsubst_sound v var val n : forall r, rsubst var val n = Ok r -> nz n -> agrees v (Z.abs var) val -> eval v r = eval v n /\ nz r.
Proof.
  induction n as [z|op lev b|op lev l IH] using node_ind'; intros r H N Ag; cbn [rsubst] in H; [discriminate|inv H; auto|].
  inv_bind. apply nz_seq in N. apply (subst_list_nz v) in Ha; auto.
  - destruct a as [b|l']; injection H as <-.
    + destruct Ha as (E & ->). rewrite eval_seq. split; [symmetry; exact E|cbn; lia].
    + change (rclean_end op lev (clean_list rclean op l')) with (rclean (Seq op lev l')). destruct Ha as (E & N'). rewrite lev_up_eval, rclean_eval, !eval_seq. split; auto. apply lev_up_nz, rclean_nz. now apply nz_seq.
  - intros e e' He Hs Hn. rewrite Forall_forall in IH. apply IH; auto.
Qed.
Lemma rsubst_all_sound v vs : forall n r, rsubst_all vs n = Ok r -> nz n -> agrees_all v vs -> eval v r = eval v n /\ nz r.
Proof.
  induction vs as [|(x, b) vs IH]; intros n r H N A; cbn [rsubst_all] in H; [inv H; auto|]. inv_bind. inversion A as [|? ? A1 A2]; subst. cbn in A1.
  destruct (rsubst_sound v _ _ _ _ Ha N A1) as (E & N'). destruct (IH _ _ H N' A2). split; congruence || auto.
Qed.

(** ** group_single *)
Lemma gs_loop_nz i : forall l g l' g', gs_loop i l g = Ok (l', g') -> Forall nz l -> Forall nz g -> Forall nz l' /\ Forall nz g'.
Proof.
  induction i as [|j IH]; intros l g l' g' H F G; cbn [gs_loop] in H; [inv H; auto|].
  destruct (nth_error l j) as [e|] eqn:E; [|inv H; auto]. pose proof (nth_error_In _ _ E) as Hi.
  assert (Fe : nz e) by (rewrite Forall_forall in F; auto).
  destruct e as [z|o lv b|o lv xs].
  - eapply IH; eauto; [eapply Forall_incl; [|exact F]; intros x; apply remove_lit_incl|apply Forall_app; auto].
  - destruct (lv =? 0); [discriminate|eauto].
  - destruct xs as [|x [|x' xs]]; eauto. destruct (lv =? 0); eauto. eapply IH; eauto; [eapply Forall_incl; [|exact F]; intros y; apply remove_at_incl|].
    apply Forall_app; split; auto. apply nz_seq in Fe. auto.
Qed.
Lemma group_single_nz n m : group_single n = Ok m -> nz n -> nz m.
Proof.
  destruct n as [z|op lev b|op lev l]; cbn [group_single]; intros H N; [discriminate|inv H; auto|].
  destruct (lev =? 0); [inv H; auto|]. inv_bind. destruct a as (l', g'). apply nz_seq in N.
  destruct (gs_loop_nz _ _ _ _ _ Ha N (Forall_nil _)) as (A & B). destruct g'; inv H; apply nz_seq; auto. constructor; auto. apply nz_seq. auto.
Qed.

(** ** join_operators *)
Lemma rmerge_sound v op lev l r : rmerge op lev l = Ok r -> Forall nz l -> eval v r = evl v op l /\ nz r /\ op_is op r.
Proof.
  unfold rmerge. intros H N. inv_bind. destruct (Nat.ltb 1 (length (filter (has_op op) l))) eqn:E.
  - inv_bind. rename a0 into xs.
    assert (NX : nz (lev_up (Seq op 0 (concat xs)))).
    { apply lev_up_nz, nz_seq. eapply elems_nz; eauto. apply filter_Forall; auto. }
    apply (rappend_sound v) with (op := op) in H; [|reflexivity|apply nz_seq, filter_Forall; auto|constructor; auto].
    destruct H as (A & B & C). split; [|split]; auto. rewrite C, eval_seq, evl_cons, evl_nil, opb_neutral_r, lev_up_eval, eval_seq.
    assert (HF : Forall (fun n => has_op op n = true) (filter (has_op op) l)) by (apply Forall_forall; intros x Hx; apply filter_In in Hx; tauto).
    rewrite (evl_concat v op _ _ HF Ha0). rewrite opb_comm. symmetry. apply evl_filter.
  - inv H. rewrite eval_seq. split; [|split]; auto; [now apply nz_seq|reflexivity].
Qed.
Lemma rjoin_sound v k : forall n r, rjoin k n = Ok r -> (match n with Cst _ _ _ => True | _ => nz n end) -> eval v r = eval v n /\ nz r.
Proof.
  induction k as [|k IH]; intros n r H N; cbn [rjoin] in H; [discriminate|].
  destruct n as [z|op lev b|op lev l]; [discriminate|cbn in H; inv H; split; [auto|cbn; lia]|].
  assert (NL : nz (lev_up (Seq op lev l))) by (apply lev_up_nz; auto). rewrite <- (lev_up_eval v (Seq op lev l)).
  destruct (lev_up (Seq op lev l)) as [z|o1 lev1 b1|op1 lev1 l1] eqn:E1; try discriminate.
  destruct (lev1 =? 0); [inv H; auto|]. inv_bind. rename a into n2.
  pose proof (group_single_eval v _ _ Ha) as E2. pose proof (group_single_nz _ _ Ha NL) as N2.
  destruct (group_single_shape _ _ _ _ Ha) as (l2 & ->). inv_bind. rename a into n3. rename a0 into n4. apply nz_seq in N2.
  destruct (rmerge_sound v _ _ _ _ Ha0 N2) as (E3 & N3 & _). rewrite <- eval_seq with (lev := lev1) in E3.
  assert (HC : eval v n4 = eval v n3 /\ nz n4).
  { destruct n3 as [z3|op3 lev3 b3|op3 lev3 l3]; try (inv Ha1; auto; fail).
    destruct l3 as [|c [|c' l3]]; try (inv Ha1; auto; fail).
    destruct (0 <? lev3); [|inv Ha1; auto]. rewrite eval_seq, evl_cons, evl_nil, opb_neutral_r. apply nz_seq in N3. inversion N3 as [|? ? NC _]; subst.
    destruct c as [zc|oc lc bc|oc lc xs]; try discriminate; apply IH in Ha1; auto. }
  destruct HC as (E4 & N4).
  destruct n4 as [z4|op4 lev4 b4|op4 lev4 l4]; try (inv H; split; [congruence|auto]; fail).
  destruct (lev4 =? 0); [inv H; split; [congruence|auto]|]. inv_bind. inv H. apply nz_seq in N4.
  assert (HS : forall e e', In e l4 -> rjoin k e = Ok e' -> eval v e' = eval v e /\ nz e').
  { intros e e' He Hj. rewrite Forall_forall in N4. apply IH in Hj; auto. destruct e; auto; apply N4; auto. }
  split.
  - rewrite eval_seq. transitivity (evl v op4 l4); [|rewrite <- (eval_seq v op4 lev4); congruence]. eapply mapM_evl; [exact Ha2|]. intros e e' He Hj. apply (HS e e'); auto.
  - apply nz_seq, Forall_forall. intros y Hy. destruct (mapM_In _ _ _ Ha2 _ Hy) as (x & Hx & Hj). apply (HS _ _ Hx Hj).
Qed.

(** ** evaluate *)
Lemma val_of_agrees v vs x b : val_of vs x = Some b -> 0 <= x -> agrees_all v vs -> v x = b.
Proof.
  induction vs as [|(k, c) vs IH]; intros H P A; [discriminate|]. cbn [val_of] in H. inversion A as [|? ? A1 A2]; subst. cbn in A1.
  destruct (Z.eqb_spec k x) as [-> | ?]; [|auto]. injection H as ->. now rewrite Z.abs_eq in A1.
Qed.
Lemma lit_value_sound v vs e b : lit_value vs e = Some b -> agrees_all v vs -> lit_val v e = b.
Proof.
  unfold lit_value. destruct (val_of vs (Z.abs e)) as [c|] eqn:E; [|discriminate]. intros H A. injection H as <-.
  apply (val_of_agrees v) in E; auto; [|lia]. unfold lit_val. destruct (Z.ltb_spec e 0).
  - rewrite <- E. f_equal. f_equal. lia.
  - rewrite <- E. f_equal. lia.
Qed.
Lemma reval_list_sound v f op vs : agrees_all v vs -> forall l none r l', reval_list f op vs none l = Ok (r, l') ->
  (forall e w e', In e l -> f e = Ok (w, e') -> forall b, w = Some b -> eval v e = b) ->
  forall b, r = Some b -> evl v op l = b /\ (none = true -> b = absorbing op).
Proof.
  intros A. induction l as [|e l IH]; intros none r l' H Hf b HB; cbn [reval_list] in H.
  - injection H as <- <-. destruct none; [discriminate|]. injection HB as <-. split; [apply evl_nil|discriminate].
  - inv_bind. destruct a as (w, e'). assert (HE : forall b, w = Some b -> eval v e = b).
    { intros b0 ->. destruct e as [z|o lv b1|o lv xs]; [|eapply Hf; eauto; now left|eapply Hf; eauto; now left]. injection Ha as Ha <-. eapply lit_value_sound; eauto. }
    assert (Hf' : forall e w e', In e l -> f e = Ok (w, e') -> forall b, w = Some b -> eval v e = b) by (intros; eapply Hf; eauto; now right).
    rewrite evl_cons. destruct w as [c|].
    + rewrite (HE c eq_refl). destruct (eqb c (absorbing op)) eqn:EC.
      * injection H as <- <-. injection HB as <-. apply eqb_absorb_true in EC. subst c. split; auto. apply opb_absorb.
      * apply eqb_absorb_false in EC. subst c. inv_bind. destruct a as (w, r'). injection H as <- <-. destruct (IH _ _ _ Ha0 Hf' _ HB) as (P & Q). rewrite opb_neutral. auto.
    + inv_bind. destruct a as (w, r'). injection H as <- <-. destruct (IH _ _ _ Ha0 Hf' _ HB) as (P & Q). specialize (Q eq_refl). rewrite P, Q. split; auto. apply opb_absorb_r.
Qed.
Lemma reval_f_sound v vs : agrees_all v vs -> forall k n r n', reval_f k vs n = Ok (r, n') -> forall b, r = Some b -> eval v n = b.
Proof.
  intros A. induction k as [|k IH]; intros n r n' H b HB; cbn [reval_f] in H; [discriminate|].
  destruct n as [z|o lv c|op lev l]; [discriminate|injection H as <- <-; injection HB as <-; reflexivity|].
  inv_bind. pose proof (group_single_eval v _ _ Ha) as E. destruct (group_single_shape _ _ _ _ Ha) as (l2 & ->). inv_bind. destruct a as (w, l3). injection H as <- <-.
  rewrite <- E, eval_seq. eapply (reval_list_sound v _ _ _ A); [exact Ha0| |exact HB]. intros e w' e' _ He b' Hb. eapply IH; eauto.
Qed.
(** the receiver: same meaning, and it stays well formed *)
Lemma reval_list_recv v f op vs : forall l none r l', reval_list f op vs none l = Ok (r, l') -> Forall nz l ->
  (forall e w e', In e l -> f e = Ok (w, e') -> nz e -> eval v e' = eval v e /\ nz e') -> evl v op l' = evl v op l /\ Forall nz l'.
Proof.
  induction l as [|e l IH]; intros none r l' H N Hf; cbn [reval_list] in H.
  - injection H as <- <-. auto.
  - inv_bind. destruct a as (w, e'). inversion N as [|? ? NE NL]; subst. assert (HE : eval v e' = eval v e /\ nz e').
    { destruct e as [z|o lv b1|o lv xs]; [injection Ha as _ <-; auto|eapply Hf; eauto; now left|eapply Hf; eauto; now left]. }
    assert (Hf' : forall e w e', In e l -> f e = Ok (w, e') -> nz e -> eval v e' = eval v e /\ nz e') by (intros; eapply Hf; eauto; now right).
    destruct HE as (E1 & E2). destruct w as [c|]; [destruct (eqb c (absorbing op))|].
    + injection H as <- <-. rewrite !evl_cons, E1. split; auto.
    + inv_bind. destruct a as (w, r'). injection H as <- <-. destruct (IH _ _ _ Ha0 NL Hf') as (P & Q). rewrite !evl_cons, E1, P. split; auto.
    + inv_bind. destruct a as (w, r'). injection H as <- <-. destruct (IH _ _ _ Ha0 NL Hf') as (P & Q). rewrite !evl_cons, E1, P. split; auto.
Qed.
Lemma reval_f_recv v vs : forall k n r n', reval_f k vs n = Ok (r, n') -> nz n -> eval v n' = eval v n /\ nz n'.
Proof.
  induction k as [|k IH]; intros n r n' H N; cbn [reval_f] in H; [discriminate|].
  destruct n as [z|o lv c|op lev l]; [discriminate|injection H as <- <-; auto|].
  inv_bind. pose proof (group_single_eval v _ _ Ha) as E. pose proof (group_single_nz _ _ Ha N) as N2. destruct (group_single_shape _ _ _ _ Ha) as (l2 & ->).
  inv_bind. destruct a as (w, l3). injection H as <- <-. apply nz_seq in N2.
  destruct (reval_list_recv v _ _ _ _ _ _ _ Ha0 N2) as (P & Q); [intros; eapply IH; eauto|]. split; [rewrite eval_seq, P, <- E, eval_seq; reflexivity|now apply nz_seq].
Qed.

(** ** factorize *)
Lemma rfactorize_sound v ct x n b r : rfactorize ct x n = Ok (b, r) -> nz n -> 0 < x -> compatible v ct -> eval v r = eval v n /\ nz r.
Proof.
  unfold rfactorize. intros H N Hx HC. inv_bind. destruct a as (ts, fs). destruct (value_sets_ok _ _ _ _ _ HC Hx Ha) as (HT & HF). clear Ha HC.
  assert (SP : forall op lit vs s, rsplit op lit vs s = Ok (b, r) -> nz s -> lit <> 0 -> eval v s = eval v n ->
            (lit_val v lit = neutral op -> agrees_all v vs) -> (lit_val v lit = absorbing op -> eval v n = absorbing op) -> eval v r = eval v n /\ nz r).
  { intros op lit vs s HS NS HL ES HA HB. unfold rsplit in HS. inv_bind. injection HS as _ <-. rename a into s'. rename a0 into m.
    assert (NS' : nz s').
    { clear -Ha NS. revert s Ha NS. induction vs as [|(y, c) vs IH]; intros s H NS; cbn [rsubst_all] in H; [injection H as <-; auto|]. inv_bind.
      eapply IH; eauto. eapply (rsubst_sound (fun _ => c)); eauto. reflexivity. }
    apply (rappend_sound v) with (op := op) in Ha0; [|reflexivity|now apply nz_seq|repeat constructor; auto].
    destruct Ha0 as (A & _ & B). split; auto. rewrite B, eval_seq, evl_nil, opb_neutral, !evl_cons, evl_nil, opb_neutral_r. cbn [eval].
    destruct (bool_dec (lit_val v lit) (neutral op)) as [E | E].
    - rewrite E, opb_neutral. destruct (rsubst_all_sound v _ _ _ Ha NS (HA E)) as (Q & _). congruence.
    - assert (E' : lit_val v lit = absorbing op) by (unfold neutral in E; destruct (lit_val v lit), (absorbing op); cbn in *; congruence).
      rewrite E', (HB E'). apply opb_absorb. }
  assert (LX : lit_val v x = v x) by (unfold lit_val; destruct (Z.ltb_spec x 0); auto; lia).
  assert (LN : lit_val v (- x) = negb (v x)) by (rewrite lit_val_opp, LX by lia; auto).
  destruct ts as [t|]; [destruct fs as [f|]|].
  - inv_bind. destruct a as (tv, s1). destruct (reval_f_recv v _ _ _ _ _ Ha N) as (E1 & N1).
    assert (T : forall c, tv = Some c -> v x = true -> eval v n = c) by (intros; eapply reval_f_sound; eauto).
    destruct tv as [[|]|].
    + eapply SP; [exact H|auto|lia|auto| |]; rewrite LX; cbn; intros Q; auto.
    + eapply SP; [exact H|auto|lia|auto| |]; rewrite LN; cbn; intros Q; destruct (v x); try discriminate; auto.
    + inv_bind. destruct a as (fv, s2). destruct (reval_f_recv v _ _ _ _ _ Ha0 N1) as (E2 & N2).
      assert (F : forall c, fv = Some c -> v x = false -> eval v n = c) by (intros; rewrite <- E1; eapply reval_f_sound; eauto).
      rewrite <- E2 in E1. destruct fv as [[|]|].
      * eapply SP; [exact H|auto|lia|congruence| |]; rewrite LN; cbn; intros Q; destruct (v x); try discriminate; auto.
      * eapply SP; [exact H|auto|lia|congruence| |]; rewrite LX; cbn; intros Q; auto.
      * injection H as <- <-. split; [congruence|auto].
  - inv_bind. injection H as <- <-. eapply (rsubst_sound v); eauto. cbn. rewrite Z.abs_eq by lia. destruct (v x) eqn:VX; auto; exfalso; auto.
  - inv_bind. injection H as <- <-. eapply (rsubst_sound v); eauto. cbn. rewrite Z.abs_eq by lia. destruct (v x) eqn:VX; auto; exfalso; auto.
Qed.
Lemma surfs_pos' n x : nz n -> In x (surfs n) -> 0 < x.
Proof.
  intros W H. unfold surfs in H. apply nodup_In, in_map_iff in H. destruct H as (z & <- & Hz).
  pose proof (nz_lits _ W) as Q. rewrite Forall_forall in Q. apply Q in Hz. lia.
Qed.
Lemma rfact_loop_sound v ct (HC : compatible v ct) names : forall new n r, rfact_loop ct names new n = Ok r -> nz n -> (forall x, In x new -> 0 < x) -> eval v r = eval v n /\ nz r.
Proof.
  induction names as [|x names IH]; intros new n r H N HN; cbn [rfact_loop] in H; [injection H as <-; auto|].
  destruct (existsb (Z.eqb x) new) eqn:E; [|eauto]. inv_bind. destruct a as (b, s).
  destruct (rfactorize_sound v _ _ _ _ _ Ha N (HN _ (existsb_In _ _ E)) HC) as (E1 & N1).
  apply IH in H; auto; [|intros; eapply surfs_pos'; eauto]. destruct H. split; [congruence|auto].
Qed.

(** ** simplify *)
(** what simplification may do: nothing to the points in strict runs, only add points
    in others *)
Definition within (strict : bool) (a b : bool) : Prop := if strict then a = b else a = true -> b = true.
Lemma within_refl s a : within s a a. Proof. destruct s; cbn; auto. Qed.
Lemma within_trans s a b c : within s a b -> within s b c -> within s a c. Proof. destruct s; cbn; [congruence|auto]. Qed.
Lemma within_opb s op a b c d : within s a b -> within s c d -> within s (opb op a c) (opb op b d).
Proof. destruct s, op; cbn; [congruence|congruence| |]; destruct a, b, c, d; cbn; auto. Qed.

Lemma rsimp_list_sound v s f op l r : rsimp_list f op l = Ok r -> Forall nz l ->
  (forall e e', In e l -> f e = Ok e' -> nz e -> within s (eval v e) (eval v e') /\ nz e') ->
  match r with
  | inl b => b = absorbing op /\ within s (evl v op l) b
  | inr l' => within s (evl v op l) (evl v op l') /\ Forall nz l'
  end.
Proof.
  revert r; induction l as [|e l IH]; cbn [rsimp_list]; intros r H N Hf.
  - injection H as <-. split; [apply within_refl|auto].
  - inv_bind. rename a into r1. inversion N as [|? ? NE NL]; subst.
    specialize (IH _ Ha NL (fun e0 e' Hi => Hf e0 e' (or_intror Hi))). rewrite evl_cons.
    destruct r1 as [b|r'].
    + injection H as <-. destruct IH as (-> & IH). split; auto. rewrite <- (opb_absorb_r op (eval v e)). apply within_opb; auto using within_refl.
    + destruct IH as (IE & IN). inv_bind. destruct (Hf e a (or_introl eq_refl) Ha0 NE) as (E1 & N1).
      destruct a as [z|o lv b|o lv xs].
      * injection H as <-. rewrite evl_cons. split; [apply within_opb; auto|auto].
      * cbn [eval] in E1. destruct (eqb b (absorbing op)) eqn:EB; injection H as <-.
        -- apply eqb_absorb_true in EB. subst. split; auto. rewrite <- (opb_absorb op (evl v op l)). apply within_opb; auto using within_refl.
        -- apply eqb_absorb_false in EB. subst. split; auto. rewrite <- (opb_neutral op (evl v op r')). apply within_opb; auto.
      * injection H as <-. rewrite evl_cons. split; [apply within_opb; auto|auto].
Qed.

(** *** surfaces left *)
Lemma gs_loop_lits z i : forall l g l' g', gs_loop i l g = Ok (l', g') ->
  In z (flat_map lits l) \/ In z (flat_map lits g) -> In z (flat_map lits l') \/ In z (flat_map lits g').
Proof.
  induction i as [|j IH]; intros l g l' g' H M; cbn [gs_loop] in H; [inv H; auto|].
  destruct (nth_error l j) as [e|] eqn:E; [|inv H; auto]. pose proof (nth_error_In _ _ E) as Hi.
  destruct e as [y|o lv b|o lv xs].
  - apply IH in H; auto. destruct M as [M|M]; [|right; rewrite flat_map_app; apply in_or_app; auto].
    apply (Permutation_in z (Permutation_flat_map lits (remove_lit_perm _ _ Hi))) in M. cbn [flat_map lits] in M. apply in_app_or in M.
    destruct M as [M|M]; auto. right. rewrite flat_map_app. apply in_or_app. right. cbn in *. tauto.
  - destruct (lv =? 0); [discriminate|eauto].
  - destruct xs as [|x [|x' xs]]; eauto. destruct (lv =? 0); eauto. apply IH in H; auto. destruct M as [M|M]; [|right; rewrite flat_map_app; apply in_or_app; auto].
    apply (Permutation_in z (Permutation_flat_map lits (remove_at_perm _ _ _ E))) in M. cbn [flat_map lits] in M. apply in_app_or in M.
    destruct M as [M|M]; auto. right. rewrite flat_map_app. apply in_or_app. right. cbn. exact M.
Qed.
Lemma group_single_lits z n m : group_single n = Ok m -> In z (lits n) -> In z (lits m).
Proof.
  destruct n as [y|op lev b|op lev l]; cbn [group_single]; intros H M; [discriminate|inv H; auto|].
  destruct (lev =? 0); [inv H; auto|]. inv_bind. destruct a as (l', g'). apply (gs_loop_lits z) in Ha; [|left; exact M].
  destruct g'; inv H; cbn [lits flat_map] in *; [destruct Ha as [?|[]]; auto|]. apply in_or_app. tauto.
Qed.
Lemma mapM_lits f z l : (forall e e', In e l -> f e = Ok e' -> In z (lits e) -> In z (lits e')) -> forall l', mapM f l = Ok l' -> In z (flat_map lits l) -> In z (flat_map lits l').
Proof.
  induction l as [|e l IH]; intros Hf l' H M; [destruct M|]. cbn in H. inv_bind. injection H as <-. cbn [flat_map] in *. apply in_or_app. apply in_app_or in M.
  destruct M as [M|M]; [left; eapply Hf; eauto; now left|right; eapply IH; eauto; intros; eapply Hf; eauto; now right].
Qed.
Lemma rmerge_lits op lev l r z : rmerge op lev l = Ok r -> In z (flat_map lits l) -> In z (lits r).
Proof.
  unfold rmerge. intros H M. inv_bind. destruct (Nat.ltb _ _); [|inv H; exact M]. inv_bind. rename a0 into xs. cbn [rappend] in H. injection H as <-.
  cbn [lev_up rappend_loop]. cbn [lits]. rewrite flat_map_app. cbn [flat_map lits]. rewrite app_nil_r. apply in_or_app.
  apply in_flat_map in M. destruct M as (e & He & Hz). destruct (has_op op e) eqn:HO.
  - right. assert (HF : In e (filter (has_op op) l)) by (apply filter_In; auto). clear -Ha0 HF Hz. revert xs Ha0.
    induction (filter (has_op op) l) as [|x m IH]; intros xs H; [destruct HF|]. cbn in H. inv_bind. injection H as <-. cbn [concat]. rewrite flat_map_app. apply in_or_app.
    destruct HF as [-> | HF]; [left|right; eauto]. destruct e; try discriminate. cbn in Ha. injection Ha as <-. exact Hz.
  - left. apply in_flat_map. exists e. split; auto. apply filter_In. now rewrite HO.
Qed.
Lemma rjoin_lits z k : forall n r, rjoin k n = Ok r -> In z (lits n) -> In z (lits r).
Proof.
  induction k as [|k IH]; intros n r H M; cbn [rjoin] in H; [discriminate|].
  destruct n as [y|op lev b|op lev l]; [discriminate|destruct M|].
  change (In z (lits (lev_up (Seq op lev l)))) in M.
  destruct (lev_up (Seq op lev l)) as [y|o1 lev1 b1|op1 lev1 l1] eqn:E1; try discriminate.
  destruct (lev1 =? 0); [injection H as <-; auto|]. inv_bind. rename a into n2. apply (group_single_lits z) in Ha as M2; auto.
  destruct (group_single_shape _ _ _ _ Ha) as (l2 & ->). inv_bind. rename a into n3. rename a0 into n4.
  apply (rmerge_lits _ _ _ _ z) in Ha0 as M3; auto.
  assert (M4 : In z (lits n4)).
  { destruct n3 as [z3|op3 lev3 b3|op3 lev3 l3]; try (inv Ha1; auto; fail).
    destruct l3 as [|c [|c' l3]]; try (inv Ha1; auto; fail).
    destruct (0 <? lev3); [|inv Ha1; auto]. cbn [lits flat_map] in M3. rewrite app_nil_r in M3.
    destruct c as [zc|oc lc bc|oc lc xs]; [discriminate|destruct M3|eapply IH; eauto]. }
  destruct n4 as [z4|op4 lev4 b4|op4 lev4 l4]; try (inv H; auto; fail).
  destruct (lev4 =? 0); [inv H; auto|]. inv_bind. injection H as <-. cbn [lits] in *. eapply mapM_lits; eauto.
Qed.
(** a definition with surfaces, or a constant *)
Definition live (n : node) : Prop := (exists o l b, n = Cst o l b) \/ exists z, In z (lits n).
Lemma rclean_live n : live (rclean n).
Proof.
  induction n as [z|op lev b|op lev l IH] using node_ind'; [right; exists z; now left|left; do 3 eexists; reflexivity|]. cbn [rclean].
  destruct (clean_list rclean op l) as [b|l'] eqn:E; [left; cbn; do 3 eexists; reflexivity|]. destruct l' as [|x l']; [left; cbn; do 3 eexists; reflexivity|]. right. cbn [rclean_end lits].
  destruct (clean_list_incl _ _ _ _ E x (or_introl eq_refl)) as (e & He & Hx). rewrite Forall_forall in IH. destruct (IH e He) as [(o & lv & b & Q)|(z & Hz)].
  - exfalso. rewrite <- Hx in Q. subst x. clear -E Q. revert l' E. induction l as [|y l IH]; intros l' E; cbn [clean_list] in E; [discriminate|].
    destruct (clean_list rclean op l) as [b'|r'] eqn:E'; [discriminate|]. destruct (rclean y) eqn:EY; try (injection E as E1 E2; congruence).
    destruct (eqb b0 _); [discriminate|]. injection E as ->. eapply IH; reflexivity.
  - exists z. apply in_flat_map. exists x. split; [now left|congruence].
Qed.
Lemma rsubst_live var val n r : rsubst var val n = Ok r -> live r.
Proof.
  destruct n as [z|op lev b|op lev l]; cbn [rsubst]; intros H; [discriminate|injection H as <-; left; do 3 eexists; reflexivity|]. inv_bind. destruct a as [b|l']; injection H as <-; [left; do 3 eexists; reflexivity|].
  change (live (lev_up (rclean (Seq op lev l')))). destruct (rclean_live (Seq op lev l')) as [(o & lv & b & ->)|(z & Hz)]; [left; cbn; do 3 eexists; reflexivity|].
  right. exists z. destruct (rclean (Seq op lev l')); auto.
Qed.
Lemma reval_f_lits z vs : forall k n r n', reval_f k vs n = Ok (r, n') -> In z (lits n) -> In z (lits n').
Proof.
  induction k as [|k IH]; intros n r n' H M; cbn [reval_f] in H; [discriminate|].
  destruct n as [y|o lv c|op lev l]; [discriminate|injection H as <- <-; auto|].
  inv_bind. apply (group_single_lits z) in Ha as M2; auto. destruct (group_single_shape _ _ _ _ Ha) as (l2 & ->). inv_bind. destruct a as (w, l3). injection H as <- <-.
  cbn [lits] in *. clear -Ha0 M2 IH. revert Ha0 M2. generalize false. revert w l3. induction l2 as [|e l2 IHl]; intros w l3 none H M; [destruct M|]. cbn [reval_list] in H.
  inv_bind. destruct a as (w', e'). assert (HE : In z (lits e) -> In z (lits e')) by (destruct e; [injection Ha as _ <-; auto|eapply IH; eauto|eapply IH; eauto]).
  cbn [flat_map] in *. apply in_app_or in M.
  destruct w' as [c|]; [destruct (eqb c (absorbing op))|].
  - injection H as <- <-. cbn [flat_map]. apply in_or_app. tauto.
  - inv_bind. destruct a as (w2, r'). injection H as <- <-. cbn [flat_map]. apply in_or_app. destruct M; auto. right. eapply IHl; eauto.
  - inv_bind. destruct a as (w2, r'). injection H as <- <-. cbn [flat_map]. apply in_or_app. destruct M; auto. right. eapply IHl; eauto.
Qed.
Lemma rfactorize_live ct x n b r : rfactorize ct x n = Ok (b, r) -> live n -> live r.
Proof.
  unfold rfactorize. intros H L. inv_bind. destruct a as (ts, fs).
  assert (SP : forall op lit vs s, rsplit op lit vs s = Ok (b, r) -> live r).
  { intros op lit vs s HS. unfold rsplit in HS. inv_bind. injection HS as _ <-. cbn [rappend] in Ha1. injection Ha1 as <-. cbn [rappend_loop app].
    destruct a as [y|o lv c|o lv l]; [right; exists lit; cbn; auto|destruct (eqb _ _); [left; do 3 eexists; reflexivity|right; exists lit; cbn; auto]|right; exists lit; cbn; auto]. }
  assert (EV : forall vs m w m', revaluate vs m = Ok (w, m') -> live m -> live m').
  { intros vs m w m' HE [(o & l & c & ->)|(z & Hz)]; [cbn in HE; injection HE as _ <-; left; do 3 eexists; reflexivity|]. right. exists z. eapply reval_f_lits; eauto. }
  destruct ts as [t|]; [destruct fs as [f|]|].
  - inv_bind. destruct a as (tv, s1). apply EV in Ha0; auto. destruct tv as [[|]|]; eauto. inv_bind. destruct a as (fv, s2). apply EV in Ha1; auto. destruct fv as [[|]|]; eauto.
    injection H as _ <-. auto.
  - inv_bind. injection H as _ <-. eapply rsubst_live; eauto.
  - inv_bind. injection H as _ <-. eapply rsubst_live; eauto.
Qed.
Lemma rfact_loop_live ct names : forall new n r, rfact_loop ct names new n = Ok r -> live n -> live r.
Proof.
  induction names as [|x names IH]; intros new n r H L; cbn [rfact_loop] in H; [injection H as <-; auto|].
  destruct (existsb _ _); [|eauto]. inv_bind. destruct a as (b, s). eapply IH; eauto. eapply rfactorize_live; eauto.
Qed.
(** a group found to have no element had none *)
Lemma rsimplify_empty k strict ord ct n o lv : rsimplify k strict ord ct false n = Ok (Seq o lv []) -> n = Seq o lv [].
Proof.
  destruct k as [|k]; cbn [rsimplify]; intros H; [discriminate|].
  destruct n as [z|op lev b|op lev l]; [discriminate|discriminate|].
  destruct (surfs (Seq op lev l)) as [|x xs] eqn:ES; [injection H as -> -> ->; reflexivity|exfalso]. inv_bind. rename a into s1, a0 into s2.
  assert (L : live (Seq op lev l)).
  { right. assert (I : In x (surfs (Seq op lev l))) by (rewrite ES; now left). unfold surfs in I. apply nodup_In, in_map_iff in I. destruct I as (z & _ & Hz). eauto. }
  apply rfact_loop_live in Ha; auto. destruct s2 as [z|o2 lv2 b|o2 lv2 l2].
  - discriminate.
  - discriminate.
  - destruct Ha as [(o1 & l1 & b1 & ->)|(z & Hz)].
    { destruct k; cbn in Ha0; discriminate. }
    apply (rjoin_lits z) in Ha0; auto. destruct (lv2 =? 0).
    + injection H as -> -> ->. destruct Ha0.
    + inv_bind. injection H as H. destruct a as [b|[|y l']]; discriminate.
Qed.

Lemma rsimplify_sound v ord ct (HC : compatible v ct) strict : forall k loop0 n r,
  rsimplify k strict ord ct loop0 n = Ok r -> nz n -> within strict (eval v n) (eval v r) /\ nz r.
Proof.
  induction k as [|k IH]; intros loop0 n r H N; [discriminate|].
  assert (H' : match surfs n with [] => Ok n | names =>
     do s1 <- rfact_loop ct (ord n) names n; do s2 <- rjoin k s1;
     match s2 with
     | Seq op lev l =>
        if lev =? 0 then Ok s2 else if loop0 then
          do _ <- mapM op_of l;
          do a0 <- rappend (Seq op 0 []) (filter is_and l);
          do o0 <- rappend (Seq op 0 []) (filter (fun e => negb (is_and e)) l);
          do a <- rsimplify k strict ord ct false a0;
          do o <- rsimplify k strict ord ct false o0;
          if strict && bop_eqb op AND && (match a with Cst _ _ false => true | _ => false end || match o with Cst _ _ false => true | _ => false end)
          then Err NeutralUpdate
          else do n1 <- (if truthy a then rappend (Seq op 0 []) [a] else Ok (Seq op 0 []));
               do n2 <- (if truthy o then rappend n1 [o] else Ok n1); rjoin k n2
        else do r <- rsimp_list (rsimplify k strict ord ct true) op l;
             Ok (match r with inl b => Cst op 0 b | inr [] => Cst op 0 (neutral op) | inr l' => Seq op lev l' end)
     | _ => Ok s2 end end = Ok r) by (destruct n; [discriminate|exact H|exact H]). clear H.
  destruct (surfs n) as [|nm names] eqn:ES; [injection H' as <-; split; auto using within_refl|].
  inv_bind. rename a into s1. rename a0 into s2.
  destruct (rfact_loop_sound v ct HC _ _ _ _ Ha N) as (E1 & N1); [intros x Hx; eapply surfs_pos'; [exact N|rewrite ES; exact Hx]|].
  destruct (rjoin_sound v _ _ _ Ha0) as (E2 & N2); [destruct s1; auto|]. rewrite E1 in E2. rewrite <- E2. clear Ha Ha0 E1 E2.
  destruct s2 as [z|op lev b|op lev l]; [injection H' as <-; split; auto using within_refl|injection H' as <-; split; auto using within_refl|].
  destruct (lev =? 0); [injection H' as <-; split; auto using within_refl|]. rewrite eval_seq. apply nz_seq in N2. destruct loop0.
  - inv_bind. rename a0 into a1, a1 into o1, a2 into a2, a3 into o2.
    apply (rappend_sound v) with (op := op) in Ha0; [|reflexivity|now apply nz_seq|apply filter_Forall; auto].
    apply (rappend_sound v) with (op := op) in Ha1; [|reflexivity|now apply nz_seq|apply filter_Forall; auto].
    destruct Ha0 as (NA & OA & EA), Ha1 as (NO & OO & EO). rewrite eval_seq, evl_nil, opb_neutral in EA, EO.
    assert (EMA : forall o lv, a2 = Seq o lv [] -> o = op) by (intros o lv ->; apply rsimplify_empty in Ha2; subst; auto).
    assert (EMO : forall o lv, o2 = Seq o lv [] -> o = op) by (intros o lv ->; apply rsimplify_empty in Ha3; subst; auto).
    apply IH in Ha2; auto. apply IH in Ha3; auto. destruct Ha2 as (WA & NA2), Ha3 as (WO & NO2). rewrite EA in WA. rewrite EO in WO.
    assert (SPLIT : evl v op l = opb op (evl v op (filter is_and l)) (evl v op (filter (fun e => negb (is_and e)) l))) by apply evl_filter.
    destruct (strict && bop_eqb op AND && _) eqn:EG; [discriminate|]. inv_bind.
    assert (DROP : forall c, (forall o lv, c = Seq o lv [] -> o = op) -> strict && bop_eqb op AND && match c with Cst _ _ false => true | _ => false end = false -> truthy c = false -> within strict (eval v c) (neutral op)).
    { intros c EM G T. destruct c as [z|o lv [|]|o lv [|x xs]]; try discriminate.
      - cbn [eval]. destruct op; cbn; [|apply within_refl]. rewrite andb_true_r in G. cbn in G. rewrite andb_true_r in G. subst strict. cbn. auto.
      - rewrite (EM _ _ eq_refl), eval_seq, evl_nil. apply within_refl. }
    assert (GA : strict && bop_eqb op AND && match a2 with Cst _ _ false => true | _ => false end = false) by (destruct (strict && bop_eqb op AND); auto; cbn in *; now apply orb_false_iff in EG).
    assert (GO : strict && bop_eqb op AND && match o2 with Cst _ _ false => true | _ => false end = false) by (destruct (strict && bop_eqb op AND); auto; cbn in *; now apply orb_false_iff in EG).
    rename a0 into n1. assert (X1 : nz n1 /\ op_is op n1 /\ within strict (eval v a2) (eval v n1)).
    { destruct (truthy a2) eqn:T.
      - apply (rappend_sound v) with (op := op) in Ha0; [|reflexivity|now apply nz_seq|auto]. destruct Ha0 as (P & Q & R). split; [|split]; auto.
        rewrite R, eval_seq, evl_nil, opb_neutral, evl_cons, evl_nil, opb_neutral_r. apply within_refl.
      - injection Ha0 as <-. split; [now apply nz_seq|split; [reflexivity|]]. rewrite eval_seq, evl_nil. auto. }
    destruct X1 as (N1' & O1 & W1). rename a3 into n2. assert (X2 : nz n2 /\ within strict (opb op (eval v n1) (eval v o2)) (eval v n2)).
    { destruct (truthy o2) eqn:T.
      - apply (rappend_sound v) with (op := op) in Ha1; auto. destruct Ha1 as (P & Q & R). split; auto. rewrite R, evl_cons, evl_nil, opb_neutral_r. apply within_refl.
      - injection Ha1 as <-. split; auto. rewrite <- (opb_neutral_r op (eval v n1)) at 2. apply within_opb; [apply within_refl|auto]. }
    destruct X2 as (N2' & W2). destruct (rjoin_sound v _ _ _ H') as (E3 & N3); [destruct n2; auto|]. rewrite E3. split; auto.
    eapply within_trans; [|exact W2]. rewrite SPLIT. eapply within_trans; [apply within_opb; [exact WA|exact WO]|]. apply within_opb; [exact W1|apply within_refl].
  - inv_bind. apply (rsimp_list_sound v strict) in Ha; auto.
    + destruct a as [b|l'].
      * injection H' as <-. destruct Ha as (_ & W). split; [exact W|cbn; lia].
      * destruct Ha as (W & NL). destruct l' as [|x l']; injection H' as <-.
        -- rewrite evl_nil in W. split; [exact W|cbn; lia].
        -- rewrite eval_seq. split; auto. now apply nz_seq.
    + intros e e' He Hs HN. eapply IH; eauto.
Qed.

(** a strict run is a run of the code *)
Lemma rsimp_list_mono f g op l r : (forall e x, f e = Ok x -> g e = Ok x) -> rsimp_list f op l = Ok r -> rsimp_list g op l = Ok r.
Proof.
  intros M. revert r. induction l as [|e l IH]; cbn [rsimp_list]; intros r H; auto. inv_bind. rewrite (IH _ Ha). cbn [bind]. destruct a; auto. inv_bind. rewrite (M _ _ Ha0). exact H.
Qed.
Lemma rsimplify_strict ord ct : forall k l0 n r, rsimplify k true ord ct l0 n = Ok r -> rsimplify k false ord ct l0 n = Ok r.
Proof.
  induction k as [|k IH]; intros l0 n r H; cbn [rsimplify] in *; [discriminate|].
  destruct n as [z|op lev b|op lev l]; auto.
  all: destruct (surfs _); auto; inv_bind; rewrite Ha; cbn [bind]; rewrite Ha0; cbn [bind]; destruct a0 as [|?|op2 lev2 l2]; auto;
    destruct (lev2 =? 0); auto; destruct l0;
    [inv_bind; rewrite Ha1, Ha2, Ha3; cbn [bind]; rewrite (IH _ _ _ Ha4), (IH _ _ _ Ha5); cbn [bind andb] in *; destruct (bop_eqb op2 AND && _); [discriminate|exact H]
    |inv_bind; erewrite rsimp_list_mono by (try eassumption; apply IH); exact H].
Qed.

(** ** evaluate returns, and knows the value when all the surfaces are known *)
Lemma no_const_seq op lev l : no_const (Seq op lev l) <-> Forall no_const l.
Proof. cbn. induction l as [|x l IH]; cbn; split; intros H; auto; [constructor; tauto|inversion H; tauto]. Qed.
Lemma reval_list_total f op vs : forall l none, (forall e, In e l -> is_seq e -> exists w e', f e = Ok (w, e')) -> exists r l', reval_list f op vs none l = Ok (r, l').
Proof.
  induction l as [|e l IH]; intros none Hf; cbn [reval_list]; [eauto|].
  assert (HE : exists w e', match e with Lit z => Ok (lit_value vs z, e) | _ => f e end = Ok (w, e')).
  { destruct e; [eauto|apply Hf; [now left|exact Logic.I]|apply Hf; [now left|exact Logic.I]]. }
  destruct HE as (w & e' & ->). cbn [bind]. assert (HL : forall none, exists r l', reval_list f op vs none l = Ok (r, l')) by (intros; apply IH; intros; apply Hf; auto; now right).
  destruct w as [b|].
  - destruct (eqb b (absorbing op)); [eauto|]. destruct (HL none) as (r & l' & ->). cbn. eauto.
  - destruct (HL true) as (r & l' & ->). cbn. eauto.
Qed.
Lemma reval_total vs : forall k n, (height n < k)%nat -> wf n -> no_const n -> is_seq n -> exists r n', reval_f k vs n = Ok (r, n').
Proof.
  induction k as [|k IH]; intros n HK W NC HS; [lia|]. cbn [reval_f]. destruct n as [z|o lv b|op lev l]; [destruct HS|destruct NC|].
  apply no_const_seq in NC. apply wf_seq in W. destruct W as (W0 & W1 & W2).
  destruct (group_single_total op lev l) as (l' & GS & G0 & G1).
  { left. eapply Forall_impl; [|exact NC]. intros []; cbn; tauto. }
  rewrite GS. cbn [bind]. rewrite height_seq in HK.
  destruct (reval_list_total (reval_f k vs) op vs l' false) as (r & l2 & ->); [|cbn; eauto].
  assert (SUB : forall e, In e l -> is_seq e -> exists w e', reval_f k vs e = Ok (w, e')).
  { intros e He SE. rewrite Forall_forall in *. apply IH; auto. apply hmax_In in He. lia. }
  intros e He SE. destruct (Z.eq_dec lev 0) as [-> | NL]; [rewrite G0 in He; auto|].
  destruct (G1 NL) as (_ & G2). destruct (G2 e He) as [Hi | (g & -> & HG)]; auto.
  assert (WG : wf (Seq op lev l')).
  { eapply group_single_wf; [exact GS|]. apply wf_seq. auto. }
  apply wf_seq in WG. destruct WG as (_ & _ & WG). rewrite Forall_forall in WG. pose proof (WG _ He) as Wg. apply wf_seq in Wg. destruct Wg as (_ & LG & _). specialize (LG eq_refl).
  destruct k as [|k]; [lia|]. cbn [reval_f group_single Z.eqb bind].
  destruct (reval_list_total (reval_f k vs) op vs g false) as (r & l2 & ->); [|cbn; eauto].
  intros e Hge SG. rewrite Forall_forall in LG. apply LG in Hge. destruct e; cbn in *; tauto.
Qed.

Lemma gs_loop_lits' z i : forall l g l' g', gs_loop i l g = Ok (l', g') ->
  In z (flat_map lits l') \/ In z (flat_map lits g') -> In z (flat_map lits l) \/ In z (flat_map lits g).
Proof.
  induction i as [|j IH]; intros l g l' g' H M; cbn [gs_loop] in H; [inv H; auto|].
  destruct (nth_error l j) as [e|] eqn:E; [|inv H; auto]. pose proof (nth_error_In _ _ E) as Hi.
  destruct e as [y|o lv b|o lv xs].
  - destruct (IH _ _ _ _ H M) as [Q|Q].
    + left. apply (Permutation_in z (Permutation_sym (Permutation_flat_map lits (remove_lit_perm _ _ Hi)))). cbn [flat_map lits]. apply in_or_app. auto.
    + rewrite flat_map_app in Q. apply in_app_or in Q. destruct Q as [Q|Q]; auto. left. apply in_flat_map. exists (Lit y). cbn in Q. cbn. tauto.
  - destruct (lv =? 0); [discriminate|eauto].
  - destruct xs as [|x [|x' xs]]; eauto. destruct (lv =? 0); eauto. destruct (IH _ _ _ _ H M) as [Q|Q].
    + left. apply (Permutation_in z (Permutation_sym (Permutation_flat_map lits (remove_at_perm _ _ _ E)))). cbn [flat_map]. apply in_or_app. auto.
    + rewrite flat_map_app in Q. apply in_app_or in Q. destruct Q as [Q|Q]; auto. left. apply in_flat_map. exists (Seq o lv [x]). cbn in Q |- *. auto.
Qed.
Lemma group_single_lits' z n m : group_single n = Ok m -> In z (lits m) -> In z (lits n).
Proof.
  destruct n as [y|op lev b|op lev l]; cbn [group_single]; intros H M; [discriminate|inv H; auto|].
  destruct (lev =? 0); [inv H; auto|]. inv_bind. destruct a as (l', g').
  assert (Q : In z (flat_map lits l') \/ In z (flat_map lits g')).
  { destruct g'; inv H; cbn [lits flat_map] in *; auto. apply in_app_or in M. tauto. }
  destruct (gs_loop_lits' z _ _ _ _ _ Ha Q) as [?|[]]; auto.
Qed.
Lemma reval_list_none f op vs : forall l none r l', reval_list f op vs none l = Ok (r, l') ->
  (forall e e', In e l -> f e = Ok (None, e') -> exists z, In z (lits e) /\ val_of vs (Z.abs z) = None) ->
  r = None -> none = true \/ exists z, In z (flat_map lits l) /\ val_of vs (Z.abs z) = None.
Proof.
  induction l as [|e l IH]; intros none r l' H Hf HB; cbn [reval_list] in H.
  - injection H as <- <-. destruct none; [auto|discriminate].
  - inv_bind. destruct a as (w, e'). assert (HE : w = None -> exists z, In z (lits e) /\ val_of vs (Z.abs z) = None).
    { intros ->. destruct e as [z|o lv b1|o lv xs]; [|eapply Hf; eauto; now left|eapply Hf; eauto; now left]. injection Ha as Ha _. unfold lit_value in Ha. exists z. split; [now left|]. destruct (val_of vs (Z.abs z)); [discriminate|auto]. }
    assert (Hf' : forall e e', In e l -> f e = Ok (None, e') -> exists z, In z (lits e) /\ val_of vs (Z.abs z) = None) by (intros; eapply Hf; eauto; now right).
    assert (LIFT : (exists z, In z (flat_map lits l) /\ val_of vs (Z.abs z) = None) -> exists z, In z (flat_map lits (e :: l)) /\ val_of vs (Z.abs z) = None).
    { intros (z & A & B). exists z. split; auto. cbn. apply in_or_app. auto. }
    destruct w as [c|].
    + destruct (eqb c (absorbing op)); [injection H as <- <-; discriminate|]. inv_bind. destruct a as (w, r'). injection H as <- <-. destruct (IH _ _ _ Ha0 Hf' HB); auto.
    + right. destruct (HE eq_refl) as (z & A & B). exists z. split; auto. cbn. apply in_or_app. auto.
Qed.
Lemma reval_none vs : forall k n n', reval_f k vs n = Ok (None, n') -> exists z, In z (lits n) /\ val_of vs (Z.abs z) = None.
Proof.
  induction k as [|k IH]; intros n n' H; cbn [reval_f] in H; [discriminate|].
  destruct n as [z|o lv c|op lev l]; [discriminate|discriminate|].
  inv_bind. destruct (group_single_shape _ _ _ _ Ha) as (l2 & ->). inv_bind. destruct a as (w, l3). injection H as -> <-.
  destruct (reval_list_none _ _ _ _ _ _ _ Ha0) as [?|(z & A & B)]; auto; [intros; eapply IH; eauto|discriminate|].
  exists z. split; auto. eapply group_single_lits'; eauto.
Qed.

(** ** check *)
Lemma rcheck_list_sound v f op : forall l none r l', rcheck_list f op none l = Ok (r, l') -> Forall wf l ->
  (forall e w e', In e l -> f e = Ok (w, e') -> wf e -> forall b, w = Some b -> eval v e = b) ->
  forall b, r = Some b -> evl v op l = b /\ (none = true -> b = absorbing op).
Proof.
  induction l as [|e l IH]; intros none r l' H W Hf b HB; cbn [rcheck_list] in H.
  - injection H as <- <-. destruct none; [discriminate|]. injection HB as <-. split; [apply evl_nil|discriminate].
  - inv_bind. destruct a as (w, e'). inversion W as [|? ? WE WL]; subst. assert (HE : forall b, w = Some b -> eval v e = b) by (intros; eapply Hf; eauto; now left).
    assert (Hf' : forall e w e', In e l -> f e = Ok (w, e') -> wf e -> forall b, w = Some b -> eval v e = b) by (intros; eapply Hf; eauto; now right).
    rewrite evl_cons. destruct w as [c|].
    + rewrite (HE c eq_refl). destruct (eqb c (absorbing op)) eqn:EC.
      * injection H as E1 _. apply eqb_absorb_true in EC. subst c. assert (b = absorbing op) by congruence. subst b. split; auto. apply opb_absorb.
      * apply eqb_absorb_false in EC. subst c. inv_bind. destruct a as (w, r'). injection H as E1 _. subst w. destruct (IH _ _ _ Ha0 WL Hf' _ eq_refl) as (P & Q). rewrite opb_neutral. auto.
    + inv_bind. destruct a as (w, r'). injection H as E1 _. subst w. destruct (IH _ _ _ Ha0 WL Hf' _ eq_refl) as (P & Q). specialize (Q eq_refl). rewrite P, Q. split; auto. apply opb_absorb_r.
Qed.
Lemma rcheck_sound v : forall k n r n', rcheck k n = Ok (r, n') -> wf n -> forall b, r = Some b -> eval v n = b.
Proof.
  induction k as [|k IH]; intros n r n' H W b HB; cbn [rcheck] in H; [discriminate|].
  destruct n as [z|o lv c|op lev l]; [discriminate|injection H as <- <-; injection HB as <-; reflexivity|].
  destruct (Z.eqb_spec lev 0) as [-> | NL].
  - injection H as <- _. destruct (Nat.eqb _ _) eqn:EQ; [discriminate|]. injection HB as <-.
    apply wf_seq in W. destruct W as (_ & W & _). pose proof (check0_eval v op 0 l (W eq_refl)) as C. unfold check0 in C. rewrite EQ in C. rewrite <- C. reflexivity.
  - inv_bind. pose proof (group_single_eval v _ _ Ha) as E. pose proof (group_single_wf _ _ Ha W) as W2. destruct (group_single_shape _ _ _ _ Ha) as (l2 & ->).
    inv_bind. destruct a as (w, l3). injection H as <- <-. apply wf_seq in W2. destruct W2 as (_ & _ & W2). rewrite <- E, eval_seq.
    eapply (rcheck_list_sound v); [exact Ha0|exact W2| |exact HB]. intros; eapply IH; eauto.
Qed.

(** ** evaluate computes the value of Kleene's three-valued logic *)
Definition kl vs op l := fold_right (fun c k => kop op (kleene vs c) k) (Some (neutral op)) l.
Lemma kl_cons vs op c l : kl vs op (c :: l) = kop op (kleene vs c) (kl vs op l). Proof. reflexivity. Qed.
Lemma kl_nil vs op : kl vs op [] = Some (neutral op). Proof. reflexivity. Qed.
Lemma kop_neutral op a : kop op (Some (neutral op)) a = a. Proof. destruct op, a as [[|]|]; reflexivity. Qed.
Lemma kop_neutral_r op a : kop op a (Some (neutral op)) = a. Proof. destruct op, a as [[|]|]; reflexivity. Qed.
Lemma kop_assoc op a b c : kop op a (kop op b c) = kop op (kop op a b) c. Proof. destruct op, a as [[|]|], b as [[|]|], c as [[|]|]; reflexivity. Qed.
Lemma kop_comm op a b : kop op a b = kop op b a. Proof. destruct op, a as [[|]|], b as [[|]|]; reflexivity. Qed.
Lemma kl_app vs op l m : kl vs op (l ++ m) = kop op (kl vs op l) (kl vs op m).
Proof. induction l as [|x l IH]; cbn [app]; rewrite ?kl_nil, ?kop_neutral; auto. rewrite !kl_cons, IH, kop_assoc. reflexivity. Qed.
Lemma kl_perm vs op l m : Permutation l m -> kl vs op l = kl vs op m.
Proof. induction 1; rewrite ?kl_cons; auto; try congruence. rewrite !kop_assoc. f_equal. apply kop_comm. Qed.
Lemma gs_loop_kl vs op i : forall l g l' g', gs_loop i l g = Ok (l', g') ->
  kop op (kl vs op g') (kl vs op l') = kop op (kl vs op g) (kl vs op l).
Proof.
  induction i as [|i IH]; intros l g l' g' H; simpl in H.
  - inv H. reflexivity.
  - destruct (nth_error l i) as [n|] eqn:E; [|inv H; reflexivity].
    destruct n as [z|o lv b|o lv xs].
    + apply IH in H. rewrite H. rewrite kl_app, kl_cons, kl_nil, kop_neutral_r.
      rewrite <- kop_assoc. f_equal.
      rewrite <- kl_cons. symmetry. apply kl_perm, remove_lit_perm.
      eapply nth_error_In; eauto.
    + destruct (lv =? 0); [discriminate|]. eauto.
    + destruct xs as [|x [|y xs]]; eauto.
      destruct (lv =? 0); eauto.
      apply IH in H. rewrite H. rewrite kl_app, kl_cons, kl_nil, kop_neutral_r.
      rewrite <- kop_assoc. f_equal.
      rewrite (kl_perm vs op l _ (remove_at_perm _ _ _ E)), kl_cons. f_equal.
      cbn [kleene fold_right]. now rewrite kop_neutral_r.
Qed.
Lemma group_single_kl vs n m : group_single n = Ok m -> kleene vs m = kleene vs n.
Proof.
  destruct n as [z|op lev b|op lev l]; simpl; intros H; try discriminate; [inv H; auto|].
  destruct (lev =? 0); [inv H; auto|]. inv_bind. destruct a as [l' g'].
  apply (gs_loop_kl vs op) in Ha. rewrite kl_nil, kop_neutral in Ha.
  change (kleene vs m = kl vs op l). rewrite <- Ha.
  destruct g' as [|g gs]; inv H.
  - rewrite kl_nil, kop_neutral. reflexivity.
  - reflexivity.
Qed.
Lemma reval_list_kl f op vs : forall l none r l', reval_list f op vs none l = Ok (r, l') ->
  (forall e w e', In e l -> f e = Ok (w, e') -> w = kleene vs e) ->
  r = if none then kop op None (kl vs op l) else kl vs op l.
Proof.
  induction l as [|e l IH]; intros none r l' H Hf; cbn [reval_list] in H.
  - injection H as <- <-. rewrite kl_nil. destruct none, op; reflexivity.
  - inv_bind. destruct a as (w, e'). assert (HE : w = kleene vs e).
    { destruct e as [z|o lv b1|o lv xs]; [|eapply Hf; eauto; now left|eapply Hf; eauto; now left]. injection Ha as <- _. reflexivity. }
    assert (Hf' : forall e w e', In e l -> f e = Ok (w, e') -> w = kleene vs e) by (intros; eapply Hf; eauto; now right).
    rewrite kl_cons, <- HE. destruct w as [c|].
    + destruct (eqb c (absorbing op)) eqn:EC.
      * injection H as <- <-. apply eqb_absorb_true in EC. subst c. destruct none, op, (kl vs _ l) as [[|]|]; reflexivity.
      * apply eqb_absorb_false in EC. subst c. inv_bind. destruct a as (w, r'). injection H as <- <-. rewrite kop_neutral. eapply IH; eauto.
    + inv_bind. destruct a as (w, r'). injection H as <- <-. rewrite (IH _ _ _ Ha0 Hf'). destruct none, op, (kl vs _ l) as [[|]|]; reflexivity.
Qed.
Lemma reval_kleene vs : forall k n r n', reval_f k vs n = Ok (r, n') -> r = kleene vs n.
Proof.
  induction k as [|k IH]; intros n r n' H; cbn [reval_f] in H; [discriminate|].
  destruct n as [z|o lv c|op lev l]; [discriminate|injection H as <- <-; reflexivity|].
  inv_bind. destruct (group_single_shape _ _ _ _ Ha) as (l2 & ->). inv_bind. destruct a as (w, l3). injection H as <- <-.
  rewrite <- (group_single_kl vs _ _ Ha). change (w = kl vs op l2). eapply (reval_list_kl _ _ _ _ false); eauto.
Qed.
