(** Soundness of the BoolSequence operations: the value at every point. *)
From Verif Require Import Prelude BoolSpec BoolSeq.
From Coq Require Import Permutation.

Ltac inv H := inversion H; subst; clear H.

(* ------------------------------------------------------------------ *)
(** * Algebra of n-ary operators *)

Definition opb (op : bop) (a b : bool) : bool :=
  match op with AND => a && b | OR => a || b end.

Definition evl (v : point) (op : bop) (l : list node) : bool :=
  match op with AND => forallb (eval v) l | OR => existsb (eval v) l end.

Lemma eval_seq v op lev l : eval v (Seq op lev l) = evl v op l.
Proof. destruct op; reflexivity. Qed.
Lemma evl_nil v op : evl v op [] = neutral op.
Proof. destruct op; reflexivity. Qed.
Lemma evl_cons v op x l : evl v op (x :: l) = opb op (eval v x) (evl v op l).
Proof. destruct op; reflexivity. Qed.
Lemma opb_assoc op a b c : opb op a (opb op b c) = opb op (opb op a b) c.
Proof. destruct op, a, b, c; reflexivity. Qed.
Lemma opb_comm op a b : opb op a b = opb op b a.
Proof. destruct op, a, b; reflexivity. Qed.
Lemma opb_idem op a : opb op a a = a.
Proof. destruct op, a; reflexivity. Qed.
Lemma opb_neutral op a : opb op (neutral op) a = a.
Proof. destruct op, a; reflexivity. Qed.
Lemma opb_neutral_r op a : opb op a (neutral op) = a.
Proof. destruct op, a; reflexivity. Qed.
Lemma opb_absorb op a : opb op (absorbing op) a = absorbing op.
Proof. destruct op, a; reflexivity. Qed.
Lemma opb_absorb_r op a : opb op a (absorbing op) = absorbing op.
Proof. destruct op, a; reflexivity. Qed.
Lemma evl_app v op l1 l2 : evl v op (l1 ++ l2) = opb op (evl v op l1) (evl v op l2).
Proof.
  induction l1 as [|x l1 IH]; simpl app.
  - rewrite evl_nil, opb_neutral; reflexivity.
  - rewrite !evl_cons, IH, opb_assoc; reflexivity.
Qed.
Lemma evl_perm v op l1 l2 : Permutation l1 l2 -> evl v op l1 = evl v op l2.
Proof.
  induction 1; rewrite ?evl_cons, ?opb_assoc; auto; try congruence.
  f_equal. apply opb_comm.
Qed.
Lemma evl_in_absorb v op x l : In x l -> eval v x = absorbing op -> evl v op l = absorbing op.
Proof.
  intros HI HE. apply in_split in HI. destruct HI as (l1 & l2 & ->).
  rewrite evl_app, evl_cons, HE, opb_absorb, opb_absorb_r; reflexivity.
Qed.
Lemma eqb_absorb_false op b : eqb b (absorbing op) = false -> b = neutral op.
Proof. destruct op, b; cbv; congruence. Qed.
Lemma eqb_absorb_true op b : eqb b (absorbing op) = true -> b = absorbing op.
Proof. destruct op, b; cbv; congruence. Qed.
Lemma evl_ext v op l1 l2 : map (eval v) l1 = map (eval v) l2 -> evl v op l1 = evl v op l2.
Proof.
  revert l2; induction l1 as [|x l1 IH]; intros [|y l2] H; try discriminate; auto.
  simpl in H; inv H. rewrite !evl_cons. f_equal; auto.
Qed.

(* ------------------------------------------------------------------ *)
(** * Well formed trees *)

Ltac cI := first [exact I | assumption | solve [cbn; lia] | solve [cbn in *; lia]].
Lemma wf_cst op b : wf (Cst op (-1) b). Proof. cbn; lia. Qed.
Lemma wf_cst0 op b : wf (Cst op 0 b). Proof. cbn; lia. Qed.
#[export] Hint Resolve wf_cst wf_cst0 : core.

Lemma fold_wf l : fold_right (fun c p => wf c /\ p) True l <-> Forall wf l.
Proof.
  induction l as [|x l IH]; simpl; split; intros H; auto.
  - constructor; tauto.
  - inversion H; subst; tauto.
Qed.
Lemma wf_seq op lev l :
  wf (Seq op lev l) <-> 0 <= lev /\ (lev = 0 -> Forall is_lit l) /\ Forall wf l.
Proof. simpl. rewrite fold_wf. tauto. Qed.

(* ------------------------------------------------------------------ *)
(** * Literals *)

Lemma lit_val_opp v z : z <> 0 -> lit_val v (- z) = negb (lit_val v z).
Proof.
  intros Hz. unfold lit_val.
  destruct (Z.ltb_spec z 0), (Z.ltb_spec (- z) 0); try lia.
  all: rewrite ?Z.opp_involutive, ?negb_involutive; reflexivity.
Qed.

Lemma in_lits_In z l : in_lits z l = true <-> In (Lit z) l.
Proof.
  unfold in_lits. rewrite existsb_exists. split.
  - intros (x & HI & Hx). destruct x; try discriminate.
    apply Z.eqb_eq in Hx; subst; auto.
  - intros HI. exists (Lit z). split; auto. apply Z.eqb_refl.
Qed.

(* ------------------------------------------------------------------ *)
(** * append *)

Definition arg_val (v : point) (a : arg) : bool :=
  match a with AN n => eval v n | AB b => b end.
Definition args_val (v : point) (op : bop) (l : list arg) : bool :=
  fold_right (fun a b => opb op (arg_val v a) b) (neutral op) l.

Lemma append_loop_eval v op args : forall lev l,
  eval v (append_loop op lev l args) = opb op (evl v op l) (args_val v op args).
Proof.
  induction args as [|a args IH]; intros lev l; simpl append_loop.
  - unfold args_val; simpl fold_right. rewrite opb_neutral_r, eval_seq. reflexivity.
  - unfold args_val; simpl fold_right. fold (args_val v op args).
    destruct a as [[s|o lv b|o lv l']|b]; simpl arg_val.
    + destruct (in_lits s l) eqn:E1.
      * rewrite IH. rewrite opb_assoc. f_equal.
        apply in_lits_In in E1. apply in_split in E1. destruct E1 as (l1 & l2 & ->).
        rewrite evl_app, evl_cons. simpl eval.
        destruct op, (evl v AND l1), (lit_val v s), (evl v AND l2), (evl v OR l1), (evl v OR l2);
          reflexivity.
      * destruct (in_lits (- s) l) eqn:E2.
        -- simpl eval.
           assert (s <> 0) by (intros ->; simpl in E2; congruence).
           apply in_lits_In in E2. rewrite opb_assoc.
           replace (opb op (evl v op l) (lit_val v s)) with (absorbing op);
             [symmetry; apply opb_absorb|].
           apply in_split in E2. destruct E2 as (l1 & l2 & ->).
           rewrite evl_app, evl_cons. simpl eval. rewrite lit_val_opp by auto.
           destruct op, (evl v AND l1), (lit_val v s), (evl v AND l2), (evl v OR l1), (evl v OR l2);
             reflexivity.
        -- rewrite IH, evl_app, evl_cons, evl_nil, opb_neutral_r, opb_assoc. reflexivity.
    + destruct (eqb b (absorbing op)) eqn:E.
      * apply eqb_absorb_true in E. subst. simpl. rewrite opb_absorb, opb_absorb_r. reflexivity.
      * apply eqb_absorb_false in E. subst. rewrite IH. simpl. rewrite opb_neutral. reflexivity.
    + rewrite IH, evl_app, evl_cons, evl_nil, opb_neutral_r, opb_assoc. reflexivity.
    + destruct (eqb b (neutral op)) eqn:E.
      * apply eqb_prop in E. subst. rewrite IH, opb_neutral. reflexivity.
      * simpl eval. assert (b = absorbing op) as -> by (destruct op, b; cbv in *; congruence).
        rewrite opb_absorb, opb_absorb_r. reflexivity.
Qed.

Lemma append_eval v self args r :
  append self args = Ok r ->
  (forall op lev l, self = Seq op lev l -> eval v r = opb op (eval v self) (args_val v op args)) /\
  (forall op lev b, self = Cst op lev b -> eval v r = opb op b (args_val v op args)).
Proof.
  intros H; split; intros; subst; simpl in H.
  - inv H. rewrite append_loop_eval, eval_seq. reflexivity.
  - destruct (eqb b (neutral op)) eqn:E.
    + apply eqb_prop in E. subst. rewrite opb_neutral.
      unfold assign_tuple in H.
      destruct args as [|[[z|o l0 b|o l0 l]|b] [|]]; inv H; unfold args_val; simpl;
        rewrite opb_neutral_r; reflexivity.
    + inv H. assert (b = absorbing op) as -> by (destruct op, b; cbv in *; congruence).
      rewrite opb_absorb. reflexivity.
Qed.

Definition wf_arg (a : arg) : Prop := match a with AN n => wf n | AB _ => True end.

Lemma append_loop_wf op args : forall lev l,
  0 <= lev -> (lev = 0 -> Forall is_lit l) -> Forall wf l -> Forall wf_arg args ->
  wf (append_loop op lev l args).
Proof.
  induction args as [|a args IH]; intros lev l H0 H1 H2 H3; simpl append_loop.
  - apply wf_seq; auto.
  - apply Forall_cons_iff in H3. destruct H3 as [Hwa H3].
    destruct a as [[s|o lv b|o lv l']|b].
    + destruct (in_lits s l); [auto|]. destruct (in_lits (- s) l); [cI|].
      apply IH; auto; try lia.
      * intros E. apply Forall_app; split; [apply H1; lia|repeat constructor].
      * apply Forall_app; split; auto.
    + destruct (eqb b (absorbing op)); [cI|auto].
    + assert (0 <= lv) by (apply wf_seq in Hwa; tauto).
      apply IH; auto; try lia. apply Forall_app; split; auto.
    + destruct (eqb b (neutral op)); [auto|cI].
Qed.

Lemma append_wf self args r :
  wf self -> Forall wf_arg args -> append self args = Ok r -> wf r.
Proof.
  intros W WA H. destruct self; simpl in H; try discriminate.
  - destruct (eqb b (neutral op)).
    + unfold assign_tuple in H.
      destruct args as [|[[z|o l0 b'|o l0 l]|b'] [|]]; inv H; inv WA; auto.
    + inv H; cI.
  - inv H. apply wf_seq in W. destruct W as (? & ? & ?). apply append_loop_wf; auto.
Qed.

(* ------------------------------------------------------------------ *)
(** * copy *)
Lemma copy_id n : copy n = n.
Proof.
  induction n as [z|op lev b|op lev l IH] using node_ind'; simpl; auto.
  f_equal. induction IH as [|x l Hx Hl IHl]; simpl; congruence.
Qed.

(* ------------------------------------------------------------------ *)
(** * group_single *)

Lemma remove_lit_perm z l : In (Lit z) l -> Permutation l (Lit z :: remove_lit z l).
Proof.
  induction l as [|x l IH]; simpl; intros H; [tauto|].
  destruct x as [y|o lv b|o lv xs].
  - destruct (Z.eqb_spec y z) as [->|Hn]; [reflexivity|].
    destruct H as [H|H]; [congruence|].
    rewrite perm_swap. constructor. auto.
  - destruct H as [H|H]; [discriminate|]. rewrite perm_swap. constructor; auto.
  - destruct H as [H|H]; [discriminate|]. rewrite perm_swap. constructor; auto.
Qed.

Lemma remove_at_perm {A} i (l : list A) x :
  nth_error l i = Some x -> Permutation l (x :: remove_at i l).
Proof.
  revert i; induction l as [|y l IH]; intros [|i] H; try discriminate.
  - inv H. reflexivity.
  - simpl in *. rewrite perm_swap. constructor. auto.
Qed.

Lemma gs_loop_eval v op i : forall l g l' g',
  gs_loop i l g = Ok (l', g') ->
  opb op (evl v op g') (evl v op l') = opb op (evl v op g) (evl v op l).
Proof.
  induction i as [|i IH]; intros l g l' g' H; simpl in H.
  - inv H. reflexivity.
  - destruct (nth_error l i) as [n|] eqn:E; [|inv H; reflexivity].
    destruct n as [z|o lv b|o lv xs].
    + apply IH in H. rewrite H. rewrite evl_app, evl_cons, evl_nil, opb_neutral_r.
      rewrite <- opb_assoc. f_equal.
      rewrite <- evl_cons. symmetry. apply evl_perm, remove_lit_perm.
      eapply nth_error_In; eauto.
    + destruct (lv =? 0); [discriminate|]. eauto.
    + destruct xs as [|x [|y xs]]; eauto.
      destruct (lv =? 0); eauto.
      apply IH in H. rewrite H. rewrite evl_app, evl_cons, evl_nil, opb_neutral_r.
      rewrite <- opb_assoc. f_equal.
      rewrite (evl_perm v op l _ (remove_at_perm _ _ _ E)), evl_cons. f_equal.
      rewrite eval_seq, evl_cons, evl_nil. destruct o, (eval v x); reflexivity.
Qed.

Lemma group_single_eval v n m : group_single n = Ok m -> eval v m = eval v n.
Proof.
  destruct n as [z|op lev b|op lev l]; simpl; intros H; try discriminate; [inv H; auto|].
  destruct (lev =? 0); [inv H; auto|]. inv_bind. destruct a as [l' g'].
  apply (gs_loop_eval v op) in Ha. rewrite evl_nil, opb_neutral in Ha.
  change (eval v m = eval v (Seq op lev l)). rewrite eval_seq, <- Ha.
  destruct g' as [|g gs]; inv H; rewrite eval_seq.
  - rewrite evl_nil, opb_neutral. reflexivity.
  - rewrite evl_cons, eval_seq. reflexivity.
Qed.

Lemma remove_lit_incl z l x : In x (remove_lit z l) -> In x l.
Proof.
  induction l as [|y l IH]; simpl; auto. destruct y as [y|o lv b|o lv xs]; simpl.
  - destruct (y =? z); simpl; tauto.
  - tauto.
  - tauto.
Qed.
Lemma remove_at_incl {A} i (l : list A) x : In x (remove_at i l) -> In x l.
Proof.
  revert i; induction l as [|y l IH]; intros [|i]; simpl; auto.
  intros [H|H]; eauto.
Qed.
Lemma Forall_incl {A} (P : A -> Prop) l l' :
  (forall x, In x l' -> In x l) -> Forall P l -> Forall P l'.
Proof. rewrite !Forall_forall. auto. Qed.

Lemma gs_loop_wf i : forall l g l' g',
  gs_loop i l g = Ok (l', g') -> Forall wf l -> Forall wf g -> Forall is_lit g ->
  Forall wf l' /\ Forall wf g' /\ Forall is_lit g' /\ (forall x, In x l' -> In x l).
Proof.
  induction i as [|i IH]; intros l g l' g' H Wl Wg Lg; simpl in H.
  - inv H. auto.
  - destruct (nth_error l i) as [n|] eqn:E; [|inv H; auto].
    assert (Hn : wf n) by (eapply Forall_forall in Wl; [exact Wl|eapply nth_error_In; eauto]).
    destruct n as [z|o lv b|o lv xs].
    + apply IH in H; auto.
      * destruct H as (?&?&?&Hi). repeat split; auto. intros; eapply remove_lit_incl; eauto.
      * eapply Forall_incl; [apply remove_lit_incl|]; auto.
      * apply Forall_app; auto.
      * apply Forall_app; split; auto. repeat constructor.
    + destruct (lv =? 0); [discriminate|]. eauto.
    + destruct xs as [|x [|y xs]]; eauto.
      destruct (Z.eqb_spec lv 0); eauto.
      apply wf_seq in Hn. destruct Hn as (? & HL & HW). specialize (HL e).
      apply Forall_cons_iff in HL; destruct HL as [HLx _].
      apply Forall_cons_iff in HW; destruct HW as [HWx _].
      apply IH in H; auto.
      * destruct H as (?&?&?&Hi). repeat split; auto. intros; eapply remove_at_incl; eauto.
      * eapply Forall_incl; [apply remove_at_incl|]; auto.
      * apply Forall_app; auto.
      * apply Forall_app; split; auto.
Qed.

Lemma group_single_wf n m : group_single n = Ok m -> wf n -> wf m.
Proof.
  destruct n as [z|op lev b|op lev l]; simpl; intros H W; try discriminate; [inv H; auto|].
  change (wf (Seq op lev l)) in W.
  destruct (Z.eqb_spec lev 0) as [->|Hl]; [inv H; auto|]. inv_bind. destruct a as [l' g'].
  apply wf_seq in W. destruct W as (W0 & W1 & W2).
  apply gs_loop_wf in Ha; auto. destruct Ha as (A1 & A2 & A3 & _).
  destruct g' as [|g gs]; inv H; apply wf_seq; repeat split; auto; try lia.
  constructor; auto. apply wf_seq; repeat split; auto; lia.
Qed.

Lemma group_single_shape op lev l m :
  group_single (Seq op lev l) = Ok m -> exists l', m = Seq op lev l'.
Proof.
  simpl. destruct (lev =? 0); intros H; [inv H; eauto|]. inv_bind. destruct a as [l' g'].
  destruct g'; inv H; eauto.
Qed.

(* ------------------------------------------------------------------ *)
(** * clean *)

Lemma clean_list_eval v op f l :
  (forall e, In e l -> eval v (f e) = eval v e) ->
  match clean_list f op l with
  | inl b => evl v op l = b
  | inr l' => evl v op l' = evl v op l
  end.
Proof.
  induction l as [|e r IH]; intros Hf; simpl; auto.
  assert (Hr : forall e, In e r -> eval v (f e) = eval v e) by (intros; apply Hf; simpl; auto).
  specialize (IH Hr).
  destruct (clean_list f op r) as [b|r'] eqn:E.
  - rewrite evl_cons, IH.
    assert (b = absorbing op).
    { clear -E. revert E. induction r as [|x r IHr]; simpl; [discriminate|].
      destruct (clean_list f op r); [intros H; inv H; auto|].
      destruct (f x) as [z|o lv b'|o lv xs]; try discriminate.
      destruct (eqb b' (absorbing op)) eqn:E'; try discriminate.
      intros H; inv H. apply eqb_absorb_true; auto. }
    rewrite H. apply opb_absorb_r.
  - assert (He : eval v (f e) = eval v e) by (apply Hf; simpl; auto).
    destruct (f e) as [z|o lv b'|o lv xs].
    + rewrite !evl_cons, IH. congruence.
    + simpl in He. subst. destruct (eqb (eval v e) (absorbing op)) eqn:E'.
      * rewrite evl_cons. apply eqb_absorb_true in E'. rewrite E', opb_absorb; reflexivity.
      * rewrite evl_cons. apply eqb_absorb_false in E'. rewrite E', opb_neutral. auto.
    + rewrite !evl_cons, IH. congruence.
Qed.

Lemma clean_end_eval v op lev l r :
  match r with inl b => evl v op l = b | inr l' => evl v op l' = evl v op l end ->
  eval v (clean_end op lev r) = evl v op l.
Proof.
  destruct r as [b|[|x l']]; intros H.
  - simpl; auto.
  - simpl. rewrite <- H, evl_nil. reflexivity.
  - simpl clean_end. rewrite eval_seq; auto.
Qed.

Lemma clean_eval v n : eval v (clean n) = eval v n.
Proof.
  induction n as [z|op lev b|op lev l IH] using node_ind'; auto.
  simpl clean. rewrite eval_seq. apply clean_end_eval, clean_list_eval.
  rewrite Forall_forall in IH. auto.
Qed.

Lemma clean_self_eval v n : eval v (clean_self n) = eval v n.
Proof.
  destruct n as [z|op lev b|op lev l]; auto.
  simpl clean_self. rewrite eval_seq. apply clean_end_eval, clean_list_eval. auto.
Qed.

Lemma clean_list_incl f op l l' :
  clean_list f op l = inr l' -> forall x, In x l' -> exists e, In e l /\ x = f e.
Proof.
  revert l'; induction l as [|e r IH]; simpl; intros l' H x Hx.
  - inv H; inv Hx.
  - destruct (clean_list f op r) as [b|r']; [discriminate|].
    destruct (f e) as [z|o lv b'|o lv xs] eqn:E.
    + inv H. destruct Hx as [<-|Hx]; eauto.
      destruct (IH _ eq_refl _ Hx) as (e' & ? & ?). eauto.
    + destruct (eqb b' (absorbing op)); inv H.
      destruct (IH _ eq_refl _ Hx) as (e' & ? & ?). eauto.
    + inv H. destruct Hx as [<-|Hx]; eauto.
      destruct (IH _ eq_refl _ Hx) as (e' & ? & ?). eauto.
Qed.

Lemma clean_end_wf f op lev l :
  (forall e, In e l -> wf e -> wf (f e)) -> (forall e, is_lit e -> f e = e) ->
  wf (Seq op lev l) -> wf (clean_end op lev (clean_list f op l)).
Proof.
  intros Hf Hl W. apply wf_seq in W. destruct W as (W0 & W1 & W2).
  destruct (clean_list f op l) as [b|l'] eqn:E; [cI|].
  pose proof (clean_list_incl _ _ _ _ E) as Hi.
  destruct l' as [|x l']; [cI|]. simpl clean_end. apply wf_seq. repeat split; auto.
  - intros Hlev. specialize (W1 Hlev). rewrite Forall_forall in *. intros y Hy.
    destruct (Hi _ Hy) as (e & He & ->). rewrite Hl; auto.
  - rewrite Forall_forall in *. intros y Hy.
    destruct (Hi _ Hy) as (e & He & ->). auto.
Qed.

Lemma clean_wf n : wf n -> wf (clean n).
Proof.
  induction n as [z|op lev b|op lev l IH] using node_ind'; auto.
  intros W. simpl clean. apply clean_end_wf; auto.
  - rewrite Forall_forall in IH. auto.
  - intros e He. destruct e; simpl in He; tauto || reflexivity.
Qed.
Lemma clean_self_wf n : wf n -> wf (clean_self n).
Proof. destruct n; auto. intros W. simpl clean_self. apply clean_end_wf; auto. Qed.

(* ------------------------------------------------------------------ *)
(** * level_update *)

Lemma level_update_eval v n : eval v (level_update n) = eval v n.
Proof.
  induction n as [z|op lev b|op lev l IH] using node_ind'; auto.
  simpl level_update. rewrite !eval_seq. apply evl_ext. rewrite map_map.
  induction IH; simpl; congruence.
Qed.

Definition lstep (m : Z) (c : node) : Z :=
  match c with Lit _ => m | _ => Z.max (level_of c + 1) m end.

Lemma lstep_ge l : forall m, m <= fold_left lstep l m.
Proof.
  induction l as [|x l IH]; intros m; simpl; [lia|].
  specialize (IH (lstep m x)). destruct x; simpl in *; lia.
Qed.
Lemma lstep_zero l : forall m, 0 <= m ->
  (forall x, In x l -> is_lit x \/ 0 <= level_of x) ->
  fold_left lstep l m = 0 -> Forall is_lit l.
Proof.
  induction l as [|x l IH]; intros m Hm Hl H; auto. simpl in H.
  destruct (Hl x) as [Hx|Hx]; [left; auto| |].
  - constructor; auto. eapply IH; [exact Hm| |].
    + intros; apply Hl; right; auto.
    + destruct x; simpl in *; auto; tauto.
  - pose proof (lstep_ge l (lstep m x)). destruct x; simpl in *; try lia.
Qed.
Lemma level_update_level n : is_lit n \/ 0 <= level_of (level_update n).
Proof.
  destruct n as [z|op lev b|op lev l]; simpl; auto; [right; lia|].
  right. change (0 <= fold_left lstep (map level_update l) 0). apply lstep_ge.
Qed.

Lemma nz_level_update_wf n : wf n -> wf (level_update n).
Proof.
  induction n as [z|op lev b|op lev l IH] using node_ind'; auto; [intros _; simpl; lia|].
  intros W. apply wf_seq in W. destruct W as (W0 & W1 & W2).
  simpl level_update. fold lstep. apply wf_seq. split; [|split].
  - apply (lstep_ge (map level_update l) 0).
  - apply (lstep_zero _ 0); [lia|]. intros x Hx. apply in_map_iff in Hx.
    destruct Hx as (y & <- & Hy). destruct (level_update_level y) as [H|H]; auto.
    left. destruct y; simpl in *; tauto.
  - rewrite Forall_forall in *. intros x Hx. apply in_map_iff in Hx.
    destruct Hx as (y & <- & Hy). auto.
Qed.

(** literals are non zero and constants carry a level <= 0: the part of [wf]
    that does not depend on the levels of lists *)
Fixpoint nz (n : node) : Prop :=
  match n with
  | Lit z => z <> 0
  | Cst _ lev _ => lev <= 0
  | Seq _ _ l => fold_right (fun c p => nz c /\ p) True l
  end.
Lemma fold_nz l : fold_right (fun c p => nz c /\ p) True l <-> Forall nz l.
Proof.
  induction l as [|x l IH]; simpl; split; intros H; auto.
  - constructor; tauto.
  - inversion H; subst; tauto.
Qed.
Lemma nz_seq op lev l : nz (Seq op lev l) <-> Forall nz l.
Proof. simpl. apply fold_nz. Qed.
Lemma wf_nz n : wf n -> nz n.
Proof.
  induction n as [z|op lev b|op lev l IH] using node_ind'; auto.
  intros W. apply wf_seq in W. destruct W as (_ & _ & W). apply nz_seq.
  rewrite Forall_forall in *. auto.
Qed.
Lemma level_update_wf n : nz n -> wf (level_update n).
Proof.
  induction n as [z|op lev b|op lev l IH] using node_ind'; auto; [intros _; simpl; lia|].
  intros W. apply nz_seq in W. simpl level_update. fold lstep. apply wf_seq. split; [|split].
  - apply (lstep_ge (map level_update l) 0).
  - apply (lstep_zero _ 0); [lia|]. intros x Hx. apply in_map_iff in Hx.
    destruct Hx as (y & <- & Hy). destruct (level_update_level y) as [H|H]; auto.
    left. destruct y; simpl in *; tauto.
  - rewrite Forall_forall in *. intros x Hx. apply in_map_iff in Hx.
    destruct Hx as (y & <- & Hy). auto.
Qed.
Lemma clean_self_nz n : nz n -> nz (clean_self n).
Proof.
  destruct n as [z|op lev b|op lev l]; auto. intros W. apply nz_seq in W.
  simpl clean_self.
  destruct (clean_list (fun e => e) op l) as [b|l'] eqn:E; [cI|].
  pose proof (clean_list_incl _ _ _ _ E) as Hi.
  destruct l' as [|x l']; [cI|]. apply nz_seq.
  rewrite Forall_forall in *. intros y Hy. destruct (Hi _ Hy) as (e & He & ->). auto.
Qed.

(* ------------------------------------------------------------------ *)
(** * check *)

Definition lits_of (l : list node) : list Z :=
  flat_map (fun n => match n with Lit z => [z] | _ => [] end) l.

Lemma NoDup_map_abs l :
  NoDup l -> (forall z, In z l -> In (- z) l -> z = 0) -> NoDup (map Z.abs l).
Proof.
  induction l as [|x l IH]; intros Hn Hp; simpl; [constructor|].
  inv Hn. constructor.
  - intros HI. apply in_map_iff in HI. destruct HI as (y & Hy & Hin).
    assert (y = x \/ y = - x) as [->| ->] by lia; auto.
    assert (x = 0) by (apply Hp; simpl; auto). subst. simpl in Hin. auto.
  - apply IH; auto. intros; apply Hp; simpl; auto.
Qed.

Lemma nodup_abs_len l :
  (forall z, In z l -> In (- z) l -> z = 0) ->
  length (nodup Z.eq_dec (map Z.abs l)) = length (nodup Z.eq_dec l).
Proof.
  intros Hp.
  assert (Hp' : forall z, In z (nodup Z.eq_dec l) -> In (- z) (nodup Z.eq_dec l) -> z = 0)
    by (intros z; rewrite !nodup_In; auto).
  pose proof (NoDup_map_abs _ (NoDup_nodup Z.eq_dec l) Hp') as HN.
  rewrite <- (map_length Z.abs (nodup Z.eq_dec l)).
  apply Permutation_length, NoDup_Permutation; auto.
  - apply NoDup_nodup.
  - intros x. rewrite nodup_In, !in_map_iff. setoid_rewrite nodup_In. tauto.
Qed.

Lemma lits_lit_list l : Forall is_lit l -> flat_map lits l = lits_of l.
Proof.
  induction 1 as [|x l Hx Hl IH]; auto. destruct x; simpl in *; try tauto. f_equal; auto.
Qed.
Lemma In_lits_of z l : In z (lits_of l) <-> In (Lit z) l.
Proof.
  unfold lits_of. rewrite in_flat_map. split.
  - intros (x & Hx & Hz). destruct x; simpl in Hz; try tauto. destruct Hz as [<-|[]]. auto.
  - intros H. exists (Lit z). simpl; auto.
Qed.

Lemma check0_eval v op lev l :
  Forall is_lit l -> eval v (check0 op lev l) = eval v (Seq op lev l).
Proof.
  intros HL. unfold check0.
  destruct (Nat.eqb_spec (count_distinct l) (length (surfs (Seq op lev l)))) as [|Hne]; auto.
  simpl eval at 1. rewrite eval_seq. symmetry.
  unfold count_distinct, surfs in Hne. fold (lits_of l) in Hne. simpl lits in Hne.
  rewrite (lits_lit_list _ HL) in Hne.
  assert (Hf : filter (fun n => match n with Lit _ => false | _ => true end) l = []).
  { clear Hne. induction HL as [|x l Hx]; auto. destruct x; simpl in *; tauto. }
  rewrite Hf, Nat.add_0_r in Hne.
  assert (exists z, In z (lits_of l) /\ In (- z) (lits_of l) /\ z <> 0) as (z & H1 & H2 & H3).
  { destruct (Exists_dec (fun z => In (- z) (lits_of l) /\ z <> 0) (lits_of l)) as [HE|HE].
    - intros z. destruct (in_dec Z.eq_dec (- z) (lits_of l)), (Z.eq_dec z 0); tauto.
    - apply Exists_exists in HE. destruct HE as (z & ? & ? & ?). eauto.
    - exfalso. apply Hne. symmetry. apply nodup_abs_len. intros z Hz Hz'.
      destruct (Z.eq_dec z 0); auto. exfalso. apply HE, Exists_exists. eauto. }
  rewrite In_lits_of in H1, H2.
  destruct (Bool.bool_dec (lit_val v z) (absorbing op)) as [E|E].
  - eapply evl_in_absorb; [exact H1|exact E].
  - eapply evl_in_absorb; [exact H2|]. simpl. rewrite lit_val_opp by auto.
    destruct op, (lit_val v z); simpl in *; congruence.
Qed.

Lemma check0_wf op lev l : wf (Seq op lev l) -> wf (check0 op lev l).
Proof. intros W. unfold check0. destruct (Nat.eqb _ _); auto; cI. Qed.

Lemma check_list_spec v op f l r :
  check_list f op l = Ok r ->
  (forall e e', In e l -> f e = Ok e' -> eval v e' = eval v e) ->
  match r with inl b => evl v op l = b /\ b = absorbing op | inr l' => evl v op l' = evl v op l end.
Proof.
  revert r; induction l as [|e l IH]; simpl; intros r H Hf; [inv H; auto|].
  inv_bind. rename a into r1.
  specialize (IH _ Ha (fun e0 e' Hi => Hf e0 e' (or_intror Hi))).
  destruct r1 as [b|r'].
  - inv H. destruct IH as (IH & ->). rewrite evl_cons, IH, opb_absorb_r. auto.
  - inv_bind. rename a into e'.
    specialize (Hf e e' (or_introl eq_refl) Ha0).
    destruct e' as [z|o lv b|o lv xs]; [|destruct (eqb b (absorbing op)) eqn:E|];
      inv H; rewrite ?evl_cons.
    + rewrite IH; congruence.
    + apply eqb_absorb_true in E. subst. simpl in Hf. rewrite <- Hf, opb_absorb. auto.
    + apply eqb_absorb_false in E. subst. simpl in Hf. rewrite <- Hf, opb_neutral. auto.
    + rewrite IH; congruence.
Qed.

Lemma check_list_incl f op l l' :
  check_list f op l = Ok (inr l') -> forall x, In x l' -> exists e, In e l /\ f e = Ok x.
Proof.
  revert l'; induction l as [|e l IH]; simpl; intros l' H x Hx; [inv H; inv Hx|].
  inv_bind. destruct a as [b|r']; [discriminate|]. inv_bind.
  destruct a as [z|o lv b|o lv xs]; [|destruct (eqb b (absorbing op))|]; inv H;
    try (destruct Hx as [<-|Hx]); eauto;
    destruct (IH _ Ha _ Hx) as (e' & ? & ?); eauto.
Qed.

Lemma check_f_sound v k : forall n r,
  check_f k n = Ok r -> wf n -> eval v r = eval v n /\ wf r.
Proof.
  induction k as [|k IH]; intros n r H W; simpl in H; [discriminate|].
  destruct n as [z|op lev b|op lev l]; [discriminate|inv H; auto|].
  destruct (Z.eqb_spec lev 0) as [->|Hl].
  - inv H. split; [|apply check0_wf; auto].
    apply check0_eval. apply wf_seq in W. destruct W as (_&W&_); auto.
  - inv_bind. rename a into g.
    pose proof (group_single_eval v _ _ Ha) as E.
    pose proof (group_single_wf _ _ Ha W) as Wg.
    destruct (group_single_shape _ _ _ _ Ha) as (l' & ->).
    inv_bind. inv H.
    rewrite <- E. rewrite eval_seq. apply wf_seq in Wg. destruct Wg as (W0 & W1 & W2).
    assert (Hs : forall e e', In e l' -> check_f k e = Ok e' -> eval v e' = eval v e /\ wf e').
    { intros e e' He H'. apply IH; auto. rewrite Forall_forall in W2; auto. }
    split.
    + apply clean_end_eval.
      pose proof (check_list_spec v op _ _ _ Ha0 (fun e e' Hi Hc => proj1 (Hs e e' Hi Hc))) as Q.
      destruct a; tauto.
    + destruct a as [b|[|x xs]]; try cI.
      pose proof (check_list_incl _ _ _ _ Ha0) as Hi. simpl clean_end.
      apply wf_seq. repeat split; auto; [intros; lia|].
      rewrite Forall_forall. intros y Hy. destruct (Hi _ Hy) as (e & He & Hc).
      apply (Hs _ _ He Hc).
Qed.

Lemma check_sound v n r : check n = Ok r -> wf n -> eval v r = eval v n /\ wf r.
Proof. apply check_f_sound. Qed.

Lemma check_level0_sound v n : wf n -> eval v (check_level0 n) = eval v n /\ wf (check_level0 n).
Proof.
  destruct n as [z|op lev b|op lev l]; simpl check_level0; auto.
  intros W. destruct (Z.eqb_spec lev 0) as [->|]; auto.
  split; [|apply check0_wf; auto]. apply check0_eval. apply wf_seq in W. tauto.
Qed.

(* ------------------------------------------------------------------ *)
(** * mapM *)

Lemma mapM_Forall2 {A B} (f : A -> res B) l l' :
  mapM f l = Ok l' <-> Forall2 (fun x y => f x = Ok y) l l'.
Proof.
  revert l'; induction l as [|x l IH]; intros l'; simpl; split; intros H.
  - inv H; constructor.
  - inv H; auto.
  - inv_bind. inv H. constructor; auto. apply IH; auto.
  - inv H. rewrite H2. simpl. apply IH in H4. rewrite H4. reflexivity.
Qed.

Lemma mapM_evl v op f l l' :
  mapM f l = Ok l' -> (forall e e', In e l -> f e = Ok e' -> eval v e' = eval v e) ->
  evl v op l' = evl v op l.
Proof.
  intros H Hf. apply evl_ext. apply mapM_Forall2 in H.
  induction H as [|x y l l' Hxy Hl IH]; auto. simpl. f_equal.
  - apply Hf; simpl; auto.
  - apply IH. intros; apply Hf; simpl; auto.
Qed.

Lemma mapM_In {A B} (f : A -> res B) l l' :
  mapM f l = Ok l' -> forall y, In y l' -> exists x, In x l /\ f x = Ok y.
Proof.
  intros H. apply mapM_Forall2 in H. induction H; simpl; intros z Hz; [tauto|].
  destruct Hz as [<-|Hz]; eauto. destruct (IHForall2 _ Hz) as (? & ? & ?); eauto.
Qed.

(* ------------------------------------------------------------------ *)
(** * get_complementary *)

Lemma opb_compl op a b : opb (comp_op op) (negb a) (negb b) = negb (opb op a b).
Proof. destruct op, a, b; reflexivity. Qed.
Lemma neutral_compl op : neutral (comp_op op) = negb (neutral op).
Proof. destruct op; reflexivity. Qed.
Lemma comp_op_invol op : comp_op (comp_op op) = op.
Proof. destruct op; reflexivity. Qed.

Lemma evl_compl v op l l' :
  map (eval v) l' = map negb (map (eval v) l) -> evl v (comp_op op) l' = negb (evl v op l).
Proof.
  revert l'; induction l as [|x l IH]; intros [|y l'] H; try discriminate.
  - rewrite !evl_nil, neutral_compl. reflexivity.
  - simpl in H. inv H. rewrite !evl_cons, IH by auto. rewrite H1. apply opb_compl.
Qed.

Lemma compl_f_sound v k : forall n c n',
  compl_f k n = Ok (c, n') -> wf n ->
  eval v c = negb (eval v n) /\ eval v n' = eval v n /\ wf c /\ wf n'.
Proof.
  induction k as [|k IH]; intros n c n' H W; simpl in H; [discriminate|].
  destruct n as [z|op lev b|op lev l]; [discriminate|discriminate|].
  pose proof W as W'. apply wf_seq in W'. destruct W' as (W0 & W1 & W2).
  destruct (Z.eqb_spec lev 0) as [->|Hl].
  - inv_bind. inv H. apply mapM_Forall2 in Ha.
    assert (HF : map (eval v) a = map negb (map (eval v) l) /\ Forall is_lit a /\ Forall wf a).
    { specialize (W1 eq_refl). clear W. induction Ha as [|x y l a Hxy HF IHF]; auto.
      apply Forall_cons_iff in W1; destruct W1 as [_ W1].
      apply Forall_cons_iff in W2; destruct W2 as [W2x W2].
      destruct (IHF W1 W2) as (E & Q1 & Q2).
      destruct x as [z|o lv b|o lv xs]; try discriminate. inv Hxy. simpl in W2x.
      split; [|split].
      - simpl. rewrite lit_val_opp by auto. congruence.
      - constructor; simpl; auto.
      - constructor; simpl; auto. lia. }
    destruct HF as (E & Q1 & Q2). rewrite !eval_seq. split; [|split; [|split]]; auto.
    + apply evl_compl; auto.
    + apply wf_seq. auto.
  - inv_bind. rename a into g.
    pose proof (group_single_eval v _ _ Ha) as E.
    pose proof (group_single_wf _ _ Ha W) as Wg.
    destruct (group_single_shape _ _ _ _ Ha) as (l' & ->).
    inv_bind. inv H. rename a into ps. apply wf_seq in Wg. destruct Wg as (_ & _ & Wg).
    rewrite <- E. rewrite !eval_seq.
    assert (HF : map (eval v) (map fst ps) = map negb (map (eval v) l') /\
                 map (eval v) (map snd ps) = map (eval v) l' /\
                 Forall wf (map fst ps) /\ Forall wf (map snd ps)).
    { apply mapM_Forall2 in Ha0. clear Ha E. induction Ha0 as [|x [y1 y2] l' ps Hxy HF IHF]; simpl; auto.
      apply Forall_cons_iff in Wg; destruct Wg as [Wx Wg].
      destruct (IHF Wg) as (Q1 & Q2 & Q3 & Q4).
      destruct (IH _ _ _ Hxy Wx) as (R1 & R2 & R3 & R4).
      repeat split; auto; congruence. }
    destruct HF as (Q1 & Q2 & Q3 & Q4). split; [|split; [|split]].
    + apply evl_compl; auto.
    + apply evl_ext; auto.
    + apply wf_seq. split; [|split]; auto; lia.
    + apply wf_seq. split; [|split]; auto; lia.
Qed.
