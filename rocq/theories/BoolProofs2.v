(** Soundness of join_operators, substitute, evaluate, factorize, simplify. *)
From Verif Require Import Prelude BoolSpec BoolSeq BoolProofs.
From Coq Require Import Permutation.

(* ------------------------------------------------------------------ *)
(** * join_operators *)

Lemma evl_filter v op p l :
  evl v op l = opb op (evl v op (filter p l)) (evl v op (filter (fun x => negb (p x)) l)).
Proof.
  induction l as [|x l IH]; simpl.
  - rewrite !evl_nil, opb_neutral. reflexivity.
  - rewrite evl_cons, IH. destruct (p x); simpl negb; cbv iota; rewrite evl_cons.
    + apply opb_assoc.
    + rewrite !opb_assoc. f_equal. apply opb_comm.
Qed.

Lemma evl_concat v op l xs :
  Forall (fun n => has_op op n = true) l -> mapM elems_of l = Ok xs ->
  evl v op (concat xs) = evl v op l.
Proof.
  intros HF H. apply mapM_Forall2 in H. induction H as [|x y l xs Hxy Hl IH]; auto.
  apply Forall_cons_iff in HF; destruct HF as [Hx HF].
  simpl concat. rewrite evl_app, evl_cons, IH by auto. f_equal.
  destruct x as [z|o lv b|o lv ys]; try discriminate. simpl in Hxy. inv Hxy.
  rewrite eval_seq. destruct o, op; simpl in Hx; try discriminate; reflexivity.
Qed.

Lemma elems_nz l xs : mapM elems_of l = Ok xs -> Forall nz l -> Forall nz (concat xs).
Proof.
  intros H HF. apply mapM_Forall2 in H. induction H as [|x y l xs Hxy Hl IH]; simpl; auto.
  apply Forall_cons_iff in HF; destruct HF as [Hx HF]. apply Forall_app. split; auto.
  destruct x; try discriminate. simpl in Hxy. inv Hxy. apply nz_seq in Hx. auto.
Qed.

Lemma filter_Forall {A} (P : A -> Prop) p l : Forall P l -> Forall P (filter p l).
Proof. intros H. eapply Forall_incl; [|exact H]. intros x. rewrite filter_In. tauto. Qed.

Lemma merge_same_sound v op lev l r :
  merge_same op lev l = Ok r -> wf (Seq op lev l) -> 0 < lev ->
  eval v r = eval v (Seq op lev l) /\ wf r.
Proof.
  unfold merge_same. intros H W Hlev. inv_bind.
  pose proof W as W'. apply wf_seq in W'. destruct W' as (W0 & W1 & W2).
  destruct (Nat.ltb 1 (length (filter (has_op op) l))) eqn:E.
  - inv_bind. rename a0 into xs.
    assert (HN : wf (level_update (Seq op 0 (concat xs)))).
    { apply level_update_wf, nz_seq. eapply elems_nz; eauto. apply filter_Forall.
      eapply Forall_impl; [|exact W2]. apply wf_nz. }
    assert (HW : wf (Seq op lev (filter (fun n => negb (has_op op n)) l))).
    { apply wf_seq. split; [|split]; auto. - lia. - apply filter_Forall; auto. }
    split.
    + destruct (append_eval v _ _ _ H) as (HE & _). rewrite (HE _ _ _ eq_refl).
      rewrite !eval_seq. unfold args_val, fold_right, arg_val.
      rewrite opb_neutral_r, level_update_eval, eval_seq.
      assert (HF : Forall (fun n => has_op op n = true) (filter (has_op op) l))
        by (apply Forall_forall; intros x Hx; apply filter_In in Hx; tauto).
      rewrite (evl_concat v op _ _ HF Ha0).
      rewrite opb_comm. symmetry. apply evl_filter.
    + eapply append_wf; [exact HW| |exact H]. constructor; auto.
  - inv H. auto.
Qed.

Lemma merge_same_shape op lev l r :
  merge_same op lev l = Ok r -> exists lev' l', r = Seq op lev' l'.
Proof.
  unfold merge_same. intros H. inv_bind.
  destruct (Nat.ltb 1 (length (filter (has_op op) l))); [|inv H; eauto].
  inv_bind. simpl in H. inv H. eauto.
Qed.

Lemma join_f_sound v k : forall sl n r,
  join_f k sl n = Ok r -> nz n -> eval v r = eval v n /\ wf r.
Proof.
  induction k as [|k IH]; intros sl n r H W; simpl in H; [discriminate|].
  destruct n as [z|op lev b|op lev l]; [discriminate|inv H; split; [auto|cI]|].
  set (n := Seq op lev l) in *.
  set (n1 := level_update (clean_self n)) in *.
  assert (E1 : eval v n1 = eval v n)
    by (unfold n1; rewrite level_update_eval, clean_self_eval; reflexivity).
  assert (W1 : wf n1) by (apply level_update_wf, clean_self_nz; auto).
  destruct (Z.eqb_spec (level_of n1) 0) as [Hz|Hz]; [inv H; auto|].
  inv_bind. rename a into n2.
  pose proof (group_single_eval v _ _ Ha) as E2.
  pose proof (group_single_wf _ _ Ha W1) as W2.
  destruct n1 as [z1|op1 lev1 b1|op1 lev1 l1] eqn:En1; [discriminate| |].
  { simpl in Ha. inv Ha. inv H. simpl in *. split; [congruence|cI]. }
  destruct (group_single_shape _ _ _ _ Ha) as (l2 & ->).
  inv_bind. rename a into n3. rename a0 into n4.
  assert (Hl1 : 0 < lev1) by (pose proof W1 as Q; apply wf_seq in Q; simpl in Hz; lia).
  destruct (merge_same_sound v _ _ _ _ Ha0 W2 Hl1) as (E3 & W3).
  assert (HC : eval v n4 = eval v n3 /\ wf n4).
  { destruct n3 as [z3|op3 lev3 b3|op3 lev3 l3]; try (inv Ha1; auto; fail).
    destruct l3 as [|c [|c' l3]]; try (inv Ha1; auto; fail).
    destruct (0 <? lev3); [|inv Ha1; auto]. inv_bind.
    destruct c as [zc|oc lc bc|oc lc xs]; try discriminate. simpl in Ha2, Ha3. inv Ha2. inv Ha3.
    apply wf_seq in W3. destruct W3 as (W30 & W31 & W32).
    apply Forall_cons_iff in W32; destruct W32 as [W32 _].
    apply IH in Ha1; [|apply wf_nz in W32; rewrite nz_seq in *; auto].
    destruct Ha1 as (Q1 & Q2). split; auto.
    rewrite Q1. rewrite !eval_seq, evl_cons, evl_nil, opb_neutral_r, eval_seq. reflexivity. }
  destruct HC as (E4 & W4).
  assert (E : eval v n4 = eval v n) by congruence.
  destruct (level_of n4 =? 0) eqn:E40.
  { destruct (check_sound v _ _ H W4) as (Q1 & Q2). split; [congruence|auto]. }
  destruct sl; [inv H; auto|].
  destruct n4 as [z4|op4 lev4 b4|op4 lev4 l4]; try (inv H; auto; fail).
  inv_bind. inv H. apply wf_seq in W4. destruct W4 as (W40 & W41 & W42).
  assert (HS : forall e e', In e l4 -> join_f k false e = Ok e' -> eval v e' = eval v e /\ wf e').
  { intros e e' He Hj. rewrite Forall_forall in W42. apply IH in Hj; [|apply wf_nz]; auto. }
  split.
  - rewrite eval_seq. rewrite <- E, eval_seq.
    eapply mapM_evl; [exact Ha2|]. intros e e' He Hj. apply (HS e e'); auto.
  - apply wf_seq. split; [|split]; auto.
    + intros ->. simpl in E40. discriminate.
    + apply Forall_forall. intros y Hy. destruct (mapM_In _ _ _ Ha2 _ Hy) as (x & Hx & Hj).
      apply (HS _ _ Hx Hj).
Qed.

Lemma join_sound v sl n r : join sl n = Ok r -> nz n -> eval v r = eval v n /\ wf r.
Proof. apply join_f_sound. Qed.

(* ------------------------------------------------------------------ *)
(** * substitute and evaluate *)

(** The point agrees with giving [val] to surface [name]. *)
Definition agrees (v : point) (name : Z) (val : sval) : Prop :=
  match val with
  | VB b => v name = b
  | VI w => v name = lit_val v w /\ w <> 0
  | VNone => True
  end.

Lemma lit_name_cases v name z :
  z <> 0 -> Z.abs z = name -> lit_val v z = if name =? z then v name else negb (v name).
Proof.
  intros Hz Hn. unfold lit_val. destruct (Z.ltb_spec z 0), (Z.eqb_spec name z); try lia.
  - replace (- z) with name by lia. reflexivity.
  - congruence.
Qed.

Lemma subst_list_sound v f op name val l r :
  subst_list f op name val l = Ok r -> agrees v name val -> Forall wf l ->
  (forall e e', In e l -> f e = Ok e' -> wf e -> eval v e' = eval v e /\ wf e') ->
  match r with
  | inl b => evl v op l = b /\ b = absorbing op
  | inr l' => evl v op l' = evl v op l /\ Forall wf l' /\ (Forall is_lit l -> Forall is_lit l')
  end.
Proof.
  revert r; induction l as [|e l IH]; simpl; intros r H Ag W Hf.
  - inv H. auto.
  - inv_bind. rename a into r1. apply Forall_cons_iff in W; destruct W as [We W].
    specialize (IH _ Ha Ag W (fun e0 e' Hi => Hf e0 e' (or_intror Hi))).
    destruct r1 as [b|r'].
    + inv H. destruct IH as (IH & ->). rewrite evl_cons, IH, opb_absorb_r. auto.
    + destruct IH as (IE & IW & IL).
      destruct e as [z|o lv b|o lv xs].
      * destruct (Z.eqb (Z.abs z) name) eqn:Hn; [apply Z.eqb_eq in Hn|].
        -- pose proof (lit_name_cases v _ _ We Hn) as HL.
           destruct val as [b|w|].
           ++ simpl in Ag. set (bv := if name =? z then b else negb b) in *.
              assert (Hbv : lit_val v z = bv) by (unfold bv; rewrite HL, Ag; reflexivity).
              destruct (eqb bv (absorbing op)) eqn:E; inv H.
              ** apply eqb_absorb_true in E. rewrite evl_cons. simpl eval.
                 rewrite Hbv, E, opb_absorb. auto.
              ** apply eqb_absorb_false in E. rewrite evl_cons. simpl eval.
                 rewrite Hbv, E, opb_neutral. split; [|split]; auto.
                 intros Q; inv Q; auto.
           ++ injection H as H; subst r. simpl in Ag. destruct Ag as (Ag & Hw). split; [|split].
              ** rewrite !evl_cons, IE. f_equal. simpl eval. rewrite HL, Ag.
                 destruct (name =? z); auto. apply lit_val_opp; auto.
              ** constructor; auto. simpl. destruct (name =? z); lia.
              ** intros Q; inv Q; constructor; simpl; auto.
           ++ inv H. split; [|split].
              ** rewrite !evl_cons, IE; reflexivity.
              ** constructor; auto.
              ** intros Q; inv Q; constructor; auto.
        -- inv H. split; [|split].
           ** rewrite !evl_cons, IE; reflexivity.
           ** constructor; auto.
           ** intros Q; inv Q; constructor; auto.
      * inv_bind. inv H. destruct (Hf _ _ (or_introl eq_refl) Ha0 We) as (Q1 & Q2).
        split; [|split]; auto.
        -- rewrite !evl_cons, IE, Q1; reflexivity.
        -- intros Q; inv Q. simpl in *; tauto.
      * inv_bind. inv H. destruct (Hf _ _ (or_introl eq_refl) Ha0 We) as (Q1 & Q2).
        split; [|split]; auto.
        -- rewrite !evl_cons, IE, Q1; reflexivity.
        -- intros Q; inv Q. simpl in *; tauto.
Qed.

Lemma subst_sound v var val n : forall r,
  subst var val n = Ok r -> wf n -> agrees v (Z.abs var) val -> eval v r = eval v n /\ wf r.
Proof.
  induction n as [z|op lev b|op lev l IH] using node_ind'; intros r H W Ag.
  - destruct val; simpl in H; try discriminate. inv H; auto.
  - destruct val; simpl in H; inv H; auto.
  - assert (HV : val = VNone \/ val <> VNone) by (destruct val; auto; right; discriminate).
    destruct HV as [->|HV]; [simpl in H; inv H; auto|].
    assert (H' : (do r0 <- subst_list (subst var val) op (Z.abs var) val l;
          match r0 with
          | inl b => Ok (Cst op (-1) b)
          | inr [] => Ok (Cst op (-1) (neutral op))
          | inr l' => join true (check_level0 (clean_self (Seq op lev l')))
          end) = Ok r) by (destruct val; try congruence; exact H).
    clear H. inv_bind. pose proof W as W'. apply wf_seq in W'. destruct W' as (W0 & W1 & W2).
    apply (subst_list_sound v) in Ha; auto.
    + destruct a as [b|l'].
      * inv H'. destruct Ha as (Q & ->). rewrite eval_seq. split; [symmetry; exact Q|cI].
      * destruct Ha as (Q1 & Q2 & Q3). rewrite eval_seq, <- Q1.
        destruct l' as [|x l'].
        -- inv H'. split; [rewrite evl_nil; reflexivity|cI].
        -- set (s := Seq op lev (x :: l')) in *.
           assert (Ws : wf s) by (apply wf_seq; auto).
           pose proof (clean_self_wf _ Ws) as Wc.
           destruct (check_level0_sound v _ Wc) as (E1 & Wk).
           apply (join_sound v) in H'; [|apply wf_nz; auto].
           destruct H' as (E & Wr). split; auto.
           rewrite E, E1, clean_self_eval. unfold s. rewrite eval_seq. reflexivity.
    + intros e e' He Hs We. rewrite Forall_forall in IH. apply IH; auto.
Qed.

Definition agrees_all (v : point) (vs : vset) : Prop :=
  Forall (fun p => v (Z.abs (fst p)) = snd p) vs.

Definition bres_val (v : point) (r : bres) : bool :=
  match r with RB b => b | RS n => eval v n end.
Definition bres_wf (r : bres) : Prop := match r with RB _ => True | RS n => wf n end.

(** a well-formed BoolSequence object (not an int) *)

Lemma eval_loop_sound v vs : forall n r,
  eval_loop vs n = Ok r -> wf n -> agrees_all v vs -> bres_val v r = eval v n /\ bres_wf r.
Proof.
  induction vs as [|[x b] vs IH]; intros n r H W Ag; cbn [eval_loop] in H.
  - destruct n; inv H; simpl; auto.
  - inv_bind. unfold agrees_all in Ag. apply Forall_cons_iff in Ag; destruct Ag as [A1 A2]. simpl in A1.
    destruct (subst_sound v _ _ _ _ Ha W A1) as (E & Wa).
    destruct a as [z|op lev b'|op lev l].
    + destruct (IH _ _ H Wa A2). split; congruence || auto.
    + inv H. simpl in *. auto.
    + destruct (IH _ _ H Wa A2). split; congruence || auto.
Qed.

Lemma evaluate_sound v vs n r g :
  evaluate vs n = Ok (r, g) -> wf n -> agrees_all v vs ->
  bres_val v r = eval v n /\ bres_wf r.
Proof.
  unfold evaluate. destruct n as [z|op lev b|op lev l]; intros H W Ag; [discriminate| |].
  - inv H. simpl. auto.
  - inv_bind. inv H. rewrite copy_id in Ha0.
    destruct (eval_loop_sound v _ _ _ Ha0 (group_single_wf _ _ Ha W) Ag) as (E & Wr).
    split; auto. rewrite E. apply group_single_eval; auto.
Qed.
Lemma evaluate_receiver v vs n r g :
  evaluate vs n = Ok (r, g) -> wf n -> eval v g = eval v n /\ wf g.
Proof.
  unfold evaluate. destruct n as [z|op lev b|op lev l]; intros H W; [discriminate| |].
  - inv H. auto.
  - inv_bind. inv H. split; [apply group_single_eval|eapply group_single_wf]; eauto.
Qed.

(* ------------------------------------------------------------------ *)
(** * get_sub_sequence and update *)

(** [s] has the meaning of the elements [idx] of the sequence found at [path]. *)
Fixpoint sub_at (v : point) (path : list nat) (idx : list nat) (s n : node) : Prop :=
  match path with
  | [] => match n with
          | Seq op lev l =>
              lev <> 0 /\
              opb op (eval v s) (evl v op (del_idx 0 idx l)) = evl v op l /\
              (del_idx 0 idx l = [] -> eval v s = evl v op l)
          | _ => False
          end
  | i :: p => match n with
              | Seq op lev l =>
                  lev <> 0 /\
                  exists c, nth_error l i = Some c /\ sub_at v p idx s c
              | _ => False
              end
  end.

Lemma touching_spec vals l : forall i ts,
  touching vals i l = Ok ts ->
  Forall (fun p => In (snd p) l /\ (i <= fst p)%nat /\ nth_error l (fst p - i) = Some (snd p)) ts.
Proof.
  induction l as [|e l IH]; intros i ts H; simpl in H; [inv H; constructor|].
  assert (HH : exists rest, touching vals (S i) l = Ok rest /\ (ts = (i, e) :: rest \/ ts = rest)).
  { destruct e; try discriminate; inv_bind; destruct (existsb _ _); inv H; eauto. }
  destruct HH as (rest & Hr & Hts). apply IH in Hr.
  assert (HF : Forall (fun p => In (snd p) (e :: l) /\ (i <= fst p)%nat /\
             nth_error (e :: l) (fst p - i) = Some (snd p)) rest).
  { eapply Forall_impl; [|exact Hr]. intros p (P1 & P2 & P3). repeat split; simpl; auto; try lia.
    replace (fst p - i)%nat with (S (fst p - S i)) by lia. simpl. auto. }
  destruct Hts as [->| ->]; auto. constructor; auto. simpl. rewrite Nat.sub_diag. auto.
Qed.

Lemma del_idx_ext idx1 idx2 l : forall i,
  (forall j, (i <= j)%nat -> existsb (Nat.eqb j) idx1 = existsb (Nat.eqb j) idx2) ->
  del_idx i idx1 l = del_idx i idx2 l.
Proof.
  induction l as [|x l IH]; intros i H; simpl; auto.
  rewrite (H i) by lia. rewrite (IH (S i)) by (intros; apply H; lia). reflexivity.
Qed.

Lemma touching_evl v op vals l : forall i ts,
  touching vals i l = Ok ts ->
  opb op (evl v op (map snd ts)) (evl v op (del_idx i (map fst ts) l)) = evl v op l.
Proof.
  induction l as [|e l IH]; intros i ts H; simpl in H.
  - inv H. simpl. rewrite !evl_nil, opb_neutral. reflexivity.
  - assert (HH : exists rest, touching vals (S i) l = Ok rest /\ (ts = (i, e) :: rest \/ ts = rest)).
    { destruct e; try discriminate; inv_bind; destruct (existsb _ _); inv H; eauto. }
    destruct HH as (rest & Hr & Hts). pose proof (touching_spec _ _ _ _ Hr) as HS.
    specialize (IH _ _ Hr).
    assert (Hni : existsb (Nat.eqb i) (map fst rest) = false).
    { apply not_true_is_false. intros HE. apply existsb_exists in HE.
      destruct HE as (j & Hj & Hij). apply Nat.eqb_eq in Hij. subst j.
      apply in_map_iff in Hj. destruct Hj as (p & Hp & Hin).
      rewrite Forall_forall in HS. apply HS in Hin. lia. }
    destruct Hts as [->| ->]; simpl.
    + rewrite Nat.eqb_refl. simpl. rewrite !evl_cons. rewrite <- opb_assoc. f_equal.
      rewrite <- IH. f_equal. f_equal. apply del_idx_ext.
      intros j Hj. simpl. replace (Nat.eqb j i) with false; [reflexivity|].
      symmetry. apply Nat.eqb_neq. lia.
    + rewrite Hni. rewrite !evl_cons, <- IH. rewrite !opb_assoc. f_equal. apply opb_comm.
Qed.

Lemma surfs_const_nil op lev b : surfs (Cst op lev b) = [].
Proof. reflexivity. Qed.

Lemma args_val_map v op l : args_val v op (map (fun p : nat * node => AN (snd p)) l) = evl v op (map snd l).
Proof.
  induction l as [|p l IH]; simpl; [symmetry; apply evl_nil|].
  rewrite evl_cons. unfold args_val in *. simpl. rewrite IH. reflexivity.
Qed.

Lemma get_sub_sound v k vals : forall n path idx s,
  get_sub_f k vals n = Ok (Some (path, idx), s) -> wf n ->
  sub_at v path idx s n /\ wf s.
Proof.
  induction k as [|k IH]; intros n path idx s H W; simpl in H; [discriminate|].
  destruct n as [z|op lev b|op lev l]; [discriminate| |].
  - destruct (lev =? 0); discriminate.
  - destruct (Z.eqb_spec lev 0) as [->|Hl]; [discriminate|].
    inv_bind. rename a into ts. rename Ha into HT. cbn [append bind] in H.
    set (sub := append_loop op 0 [] (map (fun p : nat * node => AN (snd p)) ts)) in *.
    assert (Es : eval v sub = evl v op (map snd ts)).
    { unfold sub. rewrite append_loop_eval, evl_nil, opb_neutral. apply args_val_map. }
    pose proof (touching_spec _ _ _ _ HT) as HS.
    pose proof W as W'. apply wf_seq in W'. destruct W' as (W0 & W1 & W2).
    assert (Wsub : wf sub).
    { apply append_loop_wf; auto; try lia. apply Forall_forall. intros a Ha.
      apply in_map_iff in Ha. destruct Ha as (p & <- & Hp). simpl.
      rewrite Forall_forall in HS. apply HS in Hp. rewrite Forall_forall in W2. apply W2, Hp. }
    assert (Hbase : sub_at v [] (map fst ts) sub (Seq op lev l)).
    { simpl. split; auto. split.
      - rewrite Es. apply (touching_evl v op vals l 0 ts HT).
      - intros Hd. rewrite <- (touching_evl v op vals l 0 ts HT), Hd, evl_nil, opb_neutral_r. auto. }
    destruct ts as [|[i c] [|t2 ts]].
    + inv H. auto.
    + destruct (0 <? level_of c) eqn:Elc.
      * inv_bind. destruct a as [p s']. destruct p as [[path' idx']|].
        -- inv H. inv HS. simpl in H1. destruct H1 as (Hin & _ & Hnth).
           rewrite Nat.sub_0_r in Hnth.
           assert (wf c) by (rewrite Forall_forall in W2; auto).
           destruct (IH _ _ _ _ Ha H) as (Q1 & Q2). split; auto.
           simpl. split; auto. exists c. auto.
        -- exfalso. destruct k; simpl in Ha; [discriminate|].
           destruct c as [z|oc lc bc|oc lc xs]; [discriminate| |]; simpl in Elc.
           ++ destruct (Z.eqb_spec lc 0); [lia|discriminate].
           ++ destruct (Z.eqb_spec lc 0); [lia|]. inv_bind.
              destruct a as [|[i1 c1] [|]]; try discriminate.
              destruct (0 <? level_of c1); [|discriminate].
              inv_bind. destruct a as [[[? ?]|] ?]; discriminate.
      * inv H. auto.
    + inv H. auto.
Qed.

Lemma nth_split_list {A} (l : list A) i c :
  nth_error l i = Some c -> l = firstn i l ++ c :: skipn (S i) l.
Proof.
  revert i; induction l as [|x l IH]; intros [|i] H; try discriminate.
  - inv H. reflexivity.
  - simpl in *. f_equal. auto.
Qed.

Lemma del_idx_incl idx l : forall i x, In x (del_idx i idx l) -> In x l.
Proof.
  induction l as [|y l IH]; intros i x H; simpl in *; auto.
  destruct (existsb (Nat.eqb i) idx); simpl in H; [right; eauto|].
  destruct H as [<-|H]; [auto|right; eauto].
Qed.

Lemma upd_at_sound v nseq idx s path : forall n n',
  upd_at path (update_base true nseq idx) n = Ok n' ->
  sub_at v path idx s n -> eval v nseq = eval v s -> wf n -> wf nseq ->
  eval v n' = eval v n /\ wf n'.
Proof.
  induction path as [|i path IH]; intros n n' H HS HE W Wn.
  - simpl in H, HS. destruct n as [z|op lev b|op lev l]; try tauto.
    destruct HS as (Hl & S1 & S2). simpl in H.
    pose proof W as W'. apply wf_seq in W'. destruct W' as (W0 & W1 & W2).
    assert (Wd : wf (Seq op lev (del_idx 0 idx l))).
    { apply wf_seq. split; [|split]; auto; try tauto.
      eapply Forall_incl; [apply del_idx_incl|exact W2]. }
    assert (HA : (do b1 <- append (Seq op lev (del_idx 0 idx l)) [AN nseq]; join false b1) = Ok n' ->
                 eval v n' = eval v (Seq op lev l) /\ wf n').
    { intros HJ. inv_bind. apply (join_sound v) in HJ.
      - destruct HJ as (Q1 & Q2). split; auto. rewrite Q1.
        destruct (append_eval v _ _ _ Ha) as (HE1 & _). rewrite (HE1 _ _ _ eq_refl).
        unfold args_val. simpl fold_right. rewrite opb_neutral_r, !eval_seq, HE, opb_comm. auto.
      - apply wf_nz. eapply append_wf; [exact Wd| |exact Ha]. constructor; auto. }
    destruct nseq as [zn|on ln bn|on ln xn]; auto.
    change (del_idx 0 idx l) with (del_idx 0 idx l) in H.
    destruct (eqb bn (neutral op)) eqn:En; simpl in H.
    + destruct (del_idx 0 idx l) as [|y ys] eqn:Ed; simpl in H; [|discriminate].
      inv H. split; [|cI]. simpl eval at 1. simpl in HE. rewrite HE, eval_seq. auto.
    + inv H. split; [|cI]. simpl eval at 1. rewrite eval_seq, <- S1, <- HE. simpl eval.
      assert (bn = absorbing op) as -> by (destruct op, bn; cbv in *; congruence).
      rewrite opb_absorb. reflexivity.
  - simpl in H, HS. destruct n as [z|op lev b|op lev l]; try tauto.
    destruct HS as (Hl & c & Hc & HS). rewrite Hc in H. inv_bind. inv H.
    pose proof W as W'. apply wf_seq in W'. destruct W' as (W0 & W1 & W2).
    pose proof (nth_split_list _ _ _ Hc) as Hsp.
    assert (Wc : wf c) by (rewrite Forall_forall in W2; apply W2; eapply nth_error_In; eauto).
    destruct (IH _ _ Ha HS HE Wc Wn) as (Q1 & Q2). split.
    + rewrite !eval_seq. rewrite Hsp at 3. rewrite !evl_app, !evl_cons, Q1. reflexivity.
    + apply wf_seq. split; [|split]; auto; try tauto. rewrite Hsp in W2.
      apply Forall_app in W2. destruct W2 as (F1 & F2). apply Forall_cons_iff in F2.
      destruct F2 as (_ & F2). apply Forall_app. split; auto.
Qed.

Lemma update_sound v nseq idx s path n n' :
  update true nseq path idx n = Ok n' ->
  sub_at v path idx s n -> eval v nseq = eval v s -> wf n -> wf nseq ->
  eval v n' = eval v n /\ wf n'.
Proof.
  unfold update. intros H HS HE W Wn. inv_bind. inv H.
  destruct (upd_at_sound v _ _ _ _ _ _ Ha HS HE W Wn) as (Q1 & Q2).
  split; [rewrite clean_self_eval; auto|apply clean_self_wf; auto].
Qed.

(* ------------------------------------------------------------------ *)
(** * factorize *)

Lemma shannon_sound v x t f r :
  shannon x t f = Ok (Some r) -> 0 < x -> bres_wf t -> bres_wf f ->
  eval v r = (if v x then bres_val v t else bres_val v f) /\ wf r.
Proof.
  intros H Hx Wt Wf.
  assert (Lx : lit_val v x = v x) by (unfold lit_val; destruct (Z.ltb_spec x 0); [lia|auto]).
  assert (Ln : lit_val v (- x) = negb (v x)) by (rewrite lit_val_opp, Lx; auto; lia).
  assert (HJ : forall op z g n n', wf g ->
     append (Seq op 0 []) [AN (Lit z); AN g] = Ok n -> join true n = Ok n' ->
     z = x \/ z = - x -> eval v n' = opb op (lit_val v z) (eval v g) /\ wf n').
  { intros op z g n n' Wg HA HJ Hz.
    destruct (append_eval v _ _ _ HA) as (HE & _). specialize (HE _ _ _ eq_refl).
    assert (wf n).
    { eapply append_wf; [| |exact HA].
      - apply wf_seq. split; [lia|split; auto].
      - repeat constructor; simpl; auto. destruct Hz; lia. }
    apply (join_sound v) in HJ; [|apply wf_nz; auto]. destruct HJ as (Q1 & Q2). split; auto.
    rewrite Q1, HE, eval_seq, evl_nil, opb_neutral. unfold args_val. simpl fold_right.
    rewrite opb_neutral_r. reflexivity. }
  assert (H1 : forall op z n, append (Seq op 0 []) [AN (Lit z)] = Ok n -> z = x \/ z = - x ->
     eval v n = lit_val v z /\ wf n).
  { intros op z n HA Hz. destruct (append_eval v _ _ _ HA) as (HE & _). specialize (HE _ _ _ eq_refl).
    split.
    - rewrite HE, eval_seq, evl_nil, opb_neutral. unfold args_val. simpl fold_right.
      rewrite opb_neutral_r. reflexivity.
    - eapply append_wf; [| |exact HA].
      + apply wf_seq. split; [lia|split; auto].
      + repeat constructor; simpl; auto. destruct Hz; lia. }
  destruct t as [[|]|g]; destruct f as [[|]|h]; unfold shannon in H; inv_bind;
    try (inv H; fail); simpl bres_val; simpl in Wt, Wf.
  - inv H. split; [destruct (v x); reflexivity|cI].
  - inv H. destruct (H1 _ _ _ Ha ltac:(auto)) as (Q1 & Q2). split; auto.
    rewrite Q1, Lx. destruct (v x); reflexivity.
  - inv H. destruct (HJ _ _ _ _ _ Wf Ha Ha0 ltac:(auto)) as (Q1 & Q2). split; auto.
    rewrite Q1, Lx. simpl. destruct (v x); reflexivity.
  - inv H. destruct (H1 _ _ _ Ha ltac:(auto)) as (Q1 & Q2). split; auto.
    rewrite Q1, Ln. destruct (v x); reflexivity.
  - inv H. split; [destruct (v x); reflexivity|cI].
  - inv H. destruct (HJ _ _ _ _ _ Wf Ha Ha0 ltac:(auto)) as (Q1 & Q2). split; auto.
    rewrite Q1, Ln. simpl. destruct (v x); reflexivity.
  - inv H. destruct (HJ _ _ _ _ _ Wt Ha Ha0 ltac:(auto)) as (Q1 & Q2). split; auto.
    rewrite Q1, Ln. simpl. destruct (v x); simpl; auto.
  - inv H. destruct (HJ _ _ _ _ _ Wt Ha Ha0 ltac:(auto)) as (Q1 & Q2). split; auto.
    rewrite Q1, Lx. simpl. destruct (v x); simpl; auto.
Qed.

(** Meaning of the value sets of a surface [x]: a point on the positive side
    agrees with the first, a point on the negative side with the second; a
    missing set means that no point lies on that side. *)
Definition sets_ok (v : point) (x : Z) (ts fs : option vset) : Prop :=
  (v x = true -> match ts with None => False | Some t => agrees_all v t end) /\
  (v x = false -> match fs with None => False | Some f => agrees_all v f end).

Lemma assign_res_sound v self r :
  is_seq self -> bres_wf r -> eval v (assign_res self r) = bres_val v r /\ wf (assign_res self r).
Proof. destruct r as [b|n]; simpl; auto. destruct self; simpl; try tauto; split; auto; lia. Qed.

Lemma evaluate_is_seq vs n r : evaluate vs n = Ok r -> is_seq n.
Proof. destruct n; simpl; try discriminate; auto. Qed.

Lemma eval_loop_wf vs : forall n r, eval_loop vs n = Ok r -> wf n -> bres_wf r.
Proof.
  induction vs as [|[y b] vs IH]; intros n r HE Wn; cbn [eval_loop] in HE.
  - destruct n; inv HE; simpl; auto.
  - inv_bind.
    destruct (subst_sound (fun _ => b) _ _ _ _ Ha Wn eq_refl) as (_ & Wa).
    destruct a; try (inv HE; cI); eauto.
Qed.
Lemma evaluate_wf vs n r g : evaluate vs n = Ok (r, g) -> wf n -> bres_wf r.
Proof.
  unfold evaluate. destruct n as [z|op lev b|op lev l]; intros H W; [discriminate|inv H; cI|].
  inv_bind. inv H. rewrite copy_id in Ha0. eapply eval_loop_wf; eauto. eapply group_single_wf; eauto.
Qed.

Lemma factorize_sound v x ts fs n r :
  factorize true x ts fs n = Ok r -> wf n -> 0 < x -> sets_ok v x ts fs ->
  eval v r = eval v n /\ wf r.
Proof.
  intros H W Hx (HT & HF). unfold factorize in H.
  destruct ts as [t|], fs as [f|]; try discriminate.
  - inv_bind. destruct a as [pos sub]. inv_bind. destruct a as [tr sub1]. inv_bind.
    destruct a as [fr sub2]. inv_bind. rename a into new.
    set (sub0 := match pos with None => n | Some _ => sub end) in *.
    assert (W0 : wf sub0).
    { unfold sub0. destruct pos as [[path idx]|]; auto.
      eapply (get_sub_sound v); eauto. }
    destruct (evaluate_receiver v _ _ _ _ Ha0 W0) as (Er & W1).
    destruct new as [nseq|]; [|inv H; auto].
    pose proof (evaluate_wf _ _ _ _ Ha0 W0) as Wtr.
    pose proof (evaluate_wf _ _ _ _ Ha1 W1) as Wfr.
    destruct (shannon_sound v _ _ _ _ Ha2 Hx Wtr Wfr) as (Es & Wn).
    assert (EE : eval v nseq = eval v sub0).
    { rewrite Es. destruct (v x) eqn:Ev.
      - eapply evaluate_sound; eauto.
      - rewrite <- Er. eapply evaluate_sound; eauto. }
    destruct pos as [[path idx]|].
    + destruct (get_sub_sound v _ _ _ _ _ _ Ha W) as (Hs & _).
      eapply update_sound; eauto.
    + inv H. split; auto.
  - inv_bind. destruct a as [tr g]. inv H.
    assert (Ev : v x = true) by (destruct (v x) eqn:E; auto; exfalso; auto).
    destruct (evaluate_sound v _ _ _ _ Ha W (HT Ev)) as (E & Wr).
    destruct (assign_res_sound v n tr (evaluate_is_seq _ _ _ Ha) Wr). split; congruence || auto.
  - inv_bind. destruct a as [fr g]. inv H.
    assert (Ev : v x = false) by (destruct (v x) eqn:E; auto; exfalso; auto).
    destruct (evaluate_sound v _ _ _ _ Ha W (HF Ev)) as (E & Wr).
    destruct (assign_res_sound v n fr (evaluate_is_seq _ _ _ Ha) Wr). split; congruence || auto.
Qed.

(* ------------------------------------------------------------------ *)
(** * simplify *)

Lemma nz_lits n : nz n -> Forall (fun z => z <> 0) (lits n).
Proof.
  induction n as [z|op lev b|op lev l IH] using node_ind'; simpl lits; auto.
  intros W. apply nz_seq in W. induction IH as [|x l Hx Hl IHl]; simpl; auto.
  apply Forall_cons_iff in W; destruct W. apply Forall_app; auto.
Qed.

Lemma surfs_pos n x : wf n -> In x (surfs n) -> 0 < x.
Proof.
  intros W H. unfold surfs in H. apply nodup_In, in_map_iff in H. destruct H as (z & <- & Hz).
  pose proof (nz_lits _ (wf_nz _ W)) as Q. rewrite Forall_forall in Q. apply Q in Hz. lia.
Qed.

(** A point is compatible with a constraint table when the table never lies
    about it. *)
Definition compatible (v : point) (ct : ctable) : Prop :=
  match ct with
  | None => True
  | Some f => forall x ts fs, f x = Ok (ts, fs) -> sets_ok v x ts fs
  end.

Lemma value_sets_ok v ct x ts fs :
  compatible v ct -> 0 < x -> value_sets ct x = Ok (ts, fs) -> sets_ok v x ts fs.
Proof.
  intros HC Hx H. destruct ct as [f|]; simpl in *; auto. inv H.
  unfold sets_ok, agrees_all. split; intros Hv; repeat constructor; simpl;
    rewrite Z.abs_involutive, Z.abs_eq; auto; lia.
Qed.

Lemma existsb_In x l : existsb (Z.eqb x) l = true -> In x l.
Proof. intros H. apply existsb_exists in H. destruct H as (y & Hy & E). apply Z.eqb_eq in E. congruence. Qed.

Lemma ss_loop_sound v ct names : forall newNames n r,
  ss_loop true ct names newNames n = Ok r -> wf n -> compatible v ct ->
  (forall x, In x newNames -> 0 < x) -> eval v r = eval v n /\ wf r.
Proof.
  induction names as [|x names IH]; intros newNames n r H W HC HN; simpl in H; [inv H; auto|].
  destruct (existsb (Z.eqb x) newNames) eqn:E; [|eauto].
  assert (Hx : 0 < x) by (apply HN, existsb_In; auto).
  inv_bind. destruct a as [ts fs]. inv_bind. destruct a; [|eauto].
  inv_bind. rename a into s'.
  destruct (factorize_sound v _ _ _ _ _ Ha1 W Hx (value_sets_ok _ _ _ _ _ HC Hx Ha)) as (E1 & W1).
  destruct s' as [z|op lev b|op lev l].
  - apply IH in H; auto; [|intros; eapply surfs_pos; eauto]. destruct H; split; congruence || auto.
  - inv H. auto.
  - apply IH in H; auto; [|intros; eapply surfs_pos; eauto]. destruct H; split; congruence || auto.
Qed.

Lemma simplify_sequence_sound v ord ct n r :
  simplify_sequence true ord ct n = Ok r -> wf n -> compatible v ct ->
  eval v r = eval v n /\ wf r.
Proof.
  intros H W HC. unfold simplify_sequence in H.
  assert (HS : match surfs n with [] => Ok n | names => ss_loop true ct (ord n) names n end = Ok r ->
               eval v r = eval v n /\ wf r).
  { intros HH. destruct (surfs n) as [|y ys] eqn:E; [inv HH; auto|].
    eapply ss_loop_sound; eauto. intros x Hx. eapply surfs_pos; eauto. rewrite E; auto. }
  destruct ct as [f|]; auto. destruct (level_of n <? 1); auto.
  inv H. split; [apply clean_eval|apply clean_wf; auto].
Qed.

Lemma simplify_f_sound v ord ct (HC : compatible v ct) k : forall d n r,
  simplify_f k true ord ct d n = Ok r -> wf n -> eval v r = eval v n /\ wf r.
Proof.
  induction k as [|k IH]; intros d n r H W; simpl in H; [discriminate|].
  assert (HH : is_seq n /\ exists s1,
    (if 0 <? level_of n then
       match n with
       | Seq op lev l =>
           do l' <- mapM (simplify_f k true ord ct (d + 1)) l;
           do j <- join false (clean (Seq op lev l'));
           Ok (level_update j)
       | _ => Err TypeError
       end
     else Ok n) = Ok s1 /\
    match s1 with
    | Seq op lev l =>
        if (0 <? lev) || Nat.ltb 1 (length l) then
          do s2 <- simplify_sequence true ord ct s1;
          if (lev <? level_of s2) && (d <? 10)
          then simplify_f k true ord ct (d + 1) s2
          else Ok s2
        else Ok s1
    | _ => Ok s1
    end = Ok r).
  { destruct n; [discriminate| |]; split; try cI; inv_bind; eauto. }
  clear H. destruct HH as (_ & s1 & H1 & H2).
  assert (Q : eval v s1 = eval v n /\ wf s1).
  { destruct (0 <? level_of n) eqn:El; [|inv H1; auto].
    destruct n as [z|op lev b|op lev l]; try discriminate.
    inv_bind. rename a into l'. rename a0 into j. inv H1.
    pose proof W as W'. apply wf_seq in W'. destruct W' as (W0 & W1 & W2).
    assert (HS : forall e e', In e l -> simplify_f k true ord ct (d + 1) e = Ok e' ->
                 eval v e' = eval v e /\ wf e').
    { intros e e' He Hs. eapply IH; eauto. rewrite Forall_forall in W2; auto. }
    assert (Wl : wf (Seq op lev l')).
    { apply wf_seq. simpl in El. split; [|split]; auto; [lia|].
      apply Forall_forall. intros y Hy. destruct (mapM_In _ _ _ Ha _ Hy) as (e & He & Hs).
      apply (HS _ _ He Hs). }
    apply (join_sound v) in Ha0; [|apply wf_nz, clean_wf; auto].
    destruct Ha0 as (Ej & Wj). split.
    - rewrite level_update_eval, Ej, clean_eval, !eval_seq.
      eapply mapM_evl; eauto. intros e e' He Hs. apply (HS _ _ He Hs).
    - apply level_update_wf, wf_nz; auto. }
  destruct Q as (E1 & W1).
  destruct s1 as [z|op lev b|op lev l]; try (inv H2; auto; fail).
  destruct ((0 <? lev) || Nat.ltb 1 (length l)); [|inv H2; auto].
  inv_bind. rename a into s2.
  destruct (simplify_sequence_sound v _ _ _ _ Ha W1 HC) as (E2 & W2').
  destruct ((lev <? level_of s2) && (d <? 10)).
  - destruct (IH _ _ _ H2 W2'). split; congruence || auto.
  - inv H2. split; congruence || auto.
Qed.
