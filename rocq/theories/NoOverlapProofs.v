From Verif Require Import Prelude BoolSpec BoolSeq BoolProofs BoolProofs2 BoolTotal BoolEditProofs CtSpec Ctable NoOverlap NoOverlapSpec.

(** ** surfaces shared with opposite signs *)
Lemma ints_false l z : forall r, ints false l = Ok r -> In z r -> In (Lit z) l.
Proof. intros r H. injection H as <-. intros I. apply in_flat_map in I. destruct I as (n & I & J). destruct n; [destruct J as [-> | []]; auto|destruct J|destruct J]. Qed.
Lemma ints_true l z : forall r, ints true l = Ok r -> In z r -> In (Lit (- z)) l.
Proof.
  unfold ints. induction l as [|n l IH]; intros r H I; cbn [mapM] in H; [injection H as <-; destruct I|].
  destruct n; try discriminate. cbn [bind] in H. inv_bind. injection H as <-. destruct I as [<- | I]; [left; f_equal; lia|right; eauto].
Qed.
Lemma ints_sign l z : forall b r, ints b l = Ok r -> In z r -> In (Lit (if b then - z else z)) l.
Proof. intros [|]; [apply ints_true|apply ints_false]. Qed.
Lemma evl_and_in v l n : evl v AND l = true -> In n l -> eval v n = true.
Proof. intros H I. unfold evl in H. induction l as [|x l IH]; [destruct I|]. cbn in H. apply andb_prop in H as (H1 & H2). destruct I as [<- | I]; auto. Qed.
Lemma gsv_in v b n r z : get_surf_value b n = Ok r -> and_seq n -> eval v n = true -> In z r -> lit_val v (if b then - z else z) = true.
Proof.
  intros H A E I. destruct n as [y|o lv c|o lv l]; [destruct A|destruct A|]. destruct o; [|destruct A].
  rewrite eval_seq in E. cbn [get_surf_value] in H. destruct (lv =? 0).
  - exact (evl_and_in v l (Lit _) E (ints_sign _ _ _ _ H I)).
  - clear A. revert H. induction l as [|x l IH]; cbn [first_and]; intros H; [injection H as <-; destruct I|].
    rewrite evl_cons in E. cbn [opb] in E. apply andb_prop in E as (E1 & E2).
    destruct x as [y|[|] lw c|[|] lw xs]; try discriminate; auto.
    rewrite eval_seq in E1. exact (evl_and_in v xs (Lit _) E1 (ints_sign _ _ _ _ H I)).
Qed.
Lemma common_spec a b : common a b = true -> exists z, In z a /\ In z b.
Proof. intros H. apply existsb_exists in H. destruct H as (z & I & J). apply existsb_exists in J. destruct J as (y & J & E). apply Z.eqb_eq in E. subst. eauto. Qed.
Lemma common_disjoint v e s a b : get_surf_value true e = Ok a -> get_surf_value false s = Ok b -> and_seq e -> and_seq s -> wf e ->
  common b a = true -> eval v e = true -> eval v s = false.
Proof.
  intros HE HS AE AS W C E. destruct (eval v s) eqn:ES; auto. destruct (common_spec _ _ C) as (z & I & J).
  pose proof (gsv_in v _ _ _ _ HE AE E J) as P. pose proof (gsv_in v _ _ _ _ HS AS ES I) as Q. cbn in P, Q.
  assert (NZ : z <> 0).
  { intros ->. clear -HE J W AE. destruct e as [y|o lv c|o lv l]; [destruct AE|destruct AE|]. destruct o; [|destruct AE]. apply wf_seq in W. destruct W as (_ & _ & W). rewrite Forall_forall in W.
    cbn in HE. destruct (lv =? 0).
    - apply (ints_true l 0) in HE; auto. apply W in HE. cbn in HE. lia.
    - clear AE. revert HE. induction l as [|x l IH]; cbn [first_and]; intros H; [injection H as <-; destruct J|].
      destruct x as [y|[|] lw c|[|] lw xs]; try discriminate; [apply IH; auto; intros; apply W; now right| |apply IH; auto; intros; apply W; now right].
      specialize (W _ (or_introl eq_refl)). apply wf_seq in W. destruct W as (_ & _ & W). rewrite Forall_forall in W. apply (ints_true xs 0) in H; auto. apply W in H. cbn in H. lia. }
  rewrite lit_val_opp in P; auto. rewrite Q in P. discriminate.
Qed.

(** ** the cell under construction *)
Definition conj_node (n : node) : Prop := match n with Seq AND _ _ => True | Cst AND _ false => True | _ => False end.
Lemma conj_append v n c n' : conj_node n -> wf n -> wf c -> append n [AN c] = Ok n' -> conj_node n' /\ wf n' /\ eval v n' = eval v n && eval v c.
Proof.
  intros C W WC H. split; [|split].
  - destruct n as [z|[|] lv [|]|[|] lv l]; try (destruct C; fail); cbn in H.
    + injection H as <-. exact C.
    + injection H as <-. destruct c as [z|o lw b|o lw l']; [destruct (in_lits z l); [exact Logic.I|destruct (in_lits (- z) l); exact Logic.I]| |exact Logic.I]. destruct b; exact Logic.I.
  - apply (append_wf n [AN c]); auto.
  - destruct (append_eval v _ _ _ H) as (P & Q). destruct n as [z|[|] lv b|[|] lv l]; try (destruct C; fail).
    + destruct b; [destruct C|]. rewrite (Q _ _ _ eq_refl). reflexivity.
    + rewrite (P _ _ _ eq_refl). cbn. now rewrite andb_true_r.
Qed.

Definition shape (t : node) : Prop := (exists lev l, t = Seq OR lev l) \/ conj_node t.
Section Proofs.
  Variable B : Type.
  Variable meets : B -> B -> bool.
  Variable v : point.
  Notation meta := (meta B).

  (** the same cell, perhaps regrouped *)
  Definition same_piece (p q : B * node) : Prop := fst p = fst q /\ eval v (snd p) = eval v (snd q).
  Definition same (m m' : meta) : Prop :=
    built m' /\ (mbox m' = mbox m /\ inside v m' = inside v m) /\ Forall2 same_piece (pieces m) (pieces m').
  Lemma same_refl m : built m -> same m m.
  Proof. intros G. split; [auto|split; auto]. clear G. induction (pieces m); constructor; auto. split; auto. Qed.
  Lemma same_trans a b c : same a b -> same b c -> same a c.
  Proof.
    intros (P & (Q0 & Q) & R) (P' & (Q0' & Q') & R'). split; [auto|split; [split; congruence|]]. clear -R R'. revert R'. generalize (pieces c). induction R as [|x y l m (E & F) _ IH]; intros k R'; inversion R' as [|y' z m' k' (E' & F') T]; subst; constructor; [split; congruence|apply IH; auto].
  Qed.

  Lemma built_and (m : meta) lev l : mdef m = Some (Seq AND lev l) -> wf (Seq AND lev l) -> built m.
  Proof. intros E W. exists (Seq AND lev l). auto. Qed.
  Lemma inside_pieces (m : meta) : built m -> inside v m = existsb (fun p => eval v (snd p)) (pieces m).
  Proof.
    intros (d & E & W & H). unfold inside, pieces. rewrite E. destruct d as [z|o lv b|[|] lv l]; try tauto; [symmetry; apply orb_false_r|].
    destruct H as (HL & _). rewrite eval_seq. revert HL. generalize (parts m). clear. induction l as [|x l IH]; intros [|b ps] HL; try discriminate; auto.
    cbn [combine existsb snd]. rewrite evl_cons. cbn [opb]. f_equal. apply IH. cbn in HL. lia.
  Qed.

  Lemma put_comp_spec e new sc s a new' s' :
    get_surf_value true e = Ok sc -> and_seq e -> wf e -> and_seq s -> wf s -> conj_node new -> wf new ->
    put_comp new sc s = Ok (a, new', s') ->
    conj_node new' /\ wf new' /\ wf s' /\ and_seq s' /\ eval v s' = eval v s /\
    (eval v new = false -> eval v new' = false) /\ (eval v e = true -> eval v new' = eval v new && negb (eval v s)).
  Proof.
    intros HE AE WE AS WS CN WN H. unfold put_comp in H. inv_bind. rename a0 into b. destruct (common b sc) eqn:C.
    - injection H as <- <- <-. repeat (split; [solve [auto]|]). intros E. rewrite (common_disjoint v e s _ _ HE Ha AE AS WE C E). cbn. now rewrite andb_true_r.
    - inv_bind. destruct a0 as (c, s2). inv_bind. injection H as <- <- <-. destruct (compl_f_sound v _ _ _ _ Ha0 WS) as (P & Q & R & T).
      destruct (conj_append v _ _ _ CN WN R Ha1) as (X & Y & Z0). split; [auto|split; [auto|split; [auto|split]]].
      { clear -Ha0 AS. destruct s as [z|o lv b|o lv l]; [destruct AS|destruct AS|]. destruct o; [|destruct AS]. unfold get_complementary in Ha0. cbn [compl_f] in Ha0.
        destruct (lv =? 0); [inv_bind; injection Ha0 as _ <-; exact Logic.I|]. inv_bind. destruct (group_single_shape _ _ _ _ Ha) as (l2 & ->). inv_bind. injection Ha0 as _ <-. exact Logic.I. }
      split; auto. split; [intros E; rewrite Z0, E; reflexivity|]. intros _. now rewrite Z0, P.
  Qed.

  Lemma comp_parts_spec e cbox sc : get_surf_value true e = Ok sc -> and_seq e -> wf e -> forall ps l new a new' l',
    length ps = length l -> Forall and_seq l -> Forall wf l -> conj_node new -> wf new ->
    (forall b s, In (b, s) (combine ps l) -> eval v e = true -> eval v s = true -> meets cbox b = true) ->
    comp_parts B meets cbox sc ps l new = Ok (a, new', l') ->
    conj_node new' /\ wf new' /\ length ps = length l' /\ Forall wf l' /\ Forall and_seq l' /\
    Forall2 same_piece (combine ps l) (combine ps l') /\ evl v OR l' = evl v OR l /\
    (eval v new = false -> eval v new' = false) /\ (eval v e = true -> eval v new' = eval v new && negb (evl v OR l)).
  Proof.
    intros HE AE WE. induction ps as [|b ps IH]; intros l new a new' l' HL A W CN WN BX H; destruct l as [|s l]; try discriminate; cbn [comp_parts] in H.
    { injection H as <- <- <-. repeat (split; [solve [auto]|]). split; [constructor|]. split; auto. split; auto. intros _. rewrite evl_nil. cbn. now rewrite andb_true_r. }
    assert (HL' : length ps = length l) by (cbn in HL; lia). inversion A as [|? ? A1 A2]; subst. inversion W as [|? ? W1 W2]; subst.
    destruct (meets cbox b) eqn:EM.
    - inv_bind. destruct a0 as ((a1, new1), s1). cbn in H. inv_bind. destruct a0 as ((a2, new2), l2). cbn in H. injection H as <- <- <-.
      destruct (put_comp_spec _ _ _ _ _ _ _ HE AE WE A1 W1 CN WN Ha) as (P1 & P2 & P3 & P4 & P5 & P6 & P7).
      destruct (IH _ _ _ _ _ HL' A2 W2 P1 P2 ltac:(intros; eapply BX; eauto; right; eauto) Ha0) as (Q1 & Q2 & Q3 & Q4 & Q5 & Q6 & Q7 & Q8 & Q9).
      split; auto. split; auto. split; [cbn; lia|]. split; [constructor; auto|]. split; [constructor; auto|]. split; [constructor; auto; split; auto|].
      split; [rewrite !evl_cons, Q7, P5; reflexivity|]. split; [auto|]. intros E. rewrite (Q9 E), (P7 E), evl_cons. cbn [opb]. rewrite negb_orb. now rewrite andb_assoc.
    - inv_bind. destruct a0 as ((a2, new2), l2). injection H as <- <- <-.
      destruct (IH _ _ _ _ _ HL' A2 W2 CN WN ltac:(intros; eapply BX; eauto; right; eauto) Ha) as (Q1 & Q2 & Q3 & Q4 & Q5 & Q6 & Q7 & Q8 & Q9).
      split; auto. split; auto. split; [cbn; lia|]. split; [constructor; auto|]. split; [constructor; auto|]. split; [constructor; auto; split; auto|].
      split; [rewrite !evl_cons, Q7; reflexivity|]. split; [auto|]. intros E. rewrite (Q9 E), evl_cons. cbn [opb]. destruct (eval v s) eqn:ES; auto. rewrite (BX b s) in EM; auto; [discriminate|now left].
  Qed.

  Lemma append_comp_spec e cbox new mm a new' mm' : and_seq e -> wf e -> conj_node new -> wf new -> built mm ->
    (forall p, In p (pieces mm) -> eval v e = true -> eval v (snd p) = true -> meets cbox (fst p) = true) ->
    append_comp B meets new e cbox mm = Ok (a, new', mm') ->
    conj_node new' /\ wf new' /\ same mm mm' /\
    (eval v new = false -> eval v new' = false) /\ (eval v e = true -> eval v new' = eval v new && negb (inside v mm)).
  Proof.
    intros AE WE CN WN G BX H. unfold append_comp in H. inv_bind. rename a0 into sc. pose proof G as (d & ED & WD & HD). unfold pieces in BX. unfold inside. rewrite ED in *.
    destruct d as [z|o lv b|[|] lv l]; try tauto; cbn [op_of bind] in H.
    - specialize (BX _ (or_introl eq_refl)). destruct (meets cbox (mbox mm)) eqn:EM.
      + inv_bind. destruct a0 as ((a1, new1), d1). injection H as <- <- <-.
        destruct (put_comp_spec e _ _ (Seq AND lv l) _ _ _ Ha AE WE Logic.I WD CN WN Ha0) as (P1 & P2 & P3 & P4 & P5 & P6 & P7).
        split; auto. split; auto. split; [|split; auto].
        destruct d1 as [z|o' lv' b|[|] lv' l']; try (destruct P4; fail). split; [eapply built_and; [reflexivity|auto]|]. split; [split; [reflexivity|]; cbn [inside mdef with_def]; unfold inside; rewrite ED; exact P5|].
        unfold pieces; rewrite ED. cbn [mdef with_def mbox]. constructor; auto. split; auto.
      + injection H as <- <- <-. split; auto. split; auto. split; [now apply same_refl|]. split; auto. intros E. destruct (eval v (Seq AND lv l)) eqn:EV; [|cbn; now rewrite andb_true_r].
        cbn [fst snd] in BX. rewrite (BX E EV) in EM. discriminate.
    - destruct HD as (HL & HA). inv_bind. destruct a0 as ((a1, new1), l1). injection H as <- <- <-. pose proof WD as WD'. apply wf_seq in WD'. destruct WD' as (W1 & W2 & W3).
      destruct (comp_parts_spec _ _ _ Ha AE WE _ _ _ _ _ _ HL HA W3 CN WN ltac:(intros b s I; apply (BX (b, s) I)) Ha0) as (Q1 & Q2 & Q3 & Q4 & Q5 & Q6 & Q7 & Q8 & Q9).
      split; auto. split; auto. split; [|split; auto; rewrite eval_seq; auto].
      split; [|split].
      + exists (Seq OR lv l1). split; [reflexivity|]. split; [|split; auto]. apply wf_seq. split; auto. split; auto. intros ->. specialize (W2 eq_refl).
        clear -HA W2 Q3 HL. destruct l as [|x l]; [destruct l1; [constructor|cbn in *; lia]|]. inversion HA as [|? ? X _]; subst. inversion W2 as [|? ? Y _]; subst. destruct x as [z|? ? ?|? ? ?]; [destruct X|destruct Y|destruct Y].
      + split; [reflexivity|]. unfold inside. rewrite ED. cbn [mdef with_def]. rewrite !eval_seq. auto.
      + unfold pieces. rewrite ED. cbn [mdef with_def parts]. auto.
  Qed.

  Lemma all_comps_spec e cbox : and_seq e -> wf e -> forall prev new a new' prev', conj_node new -> wf new -> Forall built prev ->
    (forall mm p, In mm prev -> In p (pieces mm) -> eval v e = true -> eval v (snd p) = true -> meets cbox (fst p) = true) ->
    all_comps B meets new e cbox prev = Ok (a, new', prev') ->
    conj_node new' /\ wf new' /\ Forall2 same prev prev' /\
    (eval v new = false -> eval v new' = false) /\ (eval v e = true -> eval v new' = eval v new && negb (existsb (inside v) prev)).
  Proof.
    intros AE WE. induction prev as [|mm prev IH]; intros new a new' prev' CN WN G BX H; cbn [all_comps] in H.
    { injection H as <- <- <-. repeat (split; [solve [auto]|]). intros _. cbn. now rewrite andb_true_r. }
    inversion G as [|? ? G1 G2]; subst. inv_bind. destruct a0 as ((a1, new1), mm1). cbn in H. inv_bind. destruct a0 as ((a2, new2), prev2). cbn in H. injection H as <- <- <-.
    destruct (append_comp_spec _ _ _ _ _ _ _ AE WE CN WN G1 ltac:(intros; eapply BX; eauto; now left) Ha) as (P1 & P2 & P3 & P4 & P5).
    destruct (IH _ _ _ _ P1 P2 G2 ltac:(intros; eapply BX; eauto; now right) Ha0) as (Q1 & Q2 & Q3 & Q4 & Q5).
    split; auto. split; auto. split; [constructor; auto|]. split; auto. intros E. rewrite (Q5 E), (P5 E). cbn [existsb]. now rewrite negb_orb, andb_assoc.
  Qed.

  Lemma start_conj e new : and_seq e -> wf e -> append (Seq AND 0 []) [AN (copy e)] = Ok new -> conj_node new /\ wf new /\ eval v new = eval v e.
  Proof.
    intros A W H. rewrite copy_id in H. destruct (conj_append v (Seq AND 0 []) e new) as (P & Q & R); auto; try exact Logic.I; cbn; repeat split; auto; lia.
  Qed.

  Lemma same_prev prev prev' : Forall2 same prev prev' -> Forall built prev' /\ existsb (inside v) prev' = existsb (inside v) prev.
  Proof. induction 1 as [|m m' l l' (P & (_ & Q) & R) _ (IH1 & IH2)]; [auto|]. split; [constructor; auto|]. cbn. now rewrite Q, IH2. Qed.
  Lemma same_piece_in m m' p : same m m' -> In p (pieces m') -> exists q, In q (pieces m) /\ same_piece q p.
  Proof. intros (_ & _ & R). induction R as [|x y l l' E _ IH]; intros I; [destruct I|]. destruct I as [<- | I]; [exists x; split; auto; now left|]. destruct (IH I) as (q & J & K). exists q. split; auto. now right. Qed.
  Lemma same_in prev prev' m' : Forall2 same prev prev' -> In m' prev' -> exists m, In m prev /\ same m m'.
  Proof. induction 1 as [|x y l l' E _ IH]; intros I; [destruct I|]. destruct I as [<- | I]; [exists x; split; auto; now left|]. destruct (IH I) as (q & J & K). exists q. split; auto. now right. Qed.
  Lemma same_list_refl l : Forall built l -> Forall2 same l l.
  Proof. induction 1; constructor; auto using same_refl. Qed.
  Lemma same_list_trans a b c : Forall2 same a b -> Forall2 same b c -> Forall2 same a c.
  Proof. intros H. revert c. induction H; intros c T; inversion T; subst; constructor; eauto using same_trans. Qed.

  Definition fits (e : node) (b : B) (prev : list meta) : Prop :=
    forall mm p, In mm prev -> In p (pieces mm) -> eval v e = true -> eval v (snd p) = true -> meets b (fst p) = true.
  Lemma fits_same e b prev prev' : Forall2 same prev prev' -> fits e b prev -> fits e b prev'.
  Proof.
    intros F H mm p I J E1 E2. destruct (same_in _ _ _ F I) as (m & Im & S). destruct (same_piece_in _ _ _ S J) as (q & Jq & Q1 & Q2). rewrite <- Q1. apply (H m q); auto; congruence.
  Qed.

  Lemma part_defs_spec : forall ps l prev new simp t s prev', length ps = length l -> Forall and_seq l -> Forall wf l -> Forall built prev ->
    (exists lev xs, new = Seq OR lev xs) -> wf new -> (forall b e, In (b, e) (combine ps l) -> fits e b prev) ->
    part_defs B meets ps l prev new simp = Ok (t, s, prev') ->
    (exists lev xs, t = Seq OR lev xs) /\ wf t /\ Forall2 same prev prev' /\
    eval v t = eval v new || (evl v OR l && negb (existsb (inside v) prev)).
  Proof.
    induction ps as [|b ps IH]; intros l prev new simp t s prev' HL A W G SN WN FT H; destruct l as [|e l]; try discriminate; cbn [part_defs] in H.
    { injection H as <- <- <-. split; auto. split; auto. split; [now apply same_list_refl|]. rewrite evl_nil. cbn. now rewrite orb_false_r. }
    assert (HL' : length ps = length l) by (cbn in HL; lia). inversion A as [|? ? A1 A2]; subst. inversion W as [|? ? W1 W2]; subst.
    inv_bind. rename a into sub. inv_bind. destruct a0 as ((s1, sub1), prev1). cbn in H. inv_bind. rename a into new1.
    destruct (start_conj _ _ A1 W1 Ha) as (P1 & P2 & P3).
    destruct (all_comps_spec _ _ A1 W1 _ _ _ _ _ P1 P2 G (FT b e (or_introl eq_refl)) Ha0) as (Q1 & Q2 & Q3 & Q4 & Q5).
    destruct SN as (lev & xs & ->).
    assert (N1 : (exists lev xs, new1 = Seq OR lev xs) /\ wf new1 /\ eval v new1 = evl v OR xs || eval v sub1).
    { split; [|split; [apply (append_wf (Seq OR lev xs) [AN sub1]); auto|]].
      - destruct sub1 as [z|[|] lw [|]|[|] lw ys]; try (destruct Q1; fail); cbn in Ha1; injection Ha1 as <-; eauto.
      - destruct (append_eval v _ _ _ Ha1) as (E & _). rewrite (E _ _ _ eq_refl), eval_seq. cbn. now rewrite orb_false_r. }
    destruct N1 as (N1 & N2 & N3). destruct (same_prev _ _ Q3) as (G1 & EX).
    destruct (IH _ _ _ _ _ _ _ HL' A2 W2 G1 N1 N2 ltac:(intros; eapply fits_same; [exact Q3|]; apply FT; now right) H) as (R1 & R2 & R3 & R4).
    split; auto. split; auto. split; [eapply same_list_trans; eauto|]. rewrite R4, N3, EX, eval_seq, evl_cons. cbn [opb].
    assert (ES : eval v sub1 = eval v e && negb (existsb (inside v) prev)).
    { destruct (eval v e) eqn:EE; [rewrite (Q5 eq_refl), P3; reflexivity|apply Q4; auto]. }
    rewrite ES. destruct (evl v OR xs), (eval v e), (existsb (inside v) prev), (evl v OR l); reflexivity.
  Qed.

  Lemma overlap_cell_spec prev m t s prev' : Forall built prev -> built m ->
    (forall p, In p (pieces m) -> fits (snd p) (fst p) prev) ->
    overlap_cell B meets prev m = Ok (t, s, prev') ->
    wf t /\ Forall2 same prev prev' /\ eval v t = inside v m && negb (existsb (inside v) prev) /\ shape t.
  Proof.
    intros G Gm FT H. pose proof Gm as (d & ED & WD & HD). unfold overlap_cell in H. unfold pieces in FT. unfold inside. rewrite ED in *.
    destruct d as [z|o lv b|[|] lv l]; try tauto; cbn [op_of bind] in H.
    - inv_bind. inv_bind. destruct a0 as ((s1, new1), prev1). cbn in H. injection H as <- <- <-. destruct (start_conj (Seq AND lv l) _ Logic.I WD Ha) as (P1 & P2 & P3).
      destruct (all_comps_spec (Seq AND lv l) _ Logic.I WD _ _ _ _ _ P1 P2 G (FT _ (or_introl eq_refl)) Ha0) as (Q1 & Q2 & Q3 & Q4 & Q5).
      split; auto. split; auto. split; [|right; auto]. destruct (eval v (Seq AND lv l)) eqn:EE; [rewrite (Q5 eq_refl), P3; reflexivity|apply Q4; auto].
    - destruct HD as (HL & HA). pose proof WD as WD'. apply wf_seq in WD'. destruct WD' as (W1 & W2 & W3).
      assert (W0 : wf (Seq OR 0 [])) by (cbn; repeat split; auto; lia).
      destruct (part_defs_spec _ _ _ (Seq OR 0 []) _ _ _ _ HL HA W3 G (ex_intro _ _ (ex_intro _ _ eq_refl)) W0 ltac:(intros b e I; apply (FT (b, e) I)) H) as (R1 & R2 & R3 & R4).
      split; [exact R2|]. split; [exact R3|]. split; [exact R4|left; exact R1].
  Qed.

  Fixpoint expected (prev rest : list meta) : list bool :=
    match rest with [] => [] | m :: r => (inside v m && negb (existsb (inside v) prev)) :: expected (prev ++ [m]) r end.
  Lemma expected_same rest : forall prev prev', existsb (inside v) prev' = existsb (inside v) prev -> expected prev' rest = expected prev rest.
  Proof. induction rest as [|m r IH]; intros prev prev' E; cbn; auto. rewrite E. f_equal. apply IH. rewrite !existsb_app, E. reflexivity. Qed.

  Lemma overlap_loop_spec : forall rest prev ps all, Forall built prev -> Forall built rest -> boxes_hold meets v (prev ++ rest) ->
    overlap_loop B meets prev rest = Ok (ps, all) ->
    Forall (fun p => wf (fst p) /\ shape (fst p)) ps /\ map (fun p => eval v (fst p)) ps = expected prev rest /\ Forall2 same (prev ++ rest) all.
  Proof.
    induction rest as [|m rest IH]; intros prev ps all G GR BX H; cbn [overlap_loop] in H.
    { injection H as <- <-. repeat (split; [constructor|]). rewrite app_nil_r. now apply same_list_refl. }
    inversion GR as [|? ? G1 G2]; subst. inv_bind. destruct a as ((t, s), prev1). cbn in H. inv_bind. destruct a as (ps1, all1). injection H as <- <-.
    assert (FT : forall p, In p (pieces m) -> fits (snd p) (fst p) prev).
    { intros p I mm q J K E1 E2. apply (BX m mm p q); auto; apply in_or_app; [right; now left|now left]. }
    destruct (overlap_cell_spec _ _ _ _ _ G G1 FT Ha) as (P1 & P2 & P3 & P4).
    destruct (same_prev _ _ P2) as (G3 & EX).
    assert (S1 : Forall2 same (prev ++ [m]) (prev1 ++ [m])) by (apply Forall2_app; auto; constructor; auto using same_refl).
    assert (S2 : Forall2 same ((prev ++ [m]) ++ rest) ((prev1 ++ [m]) ++ rest)) by (apply Forall2_app; auto using same_list_refl).
    destruct (IH (prev1 ++ [m]) ps1 all1) as (Q1 & Q2 & Q3); auto.
    - apply Forall_app. auto.
    - intros m1 m2 p1 p2 I1 I2 J1 J2 E1 E2. destruct (same_in _ _ _ S2 I1) as (n1 & K1 & L1). destruct (same_in _ _ _ S2 I2) as (n2 & K2 & L2).
      destruct (same_piece_in _ _ _ L1 J1) as (q1 & M1 & X1 & Y1). destruct (same_piece_in _ _ _ L2 J2) as (q2 & M2 & X2 & Y2). rewrite <- X1, <- X2.
      rewrite <- app_assoc in K1, K2. apply (BX n1 n2); auto; congruence.
    - split; [constructor; auto|].
      split; [cbn; rewrite P3, Q2; f_equal; apply expected_same; rewrite !existsb_app, EX; reflexivity|].
      replace (prev ++ m :: rest) with ((prev ++ [m]) ++ rest) by now rewrite <- app_assoc. eapply same_list_trans; eauto.
  Qed.

  Lemma expected_nth : forall rest prev i, (i < length rest)%nat -> nth_error (expected prev rest) i = Some (minus_previous v (prev ++ rest) (length prev + i)).
  Proof.
    induction rest as [|m r IH]; intros prev i Hi; [cbn in Hi; lia|]. destruct i as [|i]; cbn [expected nth_error].
    - f_equal. unfold minus_previous. rewrite Nat.add_0_r, nth_error_app2 by lia. rewrite Nat.sub_diag. cbn. now rewrite firstn_app, Nat.sub_diag, firstn_all, app_nil_r.
    - rewrite IH by (cbn in Hi; lia). rewrite <- app_assoc, app_length. cbn [length app]. f_equal. f_equal. lia.
  Qed.
  Lemma expected_length : forall rest prev, length (expected prev rest) = length rest.
  Proof. induction rest as [|m r IH]; intros; cbn; auto. Qed.
  Lemma new_defs_spec metas ps all : Forall built metas -> boxes_hold meets v metas -> new_defs B meets metas = Ok (ps, all) ->
    length ps = pred (length metas) /\ Forall (fun p => wf (fst p) /\ shape (fst p)) ps /\ Forall2 same metas all /\
    forall i p, nth_error ps i = Some p -> eval v (fst p) = minus_previous v metas (S i).
  Proof.
    intros G BX H. destruct metas as [|m r]; [discriminate|]. inversion G as [|? ? G1 G2]; subst. cbn in H.
    destruct (overlap_loop_spec r [m] ps all) as (P & Q & R); auto.
    assert (HL : length ps = length r) by (rewrite <- (expected_length r [m]), <- Q, map_length; reflexivity).
    split; [exact HL|]. split; auto. split; auto. intros i p E.
    assert (HI : (i < length r)%nat) by (rewrite <- HL; apply nth_error_Some; congruence).
    pose proof (expected_nth r [m] i HI) as T. rewrite <- Q in T. rewrite nth_error_map, E in T. cbn in T. injection T as ->. reflexivity.
  Qed.
End Proofs.
