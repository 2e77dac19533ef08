(** Proofs for C56: the surfaces of a definition stay in any set [Q] of surface numbers. *)
From Verif Require Import Prelude BoolSpec BoolSeq BoolEdit BoolProofs BoolProofs2 CtSpec Ctable VoidCell NoOverlap.

Section On.
  Variable Q : Z -> Prop.
  Definition on (n : node) : Prop := forall z, In z (lits n) -> Q (Z.abs z).
  Definition onl (l : list node) : Prop := forall n, In n l -> on n.

  Lemma on_lit z : on (Lit z) <-> Q (Z.abs z).
  Proof. unfold on. simpl. split; [intros H; apply H; auto|intros H y [<-|[]]; auto]. Qed.
  Lemma on_cst op lev b : on (Cst op lev b).
  Proof. intros z []. Qed.
  Lemma on_seq op lev l : on (Seq op lev l) <-> onl l.
  Proof.
    unfold on, onl, on. cbn [lits]. split.
    - intros H n I z Iz. apply H. apply in_flat_map. eauto.
    - intros H z Iz. apply in_flat_map in Iz. destruct Iz as (n & I & Iz). eauto.
  Qed.
  Lemma onl_nil : onl [].
  Proof. intros n []. Qed.
  Lemma onl_cons a l : onl (a :: l) <-> on a /\ onl l.
  Proof. unfold onl. simpl. split; [intros H; split; auto|intros (A & B) n [<-|I]; auto]. Qed.
  Lemma onl_app a b : onl (a ++ b) <-> onl a /\ onl b.
  Proof. unfold onl. split; [intros H; split; intros; apply H, in_or_app; auto|intros (A & B) n I; apply in_app_iff in I; destruct I; auto]. Qed.
  Lemma onl_incl a b : incl a b -> onl b -> onl a.
  Proof. unfold onl. auto. Qed.
  Hint Resolve on_cst onl_nil : on.

  Lemma remove_lit_incl z l : incl (remove_lit z l) l.
  Proof.
    induction l as [|x l IH]; simpl; [intros ? []|]. destruct x; try (intros y [<-|I]; [left; auto|right; auto]).
    destruct (z0 =? z); [intros y I; right; auto|intros y [<-|I]; [left; auto|right; auto]].
  Qed.
  Lemma remove_at_incl {A} j (l : list A) : incl (remove_at j l) l.
  Proof.
    revert j; induction l as [|x l IH]; intros [|j]; simpl; intros y I; auto; try (right; auto; fail).
    destruct I as [<-|I]; [left; auto|right; apply (IH j); auto].
  Qed.

  Definition onarg (a : arg) : Prop := match a with AN n => on n | AB _ => True end.
  Lemma append_loop_on op args : forall lev l, onl l -> Forall onarg args -> on (append_loop op lev l args).
  Proof.
    induction args as [|a args IH]; intros lev l HL HA; cbn [append_loop]; [apply on_seq; auto|].
    inversion HA; subst. destruct a as [n|b].
    - destruct n as [s|o' lv b|o' lv l']; cbn [onarg] in *.
      + destruct (in_lits s l); auto. destruct (in_lits (- s) l); auto with on. apply IH; auto. apply onl_app. split; auto. apply onl_cons. auto with on.
      + destruct (eqb b (absorbing op)); auto with on.
      + apply IH; auto. apply onl_app. split; auto. apply onl_cons. auto with on.
    - destruct (eqb b (neutral op)); auto with on.
  Qed.
  Lemma append_on self args r : on self -> Forall onarg args -> append self args = Ok r -> on r.
  Proof.
    intros HS HA H. destruct self as [z|op lev b|op lev l]; cbn [append] in H; try discriminate.
    - destruct (eqb b (neutral op)); [|inv H; auto with on]. destruct args as [|a [|]]; try discriminate; destruct a as [n|]; try discriminate.
      + destruct n; try discriminate; cbn [assign_tuple] in H; inv H; inversion HA; auto.
      + destruct n; discriminate.
    - inv H. apply append_loop_on; auto. apply on_seq in HS. auto.
  Qed.
  Lemma append1_on self n r : on self -> on n -> append self [AN n] = Ok r -> on r.
  Proof. intros A B. apply append_on; auto. Qed.

  Lemma gs_loop_on i : forall l g l' g', onl l -> onl g -> gs_loop i l g = Ok (l', g') -> onl l' /\ onl g'.
  Proof.
    induction i as [|j IH]; intros l g l' g' HL HG H; cbn [gs_loop] in H; [inv H; auto|].
    destruct (nth_error l j) as [x|] eqn:E; [|inv H; auto]. assert (OX : on x) by (apply HL; eapply nth_error_In; eauto).
    destruct x as [z|o lev b|o lev xs].
    - apply IH in H; auto; [apply (onl_incl _ l); auto; apply remove_lit_incl|apply onl_app; split; auto; apply onl_cons; auto with on].
    - destruct (lev =? 0); [discriminate|]. apply IH in H; auto.
    - destruct xs as [|x [|]]; try (apply IH in H; auto; fail). destruct (lev =? 0); apply IH in H; auto.
      + apply (onl_incl _ l); auto. apply remove_at_incl.
      + apply onl_app. split; auto. apply on_seq in OX. auto.
  Qed.
  Lemma group_single_on n r : on n -> group_single n = Ok r -> on r.
  Proof.
    intros HN H. destruct n as [z|op lev b|op lev l]; cbn [group_single] in H; [discriminate|inv H; auto|].
    destruct (lev =? 0); [inv H; auto|]. inv_bind. destruct a as [l' g]. apply on_seq in HN.
    destruct (gs_loop_on _ _ _ _ _ HN onl_nil Ha) as (A & B). destruct g; inv H; apply on_seq; auto.
    apply onl_cons. split; auto. apply on_seq. auto.
  Qed.

  Lemma level_update_lits n : lits (level_update n) = lits n.
  Proof.
    induction n as [z|op lev b|op lev l IH] using node_ind'; auto. cbn [level_update lits].
    induction l as [|x l IHl]; auto. inversion IH; subst. simpl. f_equal; auto.
  Qed.
  Lemma level_update_on n : on (level_update n) <-> on n.
  Proof. unfold on. rewrite level_update_lits. tauto. Qed.
  Lemma copy_lits n : lits (copy n) = lits n.
  Proof.
    induction n as [z|op lev b|op lev l IH] using node_ind'; auto. cbn [copy lits].
    induction l as [|x l IHl]; auto. inversion IH; subst. simpl. f_equal; auto.
  Qed.
  Lemma copy_on n : on (copy n) <-> on n.
  Proof. unfold on. rewrite copy_lits. tauto. Qed.

  Lemma clean_list_on f op l : (forall e, In e l -> on e -> on (f e)) -> onl l ->
    match clean_list f op l with inl _ => True | inr l' => onl l' end.
  Proof.
    induction l as [|e l IH]; intros HF HL; cbn [clean_list]; auto with on.
    apply onl_cons in HL. destruct HL as (A & B). specialize (IH (fun e I => HF e (or_intror I)) B).
    destruct (clean_list f op l) as [b|r']; auto. pose proof (HF e (or_introl eq_refl) A) as C.
    destruct (f e); [apply onl_cons; auto|destruct (eqb _ _); auto|apply onl_cons; auto].
  Qed.
  Lemma clean_end_on op lev r : match r with inl _ => True | inr l' => onl l' end -> on (clean_end op lev r).
  Proof. destruct r as [b|[|x l]]; cbn [clean_end]; auto with on. intros H. apply on_seq. auto. Qed.
  Lemma clean_on n : on n -> on (clean n).
  Proof.
    induction n as [z|op lev b|op lev l IH] using node_ind'; auto. intros H. cbn [clean]. apply clean_end_on.
    rewrite Forall_forall in IH. apply clean_list_on; auto. apply on_seq in H. auto.
  Qed.
  Lemma clean_self_on n : on n -> on (clean_self n).
  Proof.
    destruct n as [z|op lev b|op lev l]; auto. intros H. cbn [clean_self]. apply clean_end_on.
    apply clean_list_on; auto. apply on_seq in H. auto.
  Qed.

  Lemma check0_on op lev l : onl l -> on (check0 op lev l).
  Proof. unfold check0. intros H. destruct (Nat.eqb _ _); auto with on. apply on_seq. auto. Qed.
  Lemma check_list_on f op l : (forall e e', In e l -> on e -> f e = Ok e' -> on e') -> onl l -> forall r,
    check_list f op l = Ok r -> match r with inl _ => True | inr l' => onl l' end.
  Proof.
    induction l as [|e l IH]; intros HF HL r H; cbn [check_list] in H; [inv H; auto with on|].
    apply onl_cons in HL. destruct HL as (A & B). destruct (check_list f op l) as [r1| |] eqn:E; try discriminate. cbn [bind] in H.
    specialize (IH (fun e e' I => HF e e' (or_intror I)) B r1 eq_refl).
    destruct r1 as [b|r']; [inv H; auto|]. destruct (f e) as [e'| |] eqn:EF; try discriminate. cbn [bind] in H.
    pose proof (HF e e' (or_introl eq_refl) A EF) as C.
    destruct e'; [inv H; apply onl_cons; auto|destruct (eqb _ _); inv H; auto|inv H; apply onl_cons; auto].
  Qed.
  Lemma check_f_on k : forall n r, on n -> check_f k n = Ok r -> on r.
  Proof.
    induction k as [|k IH]; intros n r HN H; cbn [check_f] in H; [discriminate|].
    destruct n as [z|op lev b|op lev l]; [discriminate|inv H; auto|].
    destruct (lev =? 0); [inv H; apply check0_on; apply on_seq in HN; auto|].
    destruct (group_single (Seq op lev l)) as [g| |] eqn:EG; try discriminate. cbn [bind] in H.
    pose proof (group_single_on _ _ HN EG) as OG. destruct g as [z|o lv b|o lv l']; [inv H; auto|inv H; auto|].
    destruct (check_list (check_f k) o l') as [q| |] eqn:EC; try discriminate. cbn [bind] in H. inv H.
    apply clean_end_on. eapply check_list_on; eauto. apply on_seq in OG. auto.
  Qed.
  Lemma check_on n r : on n -> check n = Ok r -> on r.
  Proof. apply check_f_on. Qed.
  Lemma check_level0_on n : on n -> on (check_level0 n).
  Proof. destruct n; auto. cbn [check_level0]. intros H. destruct (_ =? 0); auto. apply check0_on. apply on_seq in H. auto. Qed.

  Lemma mapM_onl f l : (forall e e', In e l -> on e -> f e = Ok e' -> on e') -> onl l -> forall l', mapM f l = Ok l' -> onl l'.
  Proof.
    induction l as [|x l IH]; intros HF HL l' H; cbn [mapM] in H; [inv H; auto|].
    apply onl_cons in HL. destruct HL as (A & B). destruct (f x) as [y| |] eqn:EF; try discriminate. cbn [bind] in H.
    destruct (mapM f l) as [l2| |] eqn:EL; try discriminate. cbn [bind] in H. inv H. apply onl_cons. split.
    - apply (HF x); simpl; auto.
    - apply IH; auto. intros; eapply HF; simpl; eauto.
  Qed.
  Lemma compl_f_on k : forall n c g, on n -> compl_f k n = Ok (c, g) -> on c /\ on g.
  Proof.
    induction k as [|k IH]; intros n c g HN H; cbn [compl_f] in H; [discriminate|].
    destruct n as [z|op lev b|op lev l]; try discriminate. destruct (lev =? 0).
    - destruct (mapM _ l) as [l'| |] eqn:EM; try discriminate. cbn [bind] in H. inv H. split; auto. apply on_seq.
      apply on_seq in HN. eapply mapM_onl; [|exact HN|exact EM]. intros e e' _ OE E. destruct e; try discriminate. inv E.
      apply on_lit. rewrite Z.abs_opp. apply on_lit in OE. auto.
    - destruct (group_single (Seq op lev l)) as [g0| |] eqn:EG; try discriminate. cbn [bind] in H.
      pose proof (group_single_on _ _ HN EG) as OG. destruct g0 as [z|o lv b|o lv l']; try discriminate.
      destruct (mapM (compl_f k) l') as [ps| |] eqn:EM; try discriminate. cbn [bind] in H. inv H. apply on_seq in OG.
      assert (K : onl (map fst ps) /\ onl (map snd ps)).
      { clear - IH OG EM. revert ps EM OG. induction l' as [|x l' IHl]; intros ps EM OG; cbn [mapM] in EM; [inv EM; split; auto with on|].
        apply onl_cons in OG. destruct OG as (A & B). destruct (compl_f k x) as [[c g]| |] eqn:EX; try discriminate. cbn [bind] in EM.
        destruct (mapM (compl_f k) l') as [l2| |]; try discriminate. cbn [bind] in EM. inv EM. cbn [map fst snd].
        destruct (IH _ _ _ A EX). destruct (IHl _ eq_refl B). split; apply onl_cons; auto. }
      destruct K. split; apply on_seq; auto.
  Qed.
  Lemma compl_on n c g : on n -> get_complementary n = Ok (c, g) -> on c /\ on g.
  Proof. apply compl_f_on. Qed.

  Lemma elems_on n l : on n -> elems_of n = Ok l -> onl l.
  Proof. destruct n; try discriminate. intros H [= <-]. apply on_seq in H. auto. Qed.
  Lemma merge_same_on op lev l r : onl l -> merge_same op lev l = Ok r -> on r.
  Proof.
    intros HL H. unfold merge_same in H. destruct (mapM op_of l); try discriminate. cbn [bind] in H.
    destruct (Nat.ltb _ _); [|inv H; apply on_seq; auto].
    destruct (mapM elems_of (filter (has_op op) l)) as [xs| |] eqn:EM; try discriminate. cbn [bind] in H.
    apply append1_on in H; auto.
    - apply on_seq. intros n I. apply filter_In in I. apply HL, I.
    - apply level_update_on. apply on_seq.
      assert (OF : onl (filter (has_op op) l)) by (intros n I; apply filter_In in I; apply HL, I).
      clear H. revert xs EM OF. generalize (filter (has_op op) l). clear. intros l. induction l as [|x l IH]; intros xs EM OF; cbn [mapM] in EM; [inv EM; auto with on|].
      apply onl_cons in OF. destruct OF as (A & B). destruct (elems_of x) as [e| |] eqn:EE; try discriminate. cbn [bind] in EM.
      destruct (mapM elems_of l) as [l2| |]; try discriminate. cbn [bind] in EM. inv EM. cbn [concat]. apply onl_app. split; auto.
      eapply elems_on; eauto.
  Qed.
  Lemma join_f_on k : forall sl n r, on n -> join_f k sl n = Ok r -> on r.
  Proof.
    induction k as [|k IH]; intros sl n r HN H; cbn [join_f] in H; [discriminate|].
    destruct n as [z|op lev b|op lev l]; [discriminate|inv H; auto|].
    assert (O1 : on (level_update (clean_self (Seq op lev l)))) by (apply level_update_on, clean_self_on; auto).
    destruct (level_of _ =? 0); [inv H; auto|].
    destruct (group_single (level_update (clean_self (Seq op lev l)))) as [n2| |] eqn:EG; try discriminate. cbn [bind] in H.
    pose proof (group_single_on _ _ O1 EG) as O2. destruct n2 as [z|o lv b|o lv l2]; [inv H; auto|inv H; auto|].
    apply on_seq in O2. destruct (merge_same o lv l2) as [n3| |] eqn:EM; try discriminate. cbn [bind] in H.
    pose proof (merge_same_on _ _ _ _ O2 EM) as O3.
    match type of H with (do n4 <- ?e; _) = _ => destruct e as [n4| |] eqn:E4; try discriminate end. cbn [bind] in H.
    assert (O4 : on n4).
    { destruct n3 as [z|o3 lv3 b|o3 lv3 [|c [|]]]; try (inv E4; auto; fail). destruct (0 <? lv3); [|inv E4; auto].
      destruct (op_of c) as [oc| |]; try discriminate. cbn [bind] in E4. destruct (elems_of c) as [xs| |] eqn:EC; try discriminate. cbn [bind] in E4.
      apply IH in E4; auto. apply on_seq. apply on_seq in O3. eapply (elems_on c); [apply O3; left; auto|exact EC]. }
    destruct (level_of n4 =? 0); [eapply check_on; eauto|]. destruct sl; [inv H; auto|].
    destruct n4 as [z|o4 lv4 b|o4 lv4 l4]; [inv H; auto|inv H; auto|].
    destruct (mapM (join_f k false) l4) as [l5| |] eqn:E5; try discriminate. cbn [bind] in H. inv H. apply on_seq. apply on_seq in O4.
    eapply mapM_onl; [|exact O4|exact E5]. intros; eapply IH; eauto.
  Qed.
  Lemma join_on sl n r : on n -> join sl n = Ok r -> on r.
  Proof. apply join_f_on. Qed.

  Lemma subst_list_on f op name b l : (forall e e', In e l -> on e -> f e = Ok e' -> on e') -> onl l -> forall r,
    subst_list f op name (VB b) l = Ok r -> match r with inl _ => True | inr l' => onl l' end.
  Proof.
    induction l as [|e l IH]; intros HF HL r H; cbn [subst_list] in H; [inv H; auto with on|].
    apply onl_cons in HL. destruct HL as (A & B). destruct (subst_list f op name (VB b) l) as [r1| |] eqn:E; try discriminate. cbn [bind] in H.
    specialize (IH (fun e e' I => HF e e' (or_intror I)) B r1 eq_refl).
    destruct r1 as [b1|r']; [inv H; auto|]. destruct e as [z|o lv c|o lv xs].
    - destruct (Z.abs z =? name); [|inv H; apply onl_cons; auto]. cbv zeta in H. destruct (eqb _ _); inv H; auto.
    - destruct (f (Cst o lv c)) as [e'| |] eqn:EF; try discriminate. cbn [bind] in H. inv H. apply onl_cons. split; auto. eapply HF; simpl; eauto.
    - destruct (f (Seq o lv xs)) as [e'| |] eqn:EF; try discriminate. cbn [bind] in H. inv H. apply onl_cons. split; auto. eapply HF; simpl; eauto.
  Qed.
  Lemma subst_on x b n : forall r, on n -> subst x (VB b) n = Ok r -> on r.
  Proof.
    induction n as [z|op lev c|op lev l IH] using node_ind'; intros r HN H; cbn [subst] in H; [discriminate|inv H; auto|].
    destruct (subst_list (subst x (VB b)) op (Z.abs x) (VB b) l) as [q| |] eqn:E; try discriminate. cbn [bind] in H.
    apply on_seq in HN. rewrite Forall_forall in IH. pose proof (subst_list_on _ _ _ _ _ (fun e e' I OE EE => IH e I e' OE EE) HN q E) as OQ.
    destruct q as [c|[|y l']]; [inv H; auto with on|inv H; auto with on|].
    eapply join_on; [|exact H]. apply check_level0_on, clean_self_on, on_seq. auto.
  Qed.
  Definition onr (r : bres) : Prop := match r with RB _ => True | RS n => on n end.
  Lemma eval_loop_on vs : forall n r, on n -> eval_loop vs n = Ok r -> onr r.
  Proof.
    induction vs as [|[x b] vs IH]; intros n r HN H; cbn [eval_loop] in H.
    - inv H. destruct n; cbn [onr]; auto.
    - destruct (subst x (VB b) n) as [n'| |] eqn:E; try discriminate. cbn [bind] in H. pose proof (subst_on _ _ _ _ HN E) as ON.
      destruct n'; [eapply IH; eauto|inv H; exact I|eapply IH; eauto].
  Qed.
  Lemma evaluate_on vs n r g : on n -> evaluate vs n = Ok (r, g) -> onr r /\ on g.
  Proof.
    intros HN H. destruct n as [z|op lev b|op lev l]; cbn [evaluate] in H; [discriminate|inv H; split; [exact I|auto]|].
    destruct (group_single (Seq op lev l)) as [g0| |] eqn:EG; try discriminate. cbn [bind] in H.
    pose proof (group_single_on _ _ HN EG) as OG. destruct (eval_loop vs (copy g0)) as [r0| |] eqn:EL; try discriminate. cbn [bind] in H. inv H.
    split; auto. eapply eval_loop_on; [|exact EL]. apply copy_on. auto.
  Qed.

  Lemma touching_on vals l : forall i ts, onl l -> touching vals i l = Ok ts -> forall p, In p ts -> In (snd p) l.
  Proof.
    induction l as [|e l IH]; intros i ts HL H p I; cbn [touching] in H; [inv H; destruct I|].
    apply onl_cons in HL. destruct HL as (A & B).
    assert (K : exists rest, touching vals (S i) l = Ok rest /\ (ts = rest \/ ts = (i, e) :: rest)).
    { destruct e; try discriminate; (destruct (touching vals (S i) l) as [rest| |]; try discriminate; cbn [bind] in H;
        exists rest; split; auto; destruct (existsb _ _) in H; inv H; auto). }
    destruct K as (rest & E & [-> | ->]); [right; eapply IH; eauto|]. destruct I as [<-|I]; [left; auto|right; eapply IH; eauto].
  Qed.
  Lemma get_sub_f_on k vals : forall n p s, on n -> get_sub_f k vals n = Ok (p, s) -> on s.
  Proof.
    induction k as [|k IH]; intros n p s HN H; cbn [get_sub_f] in H; [discriminate|].
    destruct n as [z|op lev b|op lev l]; [discriminate|destruct (lev =? 0); [inv H; auto|discriminate]|].
    destruct (lev =? 0); [inv H; auto|]. destruct (touching vals 0 l) as [ts| |] eqn:ET; try discriminate. cbn [bind] in H.
    destruct (append (Seq op 0 []) (map (fun p => AN (snd p)) ts)) as [sub| |] eqn:EA; try discriminate. cbn [bind] in H.
    apply on_seq in HN.
    assert (OT : forall p, In p ts -> on (snd p)) by (intros q I; apply HN; eapply touching_on; eauto).
    assert (OS : on sub).
    { eapply append_on; [|  |exact EA]; [apply on_seq; auto with on|]. apply Forall_forall. intros a I. apply in_map_iff in I. destruct I as (q & <- & I). cbn [onarg]. auto. }
    destruct ts as [|[i c] [|]]; [inv H; auto| |inv H; auto]. destruct (0 <? level_of c); [|inv H; auto].
    destruct (get_sub_f k vals c) as [[p' s']| |] eqn:EG; try discriminate. cbn [bind] in H.
    assert (OS' : on s') by (eapply IH; [|exact EG]; apply (OT (i, c)); left; auto).
    destruct p' as [[path idx]|]; inv H; auto.
  Qed.

  Lemma del_idx_incl idx l : forall i, incl (del_idx i idx l) l.
  Proof.
    induction l as [|x l IH]; intros i y I; cbn [del_idx] in I; [destruct I|].
    destruct (existsb _ _) in I; [right; eapply IH; eauto|destruct I as [<-|I]; [left; auto|right; eapply IH; eauto]].
  Qed.
  Lemma update_base_on strict sq idx base r : on sq -> on base -> update_base strict sq idx base = Ok r -> on r.
  Proof.
    intros HS HB H. destruct base as [z|op lev b|op lev l]; cbn [update_base] in H; try discriminate. apply on_seq in HB.
    assert (OD : on (Seq op lev (del_idx 0 idx l))) by (apply on_seq; apply (onl_incl _ l); auto; apply del_idx_incl).
    destruct sq as [z|o lv b|o lv xs].
    - destruct (append (Seq op lev (del_idx 0 idx l)) [AN (Lit z)]) as [b1| |] eqn:EA; try discriminate. cbn [bind] in H.
      eapply join_on; [|exact H]. eapply append1_on; [exact OD|exact HS|exact EA].
    - destruct (_ && _ && _); [discriminate|]. inv H. auto with on.
    - destruct (append (Seq op lev (del_idx 0 idx l)) [AN (Seq o lv xs)]) as [b1| |] eqn:EA; try discriminate. cbn [bind] in H.
      eapply join_on; [|exact H]. eapply append1_on; [exact OD|exact HS|exact EA].
  Qed.
  Lemma firstn_incl {A} i (l : list A) : incl (firstn i l) l.
  Proof. revert i; induction l as [|x l IH]; intros [|i] y I; cbn in I; try destruct I as [<-|I]; simpl; auto; try tauto. right; eapply IH; eauto. Qed.
  Lemma skipn_incl {A} i (l : list A) : incl (skipn i l) l.
  Proof. revert i; induction l as [|x l IH]; intros [|i] y I; cbn in I; auto. right; eapply IH; eauto. Qed.
  Lemma upd_at_on f path : (forall n r, on n -> f n = Ok r -> on r) -> forall n r, on n -> upd_at path f n = Ok r -> on r.
  Proof.
    intros HF. induction path as [|i path IH]; intros n r HN H; cbn [upd_at] in H; [eauto|].
    destruct n as [z|op lev b|op lev l]; try discriminate. apply on_seq in HN.
    destruct (nth_error l i) as [c|] eqn:EN; [|discriminate]. destruct (upd_at path f c) as [c'| |] eqn:EU; try discriminate. cbn [bind] in H. inv H.
    apply on_seq. apply onl_app. split; [apply (onl_incl _ l); auto; apply firstn_incl|]. apply onl_cons. split.
    - eapply IH; [|exact EU]. apply HN. eapply nth_error_In; eauto.
    - apply (onl_incl _ l); auto. apply (skipn_incl (S i)).
  Qed.
  Lemma update_on strict sq path idx self r : on sq -> on self -> update strict sq path idx self = Ok r -> on r.
  Proof.
    intros HS HN H. unfold update in H. destruct (upd_at path (update_base strict sq idx) self) as [s| |] eqn:E; try discriminate. cbn [bind] in H. inv H.
    apply clean_self_on. eapply upd_at_on; [|exact HN|exact E]. intros b0 r0 OB E0; exact (update_base_on _ _ _ _ _ HS OB E0).
  Qed.

  Lemma shannon_on x t f r : Q (Z.abs x) -> onr t -> onr f -> shannon x t f = Ok r -> match r with Some n => on n | None => True end.
  Proof.
    intros HX HT HF H.
    assert (P1 : on (Lit x)) by (apply on_lit; auto). assert (P2 : on (Lit (- x))) by (apply on_lit; rewrite Z.abs_opp; auto).
    assert (K : forall op a g n, on (Lit a) -> on g -> (do n <- append (Seq op 0 []) [AN (Lit a); AN g]; do n' <- join true n; Ok (Some n')) = Ok (Some n) -> on n).
    { intros op a g n OA OG E. destruct (append (Seq op 0 []) [AN (Lit a); AN g]) as [n1| |] eqn:EA; try discriminate. cbn [bind] in E.
      destruct (join true n1) as [n2| |] eqn:EJ; try discriminate. cbn [bind] in E. inv E. eapply join_on; [|exact EJ].
      eapply append_on; [| |exact EA]; [apply on_seq; auto with on|]. repeat constructor; auto. }
    destruct r as [n|]; [|exact I].
    destruct t as [[|]|g], f as [[|]|g']; cbn [shannon] in H; try discriminate; try (inv H; auto with on; fail);
      try (eapply K; [| |exact H]; auto; fail);
      (match type of H with (do n <- ?e; _) = _ => destruct e as [n1| |] eqn:EA; try discriminate end; cbn [bind] in H; inv H;
       eapply append1_on; [| |exact EA]; auto; apply on_seq; auto with on).
  Qed.
  Lemma assign_res_on self r : on self -> onr r -> on (assign_res self r).
  Proof. intros HS HR. destruct r; cbn [assign_res onr] in *; auto. destruct self; cbn [assign_bool]; auto with on. Qed.
  Lemma factorize_on strict x ts fs self r : Q (Z.abs x) -> on self -> factorize strict x ts fs self = Ok r -> on r.
  Proof.
    intros HX HN H. destruct ts as [t|], fs as [f|]; cbn [factorize] in H; try discriminate.
    - destruct (get_sub_sequence (map fst t ++ map fst f) self) as [[pos sub]| |] eqn:EG; try discriminate. cbn [bind] in H.
      pose proof (get_sub_f_on _ _ _ _ _ HN EG) as OSB.
      assert (O0 : on (match pos with None => self | Some _ => sub end)) by (destruct pos; auto).
      destruct (evaluate t _) as [[tr sub1]| |] eqn:E1; try discriminate. cbn [bind] in H. destruct (evaluate_on _ _ _ _ O0 E1) as (OT & O1).
      destruct (evaluate f sub1) as [[fr sub2]| |] eqn:E2; try discriminate. cbn [bind] in H. destruct (evaluate_on _ _ _ _ O1 E2) as (OF & _).
      destruct (shannon x tr fr) as [new| |] eqn:ES; try discriminate. cbn [bind] in H. pose proof (shannon_on _ _ _ _ HX OT OF ES) as ON.
      destruct new as [nseq|]; [|inv H; auto]. destruct pos as [[path idx]|]; [|inv H; auto]. eapply update_on; [exact ON|exact HN|exact H].
    - destruct (evaluate t self) as [[tr sub1]| |] eqn:E1; try discriminate. cbn [bind] in H. inv H. destruct (evaluate_on _ _ _ _ HN E1). apply assign_res_on; auto.
    - destruct (evaluate f self) as [[tr sub1]| |] eqn:E1; try discriminate. cbn [bind] in H. inv H. destruct (evaluate_on _ _ _ _ HN E1). apply assign_res_on; auto.
  Qed.
  Lemma surfs_on n x : on n -> In x (surfs n) -> Q x /\ Q (Z.abs x).
  Proof.
    intros HN I. unfold surfs in I. apply nodup_In, in_map_iff in I. destruct I as (z & <- & Iz). rewrite Z.abs_involutive. split; apply HN; auto.
  Qed.
  Lemma ss_loop_on strict ct names : forall newNames n r, (forall x, In x newNames -> Q (Z.abs x)) -> on n ->
    ss_loop strict ct names newNames n = Ok r -> on r.
  Proof.
    induction names as [|x names IH]; intros nn n r HQ HN H; cbn [ss_loop] in H; [inv H; auto|].
    destruct (existsb (Z.eqb x) nn) eqn:EX; [|eauto]. apply existsb_In in EX.
    destruct (value_sets ct x) as [[ts fs]| |]; try discriminate. cbn [bind] in H.
    destruct (do_factorize x ts fs n) as [go| |]; try discriminate. cbn [bind] in H. destruct go; [|eauto].
    destruct (factorize strict x ts fs n) as [s'| |] eqn:EF; try discriminate. cbn [bind] in H.
    pose proof (factorize_on _ _ _ _ _ _ (HQ _ EX) HN EF) as OS. destruct s' as [z|o lv b|o lv l]; [|inv H; auto|];
      (eapply IH; [| |exact H]; auto; intros y Iy; apply (surfs_on _ y OS); auto).
  Qed.
  Lemma simplify_f_on k strict ord ct : forall dep n r, on n -> simplify_f k strict ord ct dep n = Ok r -> on r.
  Proof.
    induction k as [|k IH]; intros dep n r HN H; cbn [simplify_f] in H; [discriminate|].
    destruct n as [z|op lev b|op lev l]; [discriminate| |].
    - destruct (0 <? level_of (Cst op lev b)); [discriminate|]. cbn [bind] in H. inv H. auto.
    - match type of H with (do s1 <- ?e; _) = _ => destruct e as [s1| |] eqn:E1; try discriminate end. cbn [bind] in H.
      assert (O1 : on s1).
      { destruct (0 <? level_of (Seq op lev l)); [|inv E1; auto]. destruct (mapM (simplify_f k strict ord ct (dep + 1)) l) as [l'| |] eqn:EM; try discriminate. cbn [bind] in E1.
        destruct (join false (clean (Seq op lev l'))) as [j| |] eqn:EJ; try discriminate. cbn [bind] in E1. inv E1. apply level_update_on.
        eapply join_on; [|exact EJ]. apply clean_on, on_seq. apply on_seq in HN. eapply mapM_onl; [|exact HN|exact EM]. intros; eapply IH; eauto. }
      destruct s1 as [z|o1 lv1 b1|o1 lv1 l1]; [inv H; auto|inv H; auto|]. destruct (_ || _); [|inv H; auto].
      destruct (simplify_sequence strict ord ct (Seq o1 lv1 l1)) as [s2| |] eqn:ES; try discriminate. cbn [bind] in H.
      assert (O2 : on s2).
      { unfold simplify_sequence in ES. destruct (surfs (Seq o1 lv1 l1)) as [|y ys] eqn:EY.
        - destruct ct; [|destruct (level_of _ <? 1)]; inv ES; auto; exact (clean_on _ O1).
        - assert (K : forall names, ss_loop strict ct names (y :: ys) (Seq o1 lv1 l1) = Ok s2 -> on s2).
          { intros names. apply ss_loop_on; auto. intros x Ix. apply (surfs_on _ x O1). rewrite EY. auto. }
          destruct ct; [eapply K; eauto|]. destruct (level_of _ <? 1); [inv ES; exact (clean_on _ O1)|eapply K; eauto]. }
      destruct (_ && _); [eapply IH; eauto|inv H; auto].
  Qed.
End On.
