(** C38: replacing every curved surface of a definition by its planes. *)
From Verif Require Import Prelude BoolSpec BoolSeq BoolProofs BoolTotal BoolTotal2 BoolTotal3 BoolEditProofs RBool RBoolProofs Vec3 Prim RBox RPlanes RPlaneDefProofs.
Open Scope Z_scope.

(** * the sequence of an entry and its complement *)
Definition two (l : list Z) : Prop := (2 <= length l)%nat.
Definition entry_two (e : entry) : Prop :=
  match e with EList _ => True | ECone _ l => two l | ETorus e i => two e /\ (i = [] \/ two i) end.
Definition entry_labs (e : entry) : list Z := match e with EList l | ECone _ l => l | ETorus e i => e ++ i end.
Definition ev_entry (u : point) (e : entry) : bool :=
  match e with
  | EList l | ECone false l => forallb u l
  | ECone true l => forallb u l || forallb (fun z => negb (u z)) l
  | ETorus e [] => forallb u e
  | ETorus e i => forallb u e && existsb u i
  end.
Definition entry_pos (e : entry) : bool := match e with ECone _ _ => true | _ => false end.

Lemma lit_pos u z : 0 < z -> lit_val u z = u z.
Proof. intros H. unfold lit_val. destruct (Z.ltb_spec z 0); [lia|]. reflexivity. Qed.
Lemma lit_neg u z : 0 < z -> lit_val u (- z) = negb (u z).
Proof. intros H. unfold lit_val. destruct (Z.ltb_spec (- z) 0); [|lia]. now rewrite Z.opp_involutive. Qed.
Lemma flat_and u l : Forall (fun z => 0 < z) l -> eval u (flat AND l) = forallb u l.
Proof. unfold flat. rewrite eval_seq. induction 1 as [|z l P _ IH]; [reflexivity|]. cbn [map]. rewrite evl_cons, IH. cbn [eval forallb opb]. now rewrite lit_pos. Qed.
Lemma flat_or u l : Forall (fun z => 0 < z) l -> eval u (flat OR l) = existsb u l.
Proof. unfold flat. rewrite eval_seq. induction 1 as [|z l P _ IH]; [reflexivity|]. cbn [map]. rewrite evl_cons, IH. cbn [eval existsb opb]. now rewrite lit_pos. Qed.
Lemma flat_and_opp u l : Forall (fun z => 0 < z) l -> eval u (flat AND (map Z.opp l)) = forallb (fun z => negb (u z)) l.
Proof. unfold flat. rewrite eval_seq. induction 1 as [|z l P _ IH]; [reflexivity|]. cbn [map]. rewrite evl_cons, IH. cbn [eval forallb opb]. now rewrite lit_neg. Qed.
Lemma flat_lits op l : lits (flat op l) = l.
Proof. unfold flat. cbn [lits]. induction l; cbn; congruence. Qed.
Lemma flat_gd op l : Forall (fun z => z <> 0) l -> gd (flat op l).
Proof. intros H. apply gd_seq. apply Forall_map. exact H. Qed.
Lemma flat_eval_opp u op l : Forall (fun z => z <> 0) l -> eval u (flat (comp_op op) (map Z.opp l)) = negb (eval u (flat op l)).
Proof.
  unfold flat. rewrite !eval_seq. induction 1 as [|z l P _ IH]; [rewrite !evl_nil; apply neutral_compl|]. cbn [map]. rewrite !evl_cons, IH. cbn [eval].
  rewrite lit_val_opp by exact P. apply opb_compl.
Qed.
Lemma compl_flat k op l : compl_f (S k) (flat op l) = Ok (flat (comp_op op) (map Z.opp l), flat op l).
Proof.
  unfold flat. cbn [compl_f]. rewrite Z.eqb_refl.
  assert (M : mapM (fun e => match e with Lit z => Ok (Lit (- z)) | _ => Err TypeError end) (map Lit l) = Ok (map Lit (map Z.opp l))).
  { induction l as [|z l IH]; [reflexivity|]. cbn [map mapM bind]. rewrite IH. reflexivity. }
  rewrite M. reflexivity.
Qed.
Lemma compl_two k o op1 a op2 b : two a -> two b ->
  compl_f (S (S k)) (Seq o 1 [flat op1 a; flat op2 b]) =
    Ok (Seq (comp_op o) 1 [flat (comp_op op1) (map Z.opp a); flat (comp_op op2) (map Z.opp b)], Seq o 1 [flat op1 a; flat op2 b]).
Proof.
  intros A B. destruct a as [|a0 [|a1 a]]; cbn in A; try (unfold two in A; cbn in A; lia). destruct b as [|b0 [|b1 b]]; try (unfold two in B; cbn in B; lia).
  assert (G : group_single (Seq o 1 [flat op1 (a0 :: a1 :: a); flat op2 (b0 :: b1 :: b)]) = Ok (Seq o 1 [flat op1 (a0 :: a1 :: a); flat op2 (b0 :: b1 :: b)])) by reflexivity.
  remember (S k) as k' eqn:Ek. cbn [compl_f]. change (1 =? 0) with false. cbv iota. rewrite G. cbn [bind]. subst k'.
  cbn [mapM]. rewrite !compl_flat. reflexivity.
Qed.
Lemma entry_ok u e : Forall (fun z => 0 < z) (entry_labs e) -> entry_two e ->
  exists pm pp, entry_seq e = Ok (pm, entry_pos e) /\ get_complementary pm = Ok (pp, pm) /\
    gd pm /\ gd pp /\ eval u pm = ev_entry u e /\ eval u pp = negb (ev_entry u e) /\
    (forall z, In z (lits pm) \/ In z (lits pp) -> In (Z.abs z) (entry_labs e)).
Proof.
  intros P T.
  assert (NZ : forall l, Forall (fun z => 0 < z) l -> Forall (fun z => z <> 0) l) by (intros l; apply Forall_impl; intros; lia).
  assert (NO : forall l, Forall (fun z => 0 < z) l -> Forall (fun z => z <> 0) (map Z.opp l)) by (intros l F; apply Forall_map; revert F; apply Forall_impl; intros; lia).
  assert (AB : forall l z, Forall (fun z => 0 < z) l -> In z l \/ In z (map Z.opp l) -> In (Z.abs z) l).
  { intros l z F [I|I]; rewrite Forall_forall in F.
    - rewrite Z.abs_eq; auto. specialize (F _ I). lia.
    - apply in_map_iff in I. destruct I as (y & <- & I). specialize (F _ I). rewrite Z.abs_opp, Z.abs_eq; auto; lia. }
  assert (ONE : forall l (ap : bool), Forall (fun z => 0 < z) l -> exists pm pp, Ok (flat AND l, ap) = Ok (pm, ap) /\ get_complementary pm = Ok (pp, pm) /\
    gd pm /\ gd pp /\ eval u pm = forallb u l /\ eval u pp = negb (forallb u l) /\
    (forall z, In z (lits pm) \/ In z (lits pp) -> In (Z.abs z) l)).
  { intros l ap F. exists (flat AND l), (flat (comp_op AND) (map Z.opp l)). split; [reflexivity|]. split; [apply compl_flat|].
    split; [apply flat_gd; auto|]. split; [apply flat_gd; auto|]. split; [apply flat_and; auto|]. split; [rewrite flat_eval_opp, flat_and; auto|].
    intros z. rewrite !flat_lits. auto. }
  assert (PAIR : forall o op1 a op2 b, two a -> two b -> Forall (fun z => z <> 0) a -> Forall (fun z => z <> 0) b ->
     exists pp, get_complementary (Seq o 1 [flat op1 a; flat op2 b]) = Ok (pp, Seq o 1 [flat op1 a; flat op2 b]) /\
      gd pp /\ gd (Seq o 1 [flat op1 a; flat op2 b]) /\ eval u (Seq o 1 [flat op1 a; flat op2 b]) = opb o (eval u (flat op1 a)) (eval u (flat op2 b)) /\
      eval u pp = negb (opb o (eval u (flat op1 a)) (eval u (flat op2 b))) /\
      (forall z, In z (lits (Seq o 1 [flat op1 a; flat op2 b])) \/ In z (lits pp) -> (In z a \/ In z (map Z.opp a)) \/ (In z b \/ In z (map Z.opp b)))).
  { intros o op1 a op2 b A B Fa Fb.
    assert (OP : forall l, Forall (fun z => z <> 0) l -> Forall (fun z => z <> 0) (map Z.opp l)) by (intros l F; apply Forall_map; revert F; apply Forall_impl; intros; lia).
    eexists. split; [unfold get_complementary; cbn [height fold_right]; apply compl_two; auto|]. split; [apply gd_seq; repeat constructor; apply flat_gd; auto|].
    split; [apply gd_seq; repeat constructor; apply flat_gd; auto|]. split; [rewrite eval_seq, !evl_cons, evl_nil, opb_neutral_r; reflexivity|].
    split; [rewrite eval_seq, !evl_cons, evl_nil, opb_neutral_r, !flat_eval_opp, opb_compl by auto; reflexivity|].
    intros z. change (lits (Seq o 1 [flat op1 a; flat op2 b])) with (lits (flat op1 a) ++ lits (flat op2 b) ++ []).
    change (lits (Seq (comp_op o) 1 [flat (comp_op op1) (map Z.opp a); flat (comp_op op2) (map Z.opp b)])) with (lits (flat (comp_op op1) (map Z.opp a)) ++ lits (flat (comp_op op2) (map Z.opp b)) ++ []).
    rewrite !in_app_iff, !flat_lits. cbn [In]. tauto. }
  destruct e as [l|dbl l|e i]; cbn [entry_labs entry_two] in *.
  - exact (ONE l false P).
  - destruct dbl; [|exact (ONE l true P)]. cbn [entry_seq entry_pos ev_entry]. unfold rappend. cbn [rappend_loop flat app bind].
    assert (T' : two (map Z.opp l)) by (unfold two in *; rewrite map_length; exact T).
    destruct (PAIR OR AND l AND (map Z.opp l) T T' (NZ _ P) (NO _ P)) as (pp & A & B & C & D & E & F).
    exists (Seq OR 1 [flat AND l; flat AND (map Z.opp l)]), pp. split; [reflexivity|]. split; [exact A|]. split; [exact C|]. split; [exact B|].
    rewrite flat_and, flat_and_opp in D, E by auto. split; [exact D|]. split; [exact E|].
    intros z I. apply F in I. destruct I as [I|[I|I]]; [auto| |]; apply AB; auto. left. rewrite map_map in I. rewrite (map_ext _ (fun x => x)), map_id in I; auto. intros; lia.
  - apply Forall_app in P. destruct P as (Pe & Pi). destruct T as (Te & Ti). destruct i as [|i0 i].
    + cbn [entry_seq entry_pos ev_entry]. rewrite app_nil_r. exact (ONE e false Pe).
    + destruct Ti as [Ti|Ti]; [discriminate|]. cbn [entry_seq entry_pos ev_entry]. unfold rappend. cbn [rappend_loop flat app bind].
      destruct (PAIR AND AND e OR (i0 :: i) Te Ti (NZ _ Pe) (NZ _ Pi)) as (pp & A & B & C & D & E & F).
      exists (Seq AND 1 [flat AND e; flat OR (i0 :: i)]), pp. split; [reflexivity|]. split; [exact A|]. split; [exact C|]. split; [exact B|].
      rewrite flat_and, flat_or in D, E by auto. split; [exact D|]. split; [exact E|].
      intros z I. apply F in I. apply in_or_app. destruct I as [I|I]; [left|right]; apply AB; auto.
Qed.

(** * the literal that is replaced is gone *)
Lemma surfs_in z n : In z (lits n) -> existsb (Z.eqb (Z.abs z)) (surfs n) = true.
Proof. intros I. apply existsb_exists. exists (Z.abs z). split; [|apply Z.eqb_refl]. apply surfs_spec. exists z. auto. Qed.
Lemma change_gone old new : ~ In old (newlits new) -> forall n r, gd n -> change_surf old new n = Ok r -> ~ In old (lits r).
Proof.
  intros NW. induction n as [z|op lev b|op lev l IH] using node_ind'; intros r G H; [discriminate|destruct G|].
  cbn [change_surf] in H. apply gd_seq in G. destruct (change_list old new (change_surf old new) op l) as [k|?|] eqn:E; try discriminate. cbn [bind] in H.
  destruct k as [b|(cl, l')]; [injection H as <-; intros []|].
  assert (K : ~ In old (flat_map elits l')).
  { clear H. revert cl l' E. induction l as [|x l IHl]; intros cl l' E; cbn [change_list] in E; [injection E as <- <-; intros []|].
    apply Forall_cons_iff in G, IH. destruct G as (Gx & G), IH as (IHx & IH). specialize (IHl IH G).
    assert (STEP : forall n (e : elt) (cl0 : bool -> bool), (do k <- change_list old new (change_surf old new) op l;
              Ok (match k with inl c => inl c | inr (cl, r') => inr (cl0 cl, e :: r') end)) = Ok (inr (cl, l')) -> n = e -> ~ In old (elits e) -> ~ In old (flat_map elits l')).
    { clear E. intros n e cl0 E _ N. destruct (change_list _ _ _ _ l) as [k|?|]; try discriminate. cbn [bind] in E. destruct k as [c|(cl', r')]; [discriminate|]. injection E as _ <-.
      specialize (IHl _ _ eq_refl). cbn [flat_map]. rewrite in_app_iff. tauto. }
    destruct x as [z|o lv c|o lv xs].
    - destruct (z =? old) eqn:Z0.
      + destruct new as [b|m]; [destruct (eqb b (absorbing op)); [discriminate|]; apply (STEP (EB b) _ (fun _ => true) E eq_refl); intros []|].
        apply (STEP (EN m) _ (fun c => c) E eq_refl). exact NW.
      + apply (STEP (EN (Lit z)) _ (fun c => c) E eq_refl). cbn. intros [<-|[]]. now rewrite Z.eqb_refl in Z0.
    - destruct Gx.
    - destruct (existsb (Z.eqb (Z.abs old)) (surfs (Seq o lv xs))) eqn:X.
      + destruct (change_surf old new (Seq o lv xs)) as [e'|?|] eqn:F; try discriminate. cbn [bind] in E. specialize (IHx _ Gx eq_refl).
        destruct e' as [z|o' lv' b|o' lv' xs'].
        * apply (STEP (EN (Lit z)) _ (fun c => c) E eq_refl). exact IHx.
        * destruct (eqb b (absorbing op)); [discriminate|]. apply (STEP (EN (Cst o' lv' b)) _ (fun _ => true) E eq_refl). exact IHx.
        * apply (STEP (EN (Seq o' lv' xs')) _ (fun c => c) E eq_refl). exact IHx.
      + apply (STEP (EN (Seq o lv xs)) _ (fun c => c) E eq_refl). intros I. change (elits (EN (Seq o lv xs))) with (lits (Seq o lv xs)) in I. apply surfs_in in I. congruence. }
  assert (RE : forall q l0, raw_end op lev q = Ok r -> (forall l2, q = inr l2 -> forall z, In z (flat_map elits l2) -> In z l0) -> ~ In old l0 -> ~ In old (lits r)).
  { clear. intros q l0 H S N I. destruct q as [b|l]; cbn [raw_end] in H; [injection H as <-; destruct I|]. destruct l as [|e l]; [injection H as <-; destruct I|].
    destruct (mapM _ (e :: l)) as [l'|?|] eqn:M; try discriminate. cbn [bind] in H. injection H as <-. specialize (S _ eq_refl). apply N, S. cbn [lits] in I.
    apply in_flat_map in I. destruct I as (m & I & J). clear S. revert l' M m I J. generalize (e :: l). intros l2. induction l2 as [|y l2 IH]; intros l' M m I J; cbn [mapM] in M; [injection M as <-; destruct I|].
    destruct y as [n|b]; [|discriminate]. cbn [bind] in M. destruct (mapM _ l2) as [l3|?|]; try discriminate. cbn [bind] in M. injection M as <-.
    cbn [flat_map]. apply in_or_app. destruct I as [<-|I]; [left; exact J|right; eapply IH; eauto]. }
  destruct cl; (eapply RE; [exact H| |exact K]).
  - intros l2 Q z I. eapply raw_clean_lits; eauto.
  - intros l2 Q z I. injection Q as <-. exact I.
Qed.
Lemma change_other new old n r : gd n -> newgd new -> change_surf old new n = Ok r -> forall z, In z (lits r) -> In z (lits n) \/ In z (newlits new).
Proof. intros G N H. destruct (change_surf_ok true (fun _ => true) old new N (or_introl eq_refl) n r G H) as (_ & L & _). exact L. Qed.
Lemma change_cg new old n r : gd n -> newgd new -> change_surf old new n = Ok r -> const_or_gd r.
Proof. intros G N H. destruct (change_surf_ok true (fun _ => true) old new N (or_introl eq_refl) n r G H) as (C & _). exact C. Qed.

(** * one round *)
Definition dirn (o : orient) : bool := match o with OFwd => true | _ => false end.
(** what the planes of the entry must say of the surface, for the literals that occur *)
Definition outer_ok (u : point) (s : Z) (e : entry) : Prop := u s = false -> ev_entry u e = true.
Definition inner_ok (u : point) (s : Z) (e : entry) : Prop := ev_entry u e = true -> u s = false.
(** the literal whose replacement must contain the inside of the surface, and the other *)
Definition outlit (o : orient) (s : Z) : Z := match o with OFwd => - s | _ => s end.
Lemma pd_step_ok u o s e n r : o <> OUnd -> 0 < s -> gd n -> Forall (fun z => 0 < z) (entry_labs e) -> entry_two e -> ~ In s (entry_labs e) ->
  pd_step o s e n = Ok r ->
  const_or_gd r /\
  (forall z, In z (lits r) -> (In z (lits n) \/ In (Z.abs z) (entry_labs e)) /\ Z.abs z <> s) /\
  ((In (outlit o s) (lits n) -> outer_ok u s e) ->
   (In (- outlit o s) (lits n) -> entry_pos e = true -> inner_ok u s e) ->
   R2 (dirn o) (eval u n) (eval u r)).
Proof.
  intros O S G P T F H. destruct (entry_ok u e P T) as (pm & pp & E1 & E2 & Gm & Gp & Vm & Vp & L). unfold pd_step in H. rewrite E1 in H. cbn [bind] in H. rewrite E2 in H. cbn [bind] in H.
  assert (Lm : forall z, In z (lits pm) -> In (Z.abs z) (entry_labs e)) by (intros; apply L; auto).
  assert (Lp : forall z, In z (lits pp) -> In (Z.abs z) (entry_labs e)) by (intros; apply L; auto).
  assert (NO : forall m, (forall z, In z (lits m) -> In (Z.abs z) (entry_labs e)) -> forall z, Z.abs z = s -> ~ In z (lits m)).
  { intros m Q z A I. apply F. rewrite <- A. auto. }
  assert (CST : forall o0 nv n1 r1, change_surf o0 nv n1 = Ok r1 -> is_const n1 = false).
  { intros o0 nv n1 r1 C. destruct n1; [reflexivity|discriminate C|reflexivity]. }
  assert (VS : lit_val u s = u s) by (apply lit_pos; auto). assert (VN : lit_val u (- s) = negb (u s)) by (apply lit_neg; auto).
  assert (DO : forall l1 nv1 n1 l2 nv2, Z.abs l1 = s -> Z.abs l2 = s -> newgd nv1 -> newgd nv2 -> l1 = - l2 ->
     (forall z, In z (newlits nv1) -> In (Z.abs z) (entry_labs e)) -> (forall z, In z (newlits nv2) -> In (Z.abs z) (entry_labs e)) ->
     change_surf l1 nv1 n = Ok n1 -> change_surf l2 nv2 n1 = Ok r ->
     gd n1 /\ const_or_gd r /\ (forall z, In z (lits r) -> (In z (lits n) \/ In (Z.abs z) (entry_labs e)) /\ Z.abs z <> s) /\ (forall z, Z.abs z = s -> In z (lits n1) -> In z (lits n))).
  { intros l1 nv1 n1 l2 nv2 A1 A2 N1 N2 OP L1 L2 C1 C2.
    pose proof (change_cg _ _ _ _ G N1 C1) as [K1|G1]; [rewrite (CST _ _ _ _ C2) in K1; discriminate|].
    pose proof (change_cg _ _ _ _ G1 N2 C2) as K2. pose proof (change_other _ _ _ _ G N1 C1) as D1. pose proof (change_other _ _ _ _ G1 N2 C2) as D2.
    assert (X1 : ~ In l1 (newlits nv1)) by (intros I; apply F; rewrite <- A1; auto).
    assert (X2 : ~ In l2 (newlits nv2)) by (intros I; apply F; rewrite <- A2; auto).
    pose proof (change_gone _ _ X1 _ _ G C1) as Y1. pose proof (change_gone _ _ X2 _ _ G1 C2) as Y2.
    split; [exact G1|]. split; [exact K2|]. split.
    - intros z I. split.
      + destruct (D2 z I) as [J|J]; [|right; auto]. destruct (D1 z J) as [J'|J']; auto.
      + intros A. assert (Z12 : z = l1 \/ z = l2) by lia. destruct Z12 as [->| ->]; [|auto]. destruct (D2 l1 I) as [J|J]; [auto|]. apply F. rewrite <- A1. auto.
    - intros z A I. destruct (D1 z I) as [J|J]; auto. exfalso. apply F. rewrite <- A. auto. }
  destruct o; [| |now elim O].
  - destruct (change_surf (- s) (NS pm) n) as [n1|?|] eqn:C1; try discriminate. cbn [bind] in H.
    set (nv := if entry_pos e then NS pp else NB true) in H.
    assert (NG : newgd nv) by (unfold nv; destruct (entry_pos e); [exact Gp|exact Logic.I]).
    assert (NL : forall z, In z (newlits nv) -> In (Z.abs z) (entry_labs e)) by (unfold nv; destruct (entry_pos e); [exact Lp|intros z []]).
    destruct (DO (- s) (NS pm) n1 s nv ltac:(lia) ltac:(lia) Gm NG eq_refl Lm NL C1 H) as (G1 & K & LL & BK).
    split; [exact K|]. split; [exact LL|]. cbn [outlit dirn]. rewrite Z.opp_involutive. intros HO HI.
    destruct (change_surf_ok true u (- s) (NS pm) Gm (or_introl eq_refl) n n1 G C1) as (_ & _ & R1).
    destruct (change_surf_ok true u s nv NG (or_introl eq_refl) n1 r G1 H) as (_ & _ & R2').
    eapply R2_trans; [apply R1|apply R2'].
    + intros I. cbn [newev]. rewrite VN, Vm. unfold R2. intros Q. apply HO; auto. destruct (u s); [discriminate|reflexivity].
    + intros I. apply BK in I; [|lia]. rewrite VS. unfold nv, R2. destruct (entry_pos e) eqn:EP; [|reflexivity]. cbn [newev]. rewrite Vp. intros Q.
      destruct (ev_entry u e) eqn:V; [|reflexivity]. rewrite (HI I eq_refl V) in Q. discriminate.
  - destruct (change_surf s (NS pp) n) as [n1|?|] eqn:C1; try discriminate. cbn [bind] in H.
    set (nv := if entry_pos e then NS pm else NB false) in H.
    assert (NG : newgd nv) by (unfold nv; destruct (entry_pos e); [exact Gm|exact Logic.I]).
    assert (NL : forall z, In z (newlits nv) -> In (Z.abs z) (entry_labs e)) by (unfold nv; destruct (entry_pos e); [exact Lm|intros z []]).
    destruct (DO s (NS pp) n1 (- s) nv ltac:(lia) ltac:(lia) Gp NG ltac:(lia) Lp NL C1 H) as (G1 & K & LL & BK).
    split; [exact K|]. split; [exact LL|]. cbn [outlit dirn]. intros HO HI.
    destruct (change_surf_ok false u s (NS pp) Gp ltac:(right; discriminate) n n1 G C1) as (_ & _ & R1).
    destruct (change_surf_ok false u (- s) nv NG ltac:(right; unfold nv; destruct (entry_pos e); discriminate) n1 r G1 H) as (_ & _ & R2').
    eapply R2_trans; [apply R1|apply R2'].
    + intros I. cbn [newev]. rewrite VS, Vp. unfold R2. intros Q. destruct (u s) eqn:US; auto. rewrite (HO I US) in Q. discriminate.
    + intros I. apply BK in I; [|lia]. rewrite VN. unfold nv, R2. destruct (entry_pos e) eqn:EP; [|discriminate]. cbn [newev]. rewrite Vm. intros Q.
      rewrite (HI I eq_refl Q). reflexivity.
Qed.
