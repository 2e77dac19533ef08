From Verif Require Import Prelude BoolSpec BoolSeq BoolProofs BoolProofs2 BoolTotal BoolStrict BoolEdit BoolEditProofs CtSpec Ctable CtableProofs NoOverlap NoOverlapSpec NoOverlapProofs PropsBool PropsVoid.

(** ** the construction of the new definitions never fails on cells built by cellDef *)
Lemma mapM_out {A C} (f : A -> res C) l r y : mapM f l = Ok r -> In y r -> exists x, In x l /\ f x = Ok y.
Proof.
  revert r. induction l as [|x l IH]; intros r H I; cbn [mapM] in H; [injection H as <-; destruct I|]. inv_bind. inv_bind. injection H as <-.
  destruct I as [<- | I]; [exists x; split; auto; now left|]. destruct (IH _ Ha0 I) as (z & J & K). exists z. split; auto. now right.
Qed.
Lemma no_const_fold l : fold_right (fun c p => no_const c /\ p) True l <-> Forall no_const l.
Proof. induction l as [|x l IH]; cbn; split; intros H; auto; [constructor; tauto|inversion H; subst; tauto]. Qed.

Lemma compl_recv k : forall n c n', compl_f k n = Ok (c, n') -> wf n -> no_const n ->
  no_const n' /\ match n with Seq AND lev l => exists l', n' = Seq AND lev l' /\ (lev = 0 -> n' = n) | Seq OR lev l => exists l', n' = Seq OR lev l' | _ => True end.
Proof.
  induction k as [|k IH]; intros n c n' H W NC; cbn [compl_f] in H; [discriminate|].
  destruct n as [z|op lev b|op lev l]; [discriminate|discriminate|].
  destruct (Z.eqb_spec lev 0) as [-> | NL].
  - inv_bind. injection H as <- <-. split; auto. destruct op; eauto.
  - pose proof NC as NC'. apply no_const_fold in NC'. assert (CF : Forall cst0_free l \/ lev = 0) by (left; eapply Forall_impl; [|exact NC']; intros []; cbn; tauto).
    destruct (group_single_total op lev l CF) as (l' & EG & _ & G). specialize (G NL). destruct G as (G1 & G2). rewrite EG in H. cbn [bind] in H. inv_bind. rename a into ps. injection H as <- <-.
    pose proof (group_single_wf _ _ EG W) as WG. apply wf_seq in WG. destruct WG as (_ & _ & WG). rewrite Forall_forall in WG, NC', G1.
    split; [|destruct op; eauto; exists (map snd ps); split; auto; intros; contradiction].
    apply no_const_fold. apply Forall_forall. intros y I. apply in_map_iff in I. destruct I as ((cy, y') & <- & I). destruct (mapM_out _ _ _ _ Ha I) as (x & J & E).
    apply (IH _ _ _ E); auto. destruct (G2 x J) as [K|(g & -> & K)]; auto. apply no_const_fold. apply Forall_forall. intros z Iz. destruct (K z Iz) as [L|(o & lv & L)].
    + destruct z; [exact Logic.I|destruct L|destruct L].
    + specialize (NC' _ L). apply no_const_fold in NC'. inversion NC'; auto.
Qed.
Lemma tidy_and n : tidy n -> and_seq n.
Proof. intros (_ & _ & H). destruct n as [|? ? ?|[|] ? ?]; try exact Logic.I; destruct H. Qed.
Lemma compl_tidy n c n' : get_complementary n = Ok (c, n') -> tidy n -> tidy n'.
Proof.
  intros H (W & NC & T). destruct (compl_f_sound (fun _ => true) _ _ _ _ H W) as (_ & _ & _ & W'). destruct (compl_recv _ _ _ _ H W NC) as (NC' & SH).
  destruct n as [|? ? ?|[|] lev l]; try tauto. split; auto. split; auto. destruct SH as (l2 & -> & _). destruct (Z.eq_dec lev 0) as [-> | NL]; [now left|].
  right. destruct T as [T|T]; [lia|]. unfold get_complementary in H. cbn [compl_f] in H. destruct (Z.eqb_spec lev 0); [lia|].
  pose proof NC as NCF. apply no_const_fold in NCF. assert (CF : Forall cst0_free l \/ lev = 0) by (left; eapply Forall_impl; [|exact NCF]; intros []; cbn; tauto).
  destruct (group_single_total AND lev l CF) as (l' & EG & _ & G). specialize (G NL). destruct G as (G1 & G2). rewrite EG in H. cbn [bind] in H. inv_bind. rename a into ps. injection H as <- <-.
  pose proof (group_single_wf _ _ EG W) as WG. apply wf_seq in WG. destruct WG as (_ & _ & WG). rewrite Forall_forall in WG, NCF, T.
  apply Forall_forall. intros y I. apply in_map_iff in I. destruct I as ((cy, y') & <- & I). destruct (mapM_out _ _ _ _ Ha I) as (x & J & E). cbn [snd].
  assert (TX : tidy_child x /\ no_const x).
  { destruct (G2 x J) as [K|(g & -> & K)]; [auto|]. split; [reflexivity|]. apply no_const_fold. apply Forall_forall. intros z Iz. destruct (K z Iz) as [L|(o & lv & L)]; [destruct z; [exact Logic.I|destruct L|destruct L]|]. specialize (NCF _ L). apply no_const_fold in NCF. inversion NCF; auto. }
  destruct TX as (TX & NX). destruct (compl_recv _ _ _ _ E (WG _ J) NX) as (_ & S2). destruct x as [|? ? ?|[|] lx xs]; try (destruct TX; fail).
  - destruct S2 as (l3 & -> & _). exact TX.
  - destruct S2 as (l3 & ->). exact Logic.I.
Qed.
Lemma gsv_total b n : tidy n -> exists r, get_surf_value b n = Ok r.
Proof.
  intros (W & NC & T). destruct n as [|? ? ?|[|] lev l]; try tauto. cbn [get_surf_value].
  assert (LITS : forall xs, Forall is_lit xs -> exists r, ints b xs = Ok r).
  { intros xs F. unfold ints. destruct b; eauto. induction F as [|x xs Hx _ (r & IH)]; cbn [mapM]; eauto. destruct x; try destruct Hx. cbn [bind]. rewrite IH. cbn. eauto. }
  apply wf_seq in W. destruct W as (_ & W1 & W2). destruct (Z.eqb_spec lev 0) as [-> | NL]; [apply LITS; auto|]. destruct T as [T|T]; [lia|].
  clear W1 NC. induction l as [|x l IH]; cbn [first_and]; [eauto|]. inversion T as [|? ? T1 T2]; subst. inversion W2 as [|? ? X1 X2]; subst.
  destruct x as [|? ? ?|[|] lx xs]; try (destruct T1; fail); auto. apply LITS. cbn in T1. subst lx. apply wf_seq in X1. destruct X1 as (_ & X1 & _). auto.
Qed.
Lemma conj_append_total n c : conj_node n -> exists n', append n [AN c] = Ok n'.
Proof. intros C. destruct n as [z|[|] lv [|]|[|] lv l]; try (destruct C; fail); cbn; eauto. Qed.

Section Total.
  Variable B : Type.
  Variable meets : B -> B -> bool.
  Notation meta := (meta B).
  Lemma put_comp_total new sc s : conj_node new -> wf new -> tidy s -> exists a new' s', put_comp new sc s = Ok (a, new', s') /\ conj_node new' /\ wf new' /\ tidy s'.
  Proof.
    intros CN WN T. unfold put_comp. destruct (gsv_total false s T) as (b & ->). cbn [bind]. destruct (common b sc); [eauto 8|]. pose proof T as (W & NC & _).
    destruct (get_complementary_total s) as (c & s' & E); auto; [pose proof (tidy_and _ T); destruct s; [tauto|exact Logic.I|exact Logic.I]|]. rewrite E. cbn [bind].
    destruct (compl_f_sound (fun _ => true) _ _ _ _ E W) as (_ & _ & WC & _).
    destruct (conj_append_total new c CN) as (n' & EA). rewrite EA. cbn [bind]. destruct (conj_append (fun _ => true) _ _ _ CN WN WC EA) as (? & ? & _). eauto 10 using compl_tidy.
  Qed.
  Lemma comp_parts_total cbox sc : forall ps l new, length ps = length l -> Forall tidy l -> conj_node new -> wf new ->
    exists a new' l', comp_parts B meets cbox sc ps l new = Ok (a, new', l') /\ conj_node new' /\ wf new' /\ Forall tidy l' /\ length l' = length l.
  Proof.
    induction ps as [|b ps IH]; intros l new HL T CN WN; destruct l as [|s l]; try discriminate; cbn [comp_parts]; [eauto 10|].
    inversion T as [|? ? T1 T2]; subst. assert (HL' : length ps = length l) by (cbn in HL; lia). destruct (meets cbox b).
    - destruct (put_comp_total new sc s CN WN T1) as (a & n1 & s1 & -> & C1 & W1 & TS). cbn [bind]. destruct (IH l n1 HL' T2 C1 W1) as (a2 & n2 & l2 & -> & C2 & W2 & T3 & L3). cbn [bind].
      do 3 eexists. split; [reflexivity|]. split; [auto|]. split; [auto|]. split; [constructor; auto|cbn; lia].
    - destruct (IH l new HL' T2 CN WN) as (a2 & n2 & l2 & -> & C2 & W2 & T3 & L3). cbn [bind]. do 3 eexists. split; [reflexivity|]. split; [auto|]. split; [auto|]. split; [constructor; auto|cbn; lia].
  Qed.
  Lemma append_comp_total e cbox new mm : tidy e -> conj_node new -> wf new -> neat mm ->
    exists a new' mm', append_comp B meets new e cbox mm = Ok (a, new', mm') /\ conj_node new' /\ wf new' /\ neat mm'.
  Proof.
    intros TE CN WN (d & ED & HD). unfold append_comp. destruct (gsv_total true e TE) as (sc & ->). cbn [bind]. rewrite ED. destruct d as [z|o lv b|[|] lv l]; try tauto; cbn [op_of bind].
    - destruct (meets cbox (mbox mm)); [|do 3 eexists; split; [reflexivity|]; split; auto; split; auto; exists (Seq AND lv l); auto].
      destruct (put_comp_total new sc _ CN WN HD) as (a & n1 & s1 & -> & C1 & W1 & TS). cbn [bind]. do 3 eexists. split; [reflexivity|]. split; auto. split; auto.
      exists s1. split; [reflexivity|]. pose proof (tidy_and _ TS) as AS. destruct s1 as [|? ? ?|[|] ? ?]; try (destruct AS; fail). auto.
    - destruct HD as (HL & T). destruct (comp_parts_total cbox sc _ _ new HL T CN WN) as (a & n1 & l1 & -> & C1 & W1 & T1 & L1). cbn [bind]. do 3 eexists. split; [reflexivity|]. split; auto. split; auto.
      exists (Seq OR lv l1). split; [reflexivity|]. cbn. split; auto. congruence.
  Qed.
  Lemma all_comps_total e cbox : tidy e -> forall prev new, conj_node new -> wf new -> Forall neat prev ->
    exists a new' prev', all_comps B meets new e cbox prev = Ok (a, new', prev') /\ conj_node new' /\ wf new' /\ Forall neat prev'.
  Proof.
    intros TE. induction prev as [|mm prev IH]; intros new CN WN F; cbn [all_comps]; [eauto 10|]. inversion F as [|? ? F1 F2]; subst.
    destruct (append_comp_total e cbox new mm TE CN WN F1) as (a & n1 & m1 & -> & C1 & W1 & N1). cbn [bind]. destruct (IH n1 C1 W1 F2) as (a2 & n2 & p2 & -> & C2 & W2 & N2). cbn [bind]. eauto 12.
  Qed.
  Lemma part_defs_total : forall ps l prev lev xs simp, length ps = length l -> Forall tidy l -> Forall neat prev ->
    exists t s prev', part_defs B meets ps l prev (Seq OR lev xs) simp = Ok (t, s, prev') /\ Forall neat prev'.
  Proof.
    induction ps as [|b ps IH]; intros l prev lev xs simp HL T F; destruct l as [|e l]; try discriminate; cbn [part_defs]; [eauto 10|].
    inversion T as [|? ? T1 T2]; subst. assert (HL' : length ps = length l) by (cbn in HL; lia).
    destruct (conj_append_total (Seq AND 0 []) (copy e) Logic.I) as (sub & ES). rewrite ES. cbn [bind]. pose proof T1 as (WE & _ & _).
    destruct (start_conj (fun _ => true) _ _ (tidy_and _ T1) WE ES) as (C1 & W1 & _).
    destruct (all_comps_total e b T1 prev sub C1 W1 F) as (a & n1 & p1 & -> & C2 & W2 & F2). cbn [bind].
    assert (AP : exists lev' xs', append (Seq OR lev xs) [AN n1] = Ok (Seq OR lev' xs')) by (destruct n1 as [z|[|] lw [|]|[|] lw ys]; try (destruct C2; fail); cbn; eauto).
    destruct AP as (lev' & xs' & ->). cbn [bind]. apply IH; auto.
  Qed.
  Lemma overlap_cell_total prev m : Forall neat prev -> neat m -> exists t s prev', overlap_cell B meets prev m = Ok (t, s, prev') /\ Forall neat prev'.
  Proof.
    intros F (d & ED & HD). unfold overlap_cell. rewrite ED. destruct d as [z|o lv b|[|] lv l]; try tauto; cbn [op_of bind].
    - destruct (conj_append_total (Seq AND 0 []) (copy (Seq AND lv l)) Logic.I) as (sub & ES). rewrite ES. cbn [bind]. pose proof HD as (WE & _ & _).
      destruct (start_conj (fun _ => true) _ _ (tidy_and _ HD) WE ES) as (C1 & W1 & _).
      destruct (all_comps_total _ (mbox m) HD prev sub C1 W1 F) as (a & n1 & p1 & -> & C2 & W2 & F2). cbn [bind]. eauto.
    - destruct HD as (HL & T). apply part_defs_total; auto.
  Qed.
  Lemma overlap_loop_total : forall rest prev, Forall neat prev -> Forall neat rest -> exists ps all, overlap_loop B meets prev rest = Ok (ps, all).
  Proof.
    induction rest as [|m rest IH]; intros prev F G; cbn [overlap_loop]; [eauto|]. inversion G as [|? ? G1 G2]; subst.
    destruct (overlap_cell_total prev m F G1) as (t & s & p1 & -> & F1). cbn [bind]. destruct (IH (p1 ++ [m])) as (ps & all & ->); [apply Forall_app; auto|auto|]. cbn [bind]. eauto.
  Qed.
End Total.

(** ** the reduction *)
Section Red.
  Variable B : Type.
  Variable k : nat.
  Variable ord : node -> list Z.
  Hypothesis ord_pos : forall m x, wf m -> In x (ord m) -> 0 < x.
  Variable mk : B -> bool -> list Z -> res ctab.
  Variable v : point.

  Lemma simp_parts_sound ct : allowed v ct -> forall simp l l', simp_parts true k ord ct simp l = Ok l' -> Forall wf l ->
    Forall wf l' /\ evl v OR l' = evl v OR l.
  Proof.
    intros A. induction simp as [|s simp IH]; intros l l' H W; cbn [simp_parts] in H; [injection H as <-; auto|].
    destruct l as [|c l]; [destruct s; [discriminate|]; apply IH in H; auto|]. inversion W as [|? ? W1 W2]; subst.
    assert (HH : exists c' l2, (if s then do x <- simplify_f k true ord ct 0 c; Ok (clean x) else Ok c) = Ok c' /\ simp_parts true k ord ct simp l = Ok l2 /\ l' = c' :: l2).
    { cbn [simp_parts] in H. destruct s; cbn [bind] in H.
      - destruct (do x <- simplify_f k true ord ct 0 c; Ok (clean x)) as [c'|e|] eqn:E1; try discriminate. cbn [bind] in H. inv_bind. injection H as <-. exists c', a. auto.
      - inv_bind. injection H as <-. do 2 eexists. split; [reflexivity|]. split; [eassumption|reflexivity]. }
    destruct HH as (c' & l2 & E1 & E2 & ->). destruct (IH _ _ E2 W2) as (P & Q).
    assert (HC : wf c' /\ eval v c' = eval v c).
    { destruct s; [|injection E1 as <-; auto]. inv_bind. injection E1 as <-. destruct (simplify_f_sound v ord ct (allowed_compatible _ _ A) k 0 c a Ha W1) as (X & Y). split; [apply clean_wf; auto|rewrite clean_eval; auto]. }
    destruct HC as (X & Y). split; [constructor; auto|]. rewrite !evl_cons, Q, Y. reflexivity.
  Qed.
  Lemma reduce_cell_sound b t simp r : wf t -> shape t ->
    (forall d sl tb, mk b d sl = Ok tb -> regular tb /\ pos_keys tb /\ in_box tb v) ->
    reduce_cell B true k ord mk b t simp = Ok r -> eval v r = eval v t.
  Proof.
    intros W S TB H. unfold reduce_cell in H. inv_bind. rename a into t1, Ha into HT1, a0 into nd, Ha0 into HN, a1 into t2, Ha1 into HT2, a2 into op, Ha2 into HO, a3 into nd2, Ha3 into HN2, a4 into j, Ha4 into HJ. injection H as <-.
    destruct (TB _ _ _ HT1) as (R1 & K1 & B1). destruct (TB _ _ _ HT2) as (R2 & K2 & B2).
    pose proof (C11_box_allowed t2 v R2 K2 B2) as AL.
    assert (HX : eval v nd = eval v t /\ wf nd /\ is_seq nd).
    { destruct t as [z|o lv c|op0 lev l]; [destruct S as [(? & ? & X)|[]]; discriminate| |apply (remove_extra_sound ord true t1); auto].
      exfalso. destruct S as [(? & ? & X)|S]; [discriminate|]. destruct o; [|destruct S]. destruct c; [destruct S|]. unfold remove_extra in HN. clear HN2. destruct (get_out_surfaces t1) as [out|e|]; cbn [bind] in HN; try discriminate. destruct (lv =? 0); discriminate. }
    destruct HX as (EN & WN & SN).
    assert (EE : eval v nd2 = eval v nd /\ nz nd2).
    { destruct op.
      - inv_bind. injection HN2 as <-. destruct (simplify_f_sound v ord _ (allowed_compatible _ _ AL) k 0 nd a Ha WN) as (P & Q). split; [now rewrite clean_eval|now apply wf_nz, clean_wf].
      - destruct nd as [z|o lv c|o lv l]; try discriminate. injection HO as ->. inv_bind. injection HN2 as <-. apply wf_seq in WN. destruct WN as (_ & _ & WN). destruct (simp_parts_sound _ AL _ _ _ Ha WN) as (P & Q). split; [now rewrite !eval_seq|].
        apply nz_seq. eapply Forall_impl; [|exact P]. intros; now apply wf_nz. }
    destruct EE as (E2 & N2). destruct (join_sound v false nd2 j HJ N2) as (EJ & _). now rewrite level_update_eval, EJ, E2.
  Qed.
  Lemma simp_parts_strict ct : forall simp l l', simp_parts true k ord ct simp l = Ok l' -> simp_parts false k ord ct simp l = Ok l'.
  Proof.
    induction simp as [|s simp IH]; intros l l' H; cbn [simp_parts] in *; auto. destruct l as [|c l]; [destruct s; auto|].
    destruct s.
    - destruct (simplify_f k true ord ct 0 c) as [x|e|] eqn:EX; try discriminate. cbn [bind] in H. inv_bind. injection H as <-. destruct (C05_detector k ord ct 0 c) as [E|E]; [|congruence]. rewrite <- E, EX. cbn [bind]. rewrite (IH _ _ Ha). reflexivity.
    - cbn [bind] in *. inv_bind. injection H as <-. rewrite (IH _ _ Ha). reflexivity.
  Qed.
  Lemma reduce_cell_strict b t simp r : reduce_cell B true k ord mk b t simp = Ok r -> reduce_cell B false k ord mk b t simp = Ok r.
  Proof.
    unfold reduce_cell. intros H. inv_bind. rename a into t1, Ha into HT1, a0 into nd, Ha0 into HN, a1 into t2, Ha1 into HT2, a2 into op, Ha2 into HO, a3 into nd2, Ha3 into HN2, a4 into j, Ha4 into HJ.
    rewrite HT1. cbn [bind]. rewrite (remove_extra_strict _ _ _ _ _ HN). cbn [bind]. rewrite HT2. cbn [bind]. rewrite HO. cbn [bind].
    replace (match op with
             | AND => do x <- simplify_f k false ord (Some (get_constraint_set t2)) 0 nd; Ok (clean x)
             | OR => match nd with
                     | Seq _ lev l => do l' <- simp_parts false k ord (Some (get_constraint_set t2)) simp l; Ok (Seq OR lev l')
                     | _ => Err TypeError
                     end
             end) with (Ok nd2); [cbn [bind]; rewrite HJ; exact H|]. symmetry.
    destruct op.
    - inv_bind. destruct (C05_detector k ord (Some (get_constraint_set t2)) 0 nd) as [E|E]; [|congruence]. rewrite <- E, Ha. exact HN2.
    - destruct nd as [| |o lv l]; try discriminate. inv_bind. rewrite (simp_parts_strict _ _ _ _ Ha). exact HN2.
  Qed.
End Red.

(** ** nothing added: the definition is that of the cell *)
Section NoAdd.
  Variable B : Type.
  Variable meets : B -> B -> bool.
  Variable v : point.
  Lemma put_comp_none new sc s new' s' : put_comp new sc s = Ok (false, new', s') -> new' = new.
  Proof. unfold put_comp. intros H. destruct (get_surf_value false s) as [b|e|]; try discriminate. cbn [bind] in H. destruct (common b sc); [injection H as <- <-; auto|]. inv_bind. destruct a as (c, s2). inv_bind. discriminate. Qed.
  Lemma comp_parts_none cbox sc : forall ps l new a new' l', comp_parts B meets cbox sc ps l new = Ok (a, new', l') -> a = false -> new' = new.
  Proof.
    induction ps as [|b ps IH]; intros l new a new' l' H N; destruct l as [|s l]; cbn [comp_parts] in H; try (injection H as <- <- <-; reflexivity).
    - destruct (meets cbox b); [discriminate|eauto].
    - destruct (meets cbox b).
      + destruct (put_comp new sc s) as [((a1, n1), s1)|e|] eqn:E1; try discriminate. cbn [bind] in H. destruct (comp_parts B meets cbox sc ps l n1) as [((a2, n2), l2)|e|] eqn:E2; try discriminate. cbn [bind] in H. injection H as <- <- <-.
        apply orb_false_iff in N as (-> & ->). apply put_comp_none in E1. apply IH in E2; congruence.
      + destruct (comp_parts B meets cbox sc ps l new) as [((a2, n2), l2)|e|] eqn:E2; try discriminate. cbn [bind] in H. injection H as <- <- <-. eauto.
  Qed.
  Lemma all_comps_none e cbox : forall prev new a new' prev', all_comps B meets new e cbox prev = Ok (a, new', prev') -> a = false -> new' = new.
  Proof.
    induction prev as [|mm prev IH]; intros new a new' prev' H N; cbn [all_comps] in H; [injection H as <- <- <-; reflexivity|].
    destruct (append_comp B meets new e cbox mm) as [((a1, n1), m1)|x|] eqn:E1; try discriminate. cbn [bind] in H. destruct (all_comps B meets n1 e cbox prev) as [((a2, n2), p2)|x|] eqn:E2; try discriminate. cbn [bind] in H. injection H as <- <- <-.
    apply orb_false_iff in N as (-> & ->). apply IH in E2; auto. subst n2. unfold append_comp in E1. destruct (get_surf_value true e) as [sc|x|]; try discriminate. cbn [bind] in E1.
    destruct (mdef mm) as [d|]; [|discriminate]. destruct (op_of d) as [op|x|]; try discriminate. cbn [bind] in E1. destruct op.
    - destruct (meets cbox (mbox mm)); [|injection E1 as <- <-; auto]. destruct (put_comp new sc d) as [((a3, n3), s3)|x|] eqn:E3; try discriminate. cbn in E1. injection E1 as -> -> _. eapply put_comp_none; eauto.
    - destruct d as [z|o lv b|o lv l]; try (destruct (existsb _ _); [discriminate|injection E1 as <- <-; auto]). destruct (comp_parts B meets cbox sc (parts mm) l new) as [((a3, n3), s3)|x|] eqn:E3; try discriminate. cbn in E1. injection E1 as -> -> _. eapply comp_parts_none; eauto.
  Qed.
  Lemma part_defs_none : forall ps l prev new simp t s prev', length ps = length l -> Forall and_seq l -> Forall wf l ->
    (exists lev xs, new = Seq OR lev xs) -> part_defs B meets ps l prev new simp = Ok (t, s, prev') -> existsb (fun b => b) s = false -> eval v t = eval v new || evl v OR l.
  Proof.
    induction ps as [|b ps IH]; intros l prev new simp t s prev' HL A W (lev & xs & ->) H N; destruct l as [|e l]; try discriminate; cbn [part_defs] in H.
    { injection H as <- <- <-. now rewrite evl_nil, orb_false_r. }
    assert (HL' : length ps = length l) by (cbn in HL; lia). inversion A as [|? ? A1 A2]; subst. inversion W as [|? ? W1 W2]; subst.
    destruct (append (Seq AND 0 []) [AN (copy e)]) as [sub|x|] eqn:E1; try discriminate. cbn [bind] in H.
    destruct (all_comps B meets sub e b prev) as [((s1, sub1), prev1)|x|] eqn:E2; try discriminate. cbn [bind] in H.
    destruct (append (Seq OR lev xs) [AN sub1]) as [new1|x|] eqn:E3; try discriminate. cbn [bind] in H.
    assert (PRE : forall ps l prev new simp t s prev', part_defs B meets ps l prev new simp = Ok (t, s, prev') -> exists s', s = simp ++ s').
    { clear. induction ps as [|b ps IH]; intros l prev new simp t s prev' H; destruct l as [|e l]; cbn [part_defs] in H; try (injection H as <- <- <-; exists []; now rewrite app_nil_r); [discriminate|].
      destruct (append (Seq AND 0 []) [AN (copy e)]) as [sub|x|]; try discriminate. cbn [bind] in H.
      destruct (all_comps B meets sub e b prev) as [((s1, sub1), prev1)|x|]; try discriminate. cbn [bind] in H.
      destruct (append new [AN sub1]) as [new1|x|]; try discriminate. cbn [bind] in H. destruct (IH _ _ _ _ _ _ _ H) as (s' & ->). rewrite <- app_assoc. eauto. }
    destruct (PRE _ _ _ _ _ _ _ _ H) as (s' & ES). assert (s1 = false) by (rewrite ES, !existsb_app in N; destruct s1; auto; cbn in N; rewrite orb_true_r in N; discriminate). subst s1.
    apply all_comps_none in E2; auto. subst sub1. destruct (start_conj v _ _ A1 W1 E1) as (C & WS & EV).
    destruct (append_eval v _ _ _ E3) as (P & _). specialize (P _ _ _ eq_refl). cbn [args_val arg_val fold_right] in P.
    assert (SN : exists lev xs, new1 = Seq OR lev xs) by (destruct sub as [z|[|] lw [|]|[|] lw ys]; try (destruct C; fail); cbn in E3; injection E3 as <-; eauto).
    rewrite (IH _ _ _ _ _ _ _ HL' A2 W2 SN H N), P, EV, evl_cons. cbn. rewrite orb_false_r. now rewrite orb_assoc.
  Qed.
  Lemma overlap_cell_none prev m t s prev' : built m -> overlap_cell B meets prev m = Ok (t, s, prev') -> existsb (fun b => b) s = false -> eval v t = inside v m.
  Proof.
    intros (d & ED & WD & HD) H N. unfold overlap_cell in H. unfold inside. rewrite ED in *. destruct d as [z|o lv b|[|] lv l]; try tauto; cbn [op_of bind] in H.
    - destruct (append (Seq AND 0 []) [AN (copy (Seq AND lv l))]) as [sub|x|] eqn:E1; try discriminate. cbn [bind] in H.
      destruct (all_comps B meets sub (Seq AND lv l) (mbox m) prev) as [((s1, sub1), prev1)|x|] eqn:E2; try discriminate. cbn [bind] in H. injection H as <- <- <-. cbn in N. rewrite orb_false_r in N.
      apply all_comps_none in E2; auto. subst sub1. now destruct (start_conj v _ _ (Logic.I : and_seq (Seq AND lv l)) WD E1) as (_ & _ & EV).
    - destruct HD as (HL & HA). apply wf_seq in WD as (_ & _ & W3). rewrite (part_defs_none _ _ _ _ _ _ _ _ HL HA W3 (ex_intro _ _ (ex_intro _ _ eq_refl)) H N). rewrite !eval_seq. reflexivity.
  Qed.
  Lemma overlap_loop_none : forall rest prev ps all, Forall built rest -> overlap_loop B meets prev rest = Ok (ps, all) ->
    Forall2 (fun p m => existsb (fun b => b) (snd p) = false -> eval v (fst p) = inside v m) ps rest.
  Proof.
    induction rest as [|m rest IH]; intros prev ps all G H; cbn [overlap_loop] in H; [injection H as <- <-; constructor|].
    inversion G as [|? ? G1 G2]; subst. destruct (overlap_cell B meets prev m) as [((t, s), prev1)|x|] eqn:E1; try discriminate. cbn [bind] in H.
    destruct (overlap_loop B meets (prev1 ++ [m]) rest) as [(ps1, all1)|x|] eqn:E2; try discriminate. cbn [bind] in H. injection H as <- <-.
    constructor; [|eauto]. cbn [fst snd]. intros N. eapply overlap_cell_none; eauto.
  Qed.
End NoAdd.

(** ** the whole function *)
Section Whole.
  Variable B : Type.
  Variable meets : B -> B -> bool.
  Variable k : nat.
  Variable ord : node -> list Z.
  Hypothesis ord_pos : forall m x, wf m -> In x (ord m) -> 0 < x.
  Variable mk : B -> bool -> list Z -> res ctab.
  Lemma final_strict : forall ms ps ds, final_defs B true k ord mk ms ps = Ok ds -> final_defs B false k ord mk ms ps = Ok ds.
  Proof.
    induction ms as [|m ms IH]; intros [|(t, s) ps] ds H; cbn [final_defs] in *; auto.
    destruct (existsb (fun b => b) s).
    - destruct (reduce_cell B true k ord mk (mbox m) t s) as [x|e|] eqn:E; try discriminate. apply reduce_cell_strict in E. rewrite E. cbn [bind] in *. inv_bind. rewrite (IH _ _ Ha). exact H.
    - cbn [bind] in *. inv_bind. rewrite (IH _ _ Ha). exact H.
  Qed.
  Lemma final_length : forall ms ps ds, final_defs B true k ord mk ms ps = Ok ds -> length ms = length ps -> length ds = length ms.
  Proof.
    induction ms as [|m ms IH]; intros [|(t, s) ps] ds H HL; try discriminate; cbn [final_defs] in H; [injection H as <-; auto|].
    destruct (if existsb (fun b => b) s then _ else _) as [d|e|]; try discriminate. cbn [bind] in H. inv_bind. injection H as <-. cbn in *. f_equal. eapply IH; eauto.
  Qed.
  Variable v : point.
  Lemma final_spec : forall ms ps ds, final_defs B true k ord mk ms ps = Ok ds ->
    Forall (fun p => wf (fst p) /\ shape (fst p)) ps ->
    forall i m p d, nth_error ms i = Some m -> nth_error ps i = Some p -> nth_error ds i = Some d ->
    (existsb (fun b => b) (snd p) = false -> eval v (fst p) = inside v m) ->
    (forall dg sl tb, mk (mbox m) dg sl = Ok tb -> regular tb /\ pos_keys tb /\ in_box tb v) ->
    match d with Some n => eval v n | None => false end = eval v (fst p).
  Proof.
    induction ms as [|m0 ms IH]; intros [|(t, s) ps] ds H F i m p d E1 E2 E3 N TB; try (destruct i; discriminate). cbn [final_defs] in H. inversion F as [|? ? (F1 & F2) F3]; subst. cbn [fst snd] in *.
    destruct (if existsb (fun b => b) s then _ else _) as [d0|e|] eqn:ED; try discriminate. cbn [bind] in H. inv_bind. injection H as <-.
    destruct i as [|i]; cbn [nth_error] in *; [|eapply IH; eauto]. injection E1 as ->. injection E2 as <-. injection E3 as <-. cbn [fst snd] in *.
    destruct (existsb (fun b => b) s) eqn:ES.
    - inv_bind. injection ED as <-. eapply reduce_cell_sound; eauto.
    - injection ED as <-. rewrite (N eq_refl). reflexivity.
  Qed.
End Whole.
