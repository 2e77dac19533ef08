(** simplify without constraint table never raises; strict and real runs. *)
From Verif Require Import Prelude BoolSpec BoolSeq BoolProofs BoolProofs2 BoolTotal BoolTotal2.
From Coq Require Import Permutation.

(* ------------------------------------------------------------------ *)
(** * Well-formedness for the real (non strict) run *)

Lemma update_base_wf strict nseq idx base n' :
  update_base strict nseq idx base = Ok n' -> wf base -> level_of base <> 0 -> wf nseq -> wf n'.
Proof.
  destruct base as [z|op lev b|op lev l]; try discriminate. unfold update_base. intros H W Hl Wn.
  apply wf_seq in W. destruct W as (W0 & W1 & W2). simpl in Hl.
  assert (Wd : wf (Seq op lev (del_idx 0 idx l))).
  { apply wf_seq. split; [|split]; auto; try tauto.
    eapply Forall_incl; [apply del_idx_incl|exact W2]. }
  assert (HA : (do b1 <- append (Seq op lev (del_idx 0 idx l)) [AN nseq]; join false b1) = Ok n' -> wf n').
  { intros HJ. inv_bind. apply (join_sound (fun _ => true)) in HJ; [tauto|].
    apply wf_nz. eapply append_wf; [exact Wd| |exact Ha]. constructor; auto. }
  destruct nseq as [zn|on ln bn|on ln xn]; auto.
  destruct (_ && _); [discriminate|]. inv H. cI.
Qed.

Lemma upd_at_wf v strict nseq idx s path : forall n n',
  upd_at path (update_base strict nseq idx) n = Ok n' ->
  sub_at v path idx s n -> wf n -> wf nseq -> wf n'.
Proof.
  induction path as [|i path IH]; intros n n' H HS W Wn.
  - simpl in H. eapply update_base_wf; eauto. destruct n; simpl in *; tauto.
  - simpl in H, HS. destruct n as [z|op lev b|op lev l]; try tauto.
    destruct HS as (Hl & c & Hc & HS). rewrite Hc in H. inv_bind. inv H.
    apply wf_seq in W. destruct W as (W0 & W1 & W2).
    pose proof (nth_split_list _ _ _ Hc) as Hsp.
    assert (Wc : wf c) by (rewrite Forall_forall in W2; apply W2; eapply nth_error_In; eauto).
    pose proof (IH _ _ Ha HS Wc Wn).
    apply wf_seq. split; [|split]; auto; try tauto. rewrite Hsp in W2.
    apply Forall_app in W2. destruct W2 as (F1 & F2). apply Forall_cons_iff in F2.
    destruct F2 as (_ & F2). apply Forall_app. split; auto.
Qed.

Lemma factorize_wf strict x ts fs n r :
  factorize strict x ts fs n = Ok r -> wf n -> 0 < x -> wf r.
Proof.
  intros H W Hx. unfold factorize in H. set (v := fun _ : Z => true).
  destruct ts as [t|], fs as [f|]; try discriminate.
  - inv_bind. destruct a as [pos sub]. inv_bind. destruct a as [tr sub1]. inv_bind.
    destruct a as [fr sub2]. inv_bind. rename a into new.
    set (sub0 := match pos with None => n | Some _ => sub end) in *.
    assert (W0 : wf sub0).
    { unfold sub0. destruct pos as [[path idx]|]; auto. eapply (get_sub_sound v); eauto. }
    destruct (evaluate_receiver v _ _ _ _ Ha0 W0) as (Er & W1).
    destruct new as [nseq|]; [|inv H; auto].
    pose proof (evaluate_wf _ _ _ _ Ha0 W0) as Wtr.
    pose proof (evaluate_wf _ _ _ _ Ha1 W1) as Wfr.
    destruct (shannon_sound v _ _ _ _ Ha2 Hx Wtr Wfr) as (_ & Wn).
    destruct pos as [[path idx]|]; [|inv H; auto].
    unfold update in H. inv_bind. inv H. apply clean_self_wf.
    eapply (upd_at_wf v); eauto. eapply (get_sub_sound v); eauto.
  - inv_bind. destruct a as [tr g]. inv H.
    apply (assign_res_sound v n tr (evaluate_is_seq _ _ _ Ha)). eapply evaluate_wf; eauto.
  - inv_bind. destruct a as [tr g]. inv H.
    apply (assign_res_sound v n tr (evaluate_is_seq _ _ _ Ha)). eapply evaluate_wf; eauto.
Qed.

(* ------------------------------------------------------------------ *)
(** * No exception in factorize on grouped trees of positive level *)

Lemma touching_total vals l : forall i, Forall grouped_elt l ->
  exists ts, touching vals i l = Ok ts /\ Forall sub_seq (map snd ts).
Proof.
  induction l as [|e l IH]; intros i H; simpl; [exists []; split; simpl; auto|].
  apply Forall_cons_iff in H; destruct H as [He H]. destruct (IH (S i) H) as (ts & E & F).
  destruct e as [z|o lv b|o lv xs]; simpl in He; try tauto; rewrite E; cbn [bind].
  - simpl. eauto.
  - destruct (existsb _ _); eexists; split; eauto. simpl. constructor; simpl; auto.
Qed.

Lemma append_loop_seqs op args : forall lev l,
  Forall sub_seq args ->
  exists lev', append_loop op lev l (map AN args) = Seq op lev' (l ++ args) /\ (0 <= lev -> 0 <= lev').
Proof.
  induction args as [|a args IH]; intros lev l H; simpl.
  - exists lev. rewrite app_nil_r. auto.
  - apply Forall_cons_iff in H; destruct H as [Ha H]. destruct a as [z|o lv b|o lv xs]; simpl in Ha; try tauto.
    destruct (IH (Z.max lev (lv + 1)) (l ++ [Seq o lv xs]) H) as (lev' & E & Hlev).
    exists lev'. rewrite E, <- app_assoc. split; auto. intros; apply Hlev; lia.
Qed.

Lemma get_sub_total vals k : forall op lev l,
  (height (Seq op lev l) < k)%nat -> gr (Seq op lev l) -> lev <> 0 ->
  exists path idx op' lev' l', get_sub_f k vals (Seq op lev l) = Ok (Some (path, idx), Seq op' lev' l') /\
    Forall sub_seq l'.
Proof.
  induction k as [|k IH]; intros op lev l Hk Hg Hl; [lia|]. simpl.
  destruct (Z.eqb_spec lev 0); [tauto|]. apply gr_seq in Hg. destruct Hg as (Hg & Hc).
  destruct (touching_total vals l 0 (Hg Hl)) as (ts & E & F). rewrite E. cbn [bind].
  destruct (append_loop_seqs op (map snd ts) 0 [] F) as (lev' & Ea & _).
  rewrite map_map in Ea. rewrite Ea. simpl app.
  destruct ts as [|[i c] [|t ts]]; try (do 5 eexists; split; [reflexivity|exact F]).
  destruct (Z.ltb_spec 0 (level_of c)); [|do 5 eexists; split; [reflexivity|exact F]].
  simpl in F. apply Forall_cons_iff in F; destruct F as [Fc _].
  pose proof (touching_spec _ _ _ _ E) as HS. inv HS. destruct H2 as (Hin & _). simpl in Hin.
  destruct c as [zc|oc lc bc|oc lc xs]; simpl in Fc; try tauto. simpl in H.
  destruct (IH oc lc xs) as (path & idx & op' & lev'' & l' & E' & F').
  - apply hmax_In in Hin. rewrite height_seq in Hk. lia.
  - rewrite Forall_forall in Hc; auto.
  - lia.
  - rewrite E'. cbn [bind]. do 5 eexists; split; [reflexivity|exact F'].
Qed.

Lemma update_base_total nseq idx op lev l :
  is_seq nseq -> exists r, update_base false nseq idx (Seq op lev l) = Ok r /\ gr r /\ is_seq r.
Proof.
  intros Hs. unfold update_base. simpl andb.
  assert (H : exists r, (do b1 <- append (Seq op lev (del_idx 0 idx l)) [AN nseq]; join false b1) = Ok r
                        /\ gr r /\ is_seq r).
  { destruct (append (Seq op lev (del_idx 0 idx l)) [AN nseq]) as [a| |] eqn:Ea; try discriminate.
    cbn [bind]. apply append_is_seq in Ea.
    destruct (join_total false a Ea) as (r & -> & R1 & _ & _ & R2). eauto. }
  destruct nseq as [zn|on ln bn|on ln xn]; auto.
  eexists; split; [reflexivity|]. split; cI.
Qed.

Lemma upd_at_total v nseq idx s path : forall n,
  sub_at v path idx s n -> is_seq nseq -> gr n ->
  exists r, upd_at path (update_base false nseq idx) n = Ok r /\ gr r /\ is_seq r.
Proof.
  induction path as [|i path IH]; intros n HS Hs Hg; simpl.
  - destruct n as [z|op lev b|op lev l]; simpl in HS; try tauto.
    apply update_base_total; auto.
  - simpl in HS. destruct n as [z|op lev b|op lev l]; try tauto.
    destruct HS as (Hl & c & Hc & HS). rewrite Hc.
    apply gr_seq in Hg. destruct Hg as (Hg & HF).
    assert (Hgc : gr c) by (rewrite Forall_forall in HF; apply HF; eapply nth_error_In; eauto).
    destruct (IH c HS Hs Hgc) as (r & E & Gr & Sr). rewrite E. cbn [bind].
    eexists; split; [reflexivity|]. split; [|cI].
    pose proof (nth_split_list _ _ _ Hc) as Hsp. apply gr_seq. split.
    + intros _. specialize (Hg Hl). rewrite Hsp in Hg. apply Forall_app in Hg.
      destruct Hg as (G1 & G2). apply Forall_cons_iff in G2. destruct G2 as (_ & G2).
      apply Forall_app. split; auto.
    + rewrite Hsp in HF. apply Forall_app in HF.
      destruct HF as (G1 & G2). apply Forall_cons_iff in G2. destruct G2 as (_ & G2).
      apply Forall_app. split; auto.
Qed.

Lemma clean_self_gr n : gr n -> gr (clean_self n).
Proof.
  destruct n as [z|op lev b|op lev l]; auto. intros Hg. apply gr_seq in Hg. destruct Hg as (G1 & G2).
  destruct (clean_self_shape op lev l) as [(b & ->)|(l' & -> & _ & _ & Hi)]; [cI|].
  apply gr_seq. split; [intros Hl; eapply Forall_incl; [exact Hi|auto]|eapply Forall_incl; [exact Hi|auto]].
Qed.

Lemma shannon_total x t f : bres_seq t -> bres_seq f ->
  exists r, shannon x t f = Ok r /\ match r with None => True | Some n => is_seq n end.
Proof.
  intros Ht Hf.
  assert (HJ : forall op z g, exists r, (do n <- append (Seq op 0 []) [AN (Lit z); AN g];
                      do n' <- join true n; Ok (Some n')) = Ok r).
  { intros op z g. destruct (append (Seq op 0 []) [AN (Lit z); AN g]) as [a| |] eqn:Ea; try discriminate.
    cbn [bind]. apply append_is_seq in Ea.
    destruct (join_total true a Ea) as (r & -> & _). cbn [bind]. eauto. }
  assert (HE : exists r, shannon x t f = Ok r)
    by (destruct t as [[|]|g], f as [[|]|h]; try (eexists; reflexivity); apply HJ).
  destruct HE as (r & E). exists r. split; auto. destruct r; [|cI].
  eapply shannon_is_seq; eauto.
Qed.

Lemma sub_seq_cst0 l : Forall sub_seq l -> Forall cst0_free l.
Proof. intros H. eapply Forall_impl; [|exact H]. intros []; simpl; tauto. Qed.

Lemma factorize_total x t f op lev l :
  gr (Seq op lev l) -> wf (Seq op lev l) -> lev <> 0 ->
  exists r, factorize false x (Some t) (Some f) (Seq op lev l) = Ok r /\ gr r /\ is_seq r.
Proof.
  intros Hg W Hl. unfold factorize, get_sub_sequence.
  destruct (get_sub_total (map fst t ++ map fst f) (S (height (Seq op lev l))) op lev l)
    as (path & idx & op' & lev' & l' & E & F); auto.
  rewrite E. cbn [bind].
  pose proof (get_sub_sound (fun _ => true) _ _ _ _ _ _ E W) as (HS & Wsub).
  destruct (group_single_total op' lev' l') as (l1 & Eg1 & G0 & G1).
  { left. apply sub_seq_cst0; auto. }
  destruct (evaluate_total_gs t _ _ Eg1 I) as (tr & s1 & Et & Htr & Hs1). rewrite Et. cbn [bind].
  assert (HC1 : exists l2, s1 = Seq op' lev' l2 /\ Forall cst0_free l2).
  { destruct Hs1 as [-> | ->]; [|exists l'; split; auto; apply sub_seq_cst0; auto].
    exists l1. split; auto. destruct (Z.eq_dec lev' 0) as [->|Hn].
    - rewrite G0 by auto. apply sub_seq_cst0; auto.
    - destruct (G1 Hn) as (_ & G2). apply Forall_forall. intros y Hy.
      destruct (G2 y Hy) as [Hi|(g & -> & _)]; [|cI].
      pose proof (sub_seq_cst0 _ F) as Q. rewrite Forall_forall in Q. auto. }
  destruct HC1 as (l2 & -> & HC1).
  destruct (group_single_total op' lev' l2) as (l3 & Eg2 & _); [left; auto|].
  destruct (evaluate_total_gs f _ _ Eg2 I) as (fr & s2 & Ef & Hfr & _). rewrite Ef. cbn [bind].
  destruct (shannon_total x tr fr Htr Hfr) as (new & En & Hn). rewrite En. cbn [bind].
  destruct new as [nseq|].
  - destruct (upd_at_total _ _ _ _ _ _ HS Hn Hg) as (r & Eu & Gu & Su).
    unfold update. rewrite Eu. cbn [bind]. eexists; split; [reflexivity|].
    split; [apply clean_self_gr; auto|apply clean_self_is_seq; auto].
  - eexists; split; [reflexivity|]. split; auto.
Qed.

(* ------------------------------------------------------------------ *)
(** * simplify without table *)

Lemma nil_of_not_In {A} (l : list A) : (forall x, ~ In x l) -> l = [].
Proof. destruct l as [|x l]; auto. intros H. exfalso. apply (H x). simpl; auto. Qed.

Lemma do_factorize_level0_none x op lev l :
  0 <= lev -> In x (surfs (Seq op lev l)) -> 0 <= x ->
  do_factorize x (Some [(Z.abs x, true)]) (Some [(Z.abs x, false)]) (Seq op lev l) = Ok (0 <? lev).
Proof.
  intros Hl Hx H0. unfold do_factorize. simpl level_of.
  destruct (Z.ltb_spec 0 lev); auto.
  set (s := surfs (Seq op lev l)) in *.
  assert (HN : NoDup s) by apply NoDup_nodup.
  assert (HL : forall b, length (filter (fun z => existsb (fun p : Z * bool => fst p =? z) [(Z.abs x, b)]) s) = 1%nat).
  { intros b. rewrite (Z.abs_eq x) by auto. clear -HN Hx. induction s as [|y s IH]; [inv Hx|].
    inv HN. simpl in *. destruct (Z.eqb_spec x y) as [->|Hn]; simpl.
    - f_equal. replace (filter _ s) with (@nil Z); auto. symmetry.
      apply nil_of_not_In. intros z Hz. apply filter_In in Hz. destruct Hz as (Hz & E).
      rewrite orb_false_r in E. apply Z.eqb_eq in E. congruence.
    - apply IH; auto. destruct Hx; auto; congruence. }
  rewrite !HL. reflexivity.
Qed.

Lemma ss_loop_total names : forall nn op lev l,
  gr (Seq op lev l) -> wf (Seq op lev l) ->
  (forall x, In x nn -> In x (surfs (Seq op lev l))) ->
  exists r, ss_loop false None names nn (Seq op lev l) = Ok r /\ gr r /\ wf r /\ is_seq r.
Proof.
  induction names as [|x names IH]; intros nn op lev l Hg W HN; cbn [ss_loop value_sets bind].
  - eexists; split; [reflexivity|]. split; [|split]; auto; cI.
  - destruct (existsb (Z.eqb x) nn) eqn:E; [|apply IH; auto].
    apply existsb_In, HN in E. pose proof (surfs_pos _ _ W E) as Hx.
    pose proof W as W'. apply wf_seq in W'. destruct W' as (W0 & W1 & W2).
    rewrite do_factorize_level0_none by (auto; lia). cbn [bind].
    destruct (Z.ltb_spec 0 lev) as [Hl|Hl]; [|apply IH; auto].
    destruct (factorize_total x [(Z.abs x, true)] [(Z.abs x, false)] op lev l Hg W ltac:(lia))
      as (r & Er & Gr & Sr).
    unfold vset in *. rewrite Er. cbn [bind]. pose proof (factorize_wf _ _ _ _ _ _ Er W Hx) as Wr.
    destruct r as [z|op' lev' b'|op' lev' l']; simpl in Sr; try tauto.
    + eexists; split; [reflexivity|]. split; [|split]; auto; cI.
    + apply IH; auto.
Qed.

Lemma clean_gr n : gr n -> gr (clean n) .
Proof.
  induction n as [z|op lev b|op lev l IH] using node_ind'; auto. intros Hg.
  apply gr_seq in Hg. destruct Hg as (G1 & G2). simpl clean.
  destruct (clean_list clean op l) as [b|[|x l']] eqn:E; try cI. simpl clean_end.
  pose proof (clean_list_incl _ _ _ _ E) as Hi.
  apply gr_seq. split.
  - intros Hl. specialize (G1 Hl). apply Forall_forall. intros y Hy.
    destruct (Hi _ Hy) as (e & He & ->). rewrite Forall_forall in G1. apply G1 in He.
    destruct e as [z|o lv b|o lv xs]; simpl in *; auto. destruct (clean_list clean o xs) as [|[|]]; cI.
  - apply Forall_forall. intros y Hy. destruct (Hi _ Hy) as (e & He & ->).
    rewrite Forall_forall in *. auto.
Qed.
Lemma clean_is_seq n : is_seq n -> is_seq (clean n).
Proof. destruct n; simpl; auto. intros _. destruct (clean_list clean op l) as [|[|]]; cI. Qed.

Lemma simplify_sequence_total ord op lev l :
  gr (Seq op lev l) -> wf (Seq op lev l) ->
  exists r, simplify_sequence false ord None (Seq op lev l) = Ok r /\ gr r /\ wf r /\ is_seq r.
Proof.
  intros Hg W. unfold simplify_sequence. simpl level_of.
  destruct (lev <? 1).
  - eexists; split; [reflexivity|]. split; [apply clean_gr; auto|].
    split; [apply clean_wf; auto|apply clean_is_seq; cI].
  - destruct (surfs (Seq op lev l)) as [|y ys] eqn:E.
    + eexists; split; [reflexivity|]. split; [|split]; auto; cI.
    + apply ss_loop_total; auto. rewrite E. auto.
Qed.

(** level_update keeps a grouped well-formed tree grouped. *)
Lemma level_update_gr n : wf n -> gr n -> gr (level_update n).
Proof.
  induction n as [z|op lev b|op lev l IH] using node_ind'; auto. intros W Hg.
  apply wf_seq in W. destruct W as (W0 & W1 & W2). apply gr_seq in Hg. destruct Hg as (G1 & G2).
  destruct (level_update_shape op lev l) as (lev' & E & H1 & H2). rewrite E. apply gr_seq. split.
  - intros Hl. apply Forall_map.
    destruct (Z.eq_dec lev 0) as [->|Hn].
    + exfalso. apply Hl. simpl in E. fold lstep in E. injection E as E1. rewrite <- E1.
      specialize (W1 eq_refl). clear -W1. induction W1 as [|x l Hx _ IHl]; simpl; auto.
      destruct x; simpl in *; tauto.
    + eapply Forall_impl; [|exact (G1 Hn)]. intros []; simpl; auto.
  - apply Forall_map. rewrite Forall_forall in *. auto.
Qed.

Lemma mapM_simp_total ord d k l :
  (forall e, In e l -> simplify_f k false ord None d e = Fuel \/
     exists r, simplify_f k false ord None d e = Ok r /\ gr r /\ wf r /\ is_seq r) ->
  mapM (simplify_f k false ord None d) l = Fuel \/
  exists l', mapM (simplify_f k false ord None d) l = Ok l' /\
     Forall gr l' /\ Forall wf l' /\ Forall is_seq l'.
Proof.
  induction l as [|e l IH]; intros H; simpl; [right; eexists; eauto|].
  destruct (H e) as [E|(r & E & ? & ? & ?)]; [left; auto|rewrite E; left; reflexivity|].
  rewrite E. cbn [bind].
  destruct IH as [E'|(l' & E' & ? & ? & ?)]; [intros; apply H; right; auto|rewrite E'; left; reflexivity|].
  rewrite E'. cbn [bind]. right. eexists; split; [reflexivity|]. auto.
Qed.

Lemma simplify_ok_or_fuel ord k : forall d n,
  gr n -> wf n -> is_seq n ->
  simplify_f k false ord None d n = Fuel \/
  exists r, simplify_f k false ord None d n = Ok r /\ gr r /\ wf r /\ is_seq r.
Proof.
  induction k as [|k IH]; intros d n Hg W Hs; [left; reflexivity|].
  rewrite simplify_unfold. unfold simp_body.
  destruct n as [z|op lev b|op lev l]; [simpl in Hs; tauto| |].
  { simpl in W. simpl level_of. destruct (Z.ltb_spec 0 lev); [lia|]. simpl. right. eauto 10. }
  set (s1 := if 0 <? level_of (Seq op lev l) then _ else _).
  assert (H1 : s1 = Fuel \/ exists r, s1 = Ok r /\ gr r /\ wf r /\ is_seq r).
  { unfold s1. simpl level_of. destruct (Z.ltb_spec 0 lev) as [Hl|Hl]; [|right; eauto 10].
    apply gr_seq in Hg. destruct Hg as (G1 & G2).
    apply wf_seq in W. destruct W as (W0 & W1 & W2). specialize (G1 ltac:(lia)).
    destruct (mapM_simp_total ord (d + 1) k l) as [E|(l' & E & Q1 & Q2 & Q3)].
    { intros e He. rewrite Forall_forall in *. apply IH; auto.
      specialize (G1 e He). destruct e; simpl in *; tauto. }
    - rewrite E. left; reflexivity.
    - rewrite E. cbn [bind].
      assert (Hc : is_seq (clean (Seq op lev l'))) by (apply clean_is_seq; exact I).
      assert (Wc : wf (clean (Seq op lev l'))).
      { apply clean_wf. apply wf_seq. split; [lia|split; [lia|auto]]. }
      destruct (join_total false _ Hc) as (r & Er & Sr & _ & Gr).
      rewrite Er. cbn [bind]. right.
      assert (Wr : wf r) by (eapply (join_sound (fun _ => true)); eauto using wf_nz).
      eexists; split; [reflexivity|]. split; [|split].
      + apply level_update_gr; auto. exact (proj2 Gr eq_refl).
      + apply level_update_wf, wf_nz; auto.
      + destruct r; simpl in *; auto. }
  clearbody s1. destruct H1 as [->|(r & -> & G & Wr & Sr)]; [left; reflexivity|]. cbn [bind].
  destruct r as [z|o lv b|o lv xs]; simpl in Sr; [tauto|right; eauto 10|].
  destruct ((0 <? lv) || Nat.ltb 1 (length xs)); [|right; eexists; split; [reflexivity|split; auto; split; auto; exact I]].
  destruct (simplify_sequence_total ord _ _ _ G Wr) as (r2 & E2 & G2 & W2 & S2).
  rewrite E2. cbn [bind].
  destruct ((lv <? level_of r2) && (d <? 10)); [apply IH; auto|right; eauto 10].
Qed.

(** simplify without table, on grouped sequences, always returns. *)
Lemma simplify_total ord d n :
  gr n -> wf n -> is_seq n ->
  exists k r, simplify_f k false ord None d n = Ok r.
Proof.
  intros G W S. destruct (simplify_terminates false ord None I d n) as (k & Hk).
  destruct (simplify_ok_or_fuel ord k d n G W S) as [H|(r & H & _)]; [congruence|eauto].
Qed.
