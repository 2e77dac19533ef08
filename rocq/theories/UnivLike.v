(** LIKE n BUT: proofs. *)
From Verif Require Import Prelude Univ UnivSpec UnivProofs.

Definition named (l : list cell) : cells := map (fun c => (c_name c, c)) l.
Lemma card_dict_named cards : NoDup (map c_name cards) -> card_dict cards = named cards.
Proof.
  induction cards as [|c cards IH] using rev_ind; intros ND; [reflexivity|]. rewrite map_app in ND. cbn in ND. unfold card_dict in *. rewrite fold_left_app. cbn [fold_left].
  rewrite IH by (apply (nodup_app_l _ _ ND)). rewrite zput_new; [unfold named; rewrite map_app; reflexivity|].
  unfold named. rewrite map_map. cbn [fst]. apply (nodup_app_last _ _ ND).
Qed.
(** [c'] is [c] with its entries found *)
Definition resolved (cards : list cell) (c c' : cell) : Prop :=
  c_name c' = c_name c /\ c_like c' = c_like c /\
  entry_of c_u cards c (c_u c') /\ entry_of c_fill cards c (c_fill c') /\ entry_of c_mat cards c (c_mat c') /\
  entry_of c_tr cards c (c_tr c') /\ entry_of c_trcl cards c (c_trcl c') /\ text_of cards c (c_surfs c').
Lemma entry_own {A} (attr : cell -> option A) cards c : c_like c = None -> entry_of attr cards c (attr c).
Proof. intros L. destruct (attr c) eqn:E; [apply e_own; auto|apply e_none; auto]. Qed.
Lemma entry_pick (attr : cell -> option Z) cards c l v : In l cards -> c_like c = Some (c_name l) -> attr c <> Some 0 -> entry_of attr cards l v -> entry_of attr cards c (pick (attr c) v).
Proof.
  intros I L N E. unfold pick. destruct (attr c) as [a|] eqn:EA; cbn [truthy].
  - destruct (a =? 0) eqn:Z0; [exfalso; apply N; f_equal; lia|]. cbn. apply e_own. auto.
  - eapply e_like; eauto.
Qed.
Lemma zget_app {A} n (a b : list (Z * A)) : zget n (a ++ b) = match zget n a with Some v => Some v | None => zget n b end.
Proof. induction a as [|[k w] a IH]; cbn; auto. destruct (k =? n); auto. Qed.
Definition done_ok (cards pre : list cell) (done : cells) : Prop :=
  Forall2 (fun c p => fst p = c_name c /\ resolved cards c (snd p)) pre done.
Lemma done_get cards pre done l : NoDup (map c_name pre) -> done_ok cards pre done -> In l pre -> exists l', zget (c_name l) done = Some l' /\ resolved cards l l'.
Proof.
  intros ND D. induction D as [|c [n c'] pre done [E R] D IH]; [intros []|]. cbn in ND. inversion ND as [|? ? N1 N2]; subst. cbn in E. subst n. cbn [zget fst snd] in *. intros [<- |I].
  - rewrite Z.eqb_refl. eauto.
  - destruct (c_name c =? c_name l) eqn:E; [exfalso; apply N1; replace (c_name c) with (c_name l) by lia; apply in_map; auto|]. auto.
Qed.
Lemma explicit_spec cards : NoDup (map c_name cards) -> likes_before cards -> Forall own_values cards ->
  forall post pre done, cards = pre ++ post -> done_ok cards pre done ->
  exists cs, explicit_loop done (named post) = Ok cs /\ done_ok cards cards cs.
Proof.
  intros ND LB OK post. induction post as [|c post IH]; intros pre done E D.
  - exists done. split; auto. rewrite app_nil_r in E. subst pre. auto.
  - unfold named. cbn [map explicit_loop]. fold (named post).
    assert (ICc : In c cards) by (rewrite E; apply in_or_app; right; left; auto). assert (OC := proj1 (Forall_forall _ _) OK c ICc).
    assert (NP : NoDup (map c_name pre)) by (rewrite E, map_app in ND; apply (nodup_app_l _ _ ND)).
    assert (STEP : exists c', (if truthy (c_like c) then do l <- key (val (c_like c)) (done ++ (c_name c, c) :: named post); Ok (like_but c l) else Ok c) = Ok c' /\ resolved cards c c').
    { destruct (c_like c) as [n|] eqn:L.
      - destruct (LB _ _ _ _ E L) as [NZ (l & Il & <-)]. destruct (done_get _ _ _ _ NP D Il) as (l' & G & R). cbn [truthy val]. replace (negb (c_name l =? 0)) with true by lia.
        unfold key. rewrite zget_app, G. cbn [bind]. eexists. split; [reflexivity|]. destruct R as (_ & _ & R1 & R2 & R3 & R4 & R5 & R6).
        destruct (OC ltac:(congruence)) as (O1 & O2 & O3 & O4 & O5). assert (Il' : In l cards) by (rewrite E; apply in_or_app; auto).
        split; [reflexivity|]. split; [reflexivity|]. cbn [like_but c_u c_fill c_mat c_tr c_trcl c_surfs]. repeat (split; [solve [eapply entry_pick; eauto]|]). eapply t_like; eauto.
      - cbn [truthy]. eexists. split; [reflexivity|]. split; auto. split; [auto|]. repeat (split; [solve [apply entry_own; auto]|]). apply t_own. auto. }
    destruct STEP as (c' & -> & R). cbn [bind]. apply (IH (pre ++ [c])); [rewrite <- app_assoc; auto|]. apply Forall2_app; auto.
Qed.
Lemma set_explicit_spec cards : NoDup (map c_name cards) -> likes_before cards -> Forall own_values cards ->
  exists cs, set_explicit (card_dict cards) = Ok cs /\ done_ok cards cards cs.
Proof. intros ND LB OK. rewrite card_dict_named by auto. apply (explicit_spec cards ND LB OK cards [] []); auto. constructor. Qed.
(** the FILL entry with its transformation *)
Lemma fill_spec cards c c' : Forall own_fill cards -> Forall tr_of_fill cards ->
  NoDup (map c_name cards) -> In c cards ->
  entry_of c_fill cards c (c_fill c') -> entry_of c_tr cards c (c_tr c') -> entry_of fill_entry cards c (fill_entry c').
Proof.
  intros A B ND I F. unfold fill_entry at 2. revert I F. generalize (c_fill c') (c_tr c'). intros f t I F. induction F as [c v E|c l v E Il L F IH|c E L].
  - intros T. apply e_own. unfold fill_entry. rewrite E. f_equal. f_equal. destruct (c_like c) as [n|] eqn:L.
    + assert (N := proj1 (Forall_forall _ _) A c I ltac:(congruence) ltac:(congruence)). inversion T; subst; congruence.
    + inversion T; subst; congruence.
  - intros T. eapply e_like; eauto; [unfold fill_entry; rewrite E; auto|]. apply IH; auto. assert (N := proj1 (Forall_forall _ _) B c I E).
    inversion T as [? ? E2|? l2 ? E2 Il2 L2 T2|? E2 L2]; subst; try congruence. assert (l2 = l); [|subst; auto].
    rewrite L in L2. injection L2 as L2. clear -ND Il Il2 L2. induction cards as [|x cards IHc]; [destruct Il|]. cbn in ND. inversion ND as [|? ? N1 N2]; subst.
    destruct Il as [-> |Il], Il2 as [-> |Il2]; auto; exfalso; apply N1; [rewrite L2|rewrite <- L2]; apply in_map; auto.
  - intros _. apply e_none; auto. unfold fill_entry. rewrite E. auto.
Qed.
