(** Invariant of all histories. *)
From Coq Require Import String QArith.
From Verif Require Import Prelude Config ConfigSpec ConfigProofs.
Open Scope Z_scope.

Definition good (strict : bool) (h : list obj) (t : doc) (v : val) : Prop := if strict then has_type h t v else has_shape h t v.
Definition keeps (strict : bool) (h h' : list obj) : Prop :=
  forall a o, nth_error h a = Some o ->
  match o with
  | OList l => exists l', nth_error h' a = Some (OList l') /\ (strict = true -> l' = l)
  | OConf c _ => exists d, nth_error h' a = Some (OConf c d)
  | OCad _ => exists d, nth_error h' a = Some (OCad d)
  end.
Definition wf_obj (s : bool) (h : list obj) (o : obj) : Prop :=
  match o with
  | OList _ => True
  | OConf c d => forall n t, In (n, t) (documented c) -> exists v, lookup (priv n) d = Some v /\ good s h t v
  | OCad d => forall n c, In (n, c) cad_docs -> exists v, lookup (priv n) d = Some v /\ conf_at h v c
  end.
Definition wf (s : bool) (h : list obj) : Prop := forall a o, nth_error h a = Some o -> wf_obj s h o.

Lemma type_shape h t v : has_type h t v -> has_shape h t v.
Proof. intros H. destruct t; cbn; auto; inversion H; subst; eauto. Qed.
Lemma type_good s h t v : has_type h t v -> good s h t v.
Proof. destruct s; cbn; auto using type_shape. Qed.
Lemma keeps_refl s h : keeps s h h.
Proof. intros a o H. destruct o; eauto. Qed.
Lemma keeps_trans s h1 h2 h3 : keeps s h1 h2 -> keeps s h2 h3 -> keeps s h1 h3.
Proof.
  intros K L a o H. specialize (K a o H). destruct o as [l|c d|d].
  - destruct K as [l1 [K E]]. specialize (L a _ K). cbn in L. destruct L as [l2 [L E2]]. exists l2. split; auto. intros T. rewrite E2, E; auto.
  - destruct K as [d1 K]. exact (L a _ K).
  - destruct K as [d1 K]. exact (L a _ K).
Qed.
Lemma good_keeps s h h' t v : keeps s h h' -> good s h t v -> good s h' t v.
Proof.
  intros K. destruct s; cbn.
  - intros H. destruct H; try (constructor; auto; fail); specialize (K _ _ H); cbn in K; destruct K as [l' [K E]]; rewrite E in K by auto; [apply tNoMat|eapply tMat|eapply tStrs]; eauto.
  - destruct t; cbn; intros H; try (destruct H as (a & l & -> & H); specialize (K _ _ H); cbn in K; destruct K as [l' [K _]]; eauto; fail); inversion H; subst; constructor; auto.
Qed.
Lemma conf_keeps s h h' v c : keeps s h h' -> conf_at h v c -> conf_at h' v c.
Proof. intros K (b & d & -> & H). specialize (K _ _ H). cbn in K. destruct K as [d' K]. exists b, d'. auto. Qed.
Lemma obj_keeps s h h' o : keeps s h h' -> wf_obj s h o -> wf_obj s h' o.
Proof.
  intros K. destruct o as [l|c d|d]; cbn; auto; intros W n t D; destruct (W n t D) as [v [L G]]; exists v; (split; [auto|]); [eapply good_keeps|eapply conf_keeps]; eauto.
Qed.
Lemma wf_app s h o : wf s h -> wf_obj s (h ++ [o]) o -> keeps s h (h ++ [o]) -> wf s (h ++ [o]).
Proof.
  intros W O K a x H. destruct (Nat.lt_ge_cases a (List.length h)) as [L|L].
  - rewrite nth_error_app1 in H by auto. eapply obj_keeps; eauto.
  - rewrite nth_error_app2 in H by lia. destruct (a - List.length h)%nat as [|k]; cbn in H; [congruence|destruct k; discriminate].
Qed.
Lemma keeps_app s h r : keeps s h (h ++ r).
Proof. intros a o H. assert (nth_error (h ++ r) a = Some o) by (rewrite nth_error_app1; auto; eapply nth_lt; eauto). destruct o; eauto. Qed.
Lemma keeps_upd s h a o o' : nth_error h a = Some o ->
  match o, o' with OConf c _, OConf c' _ => c = c' | OCad _, OCad _ => True | OList l, OList l' => s = true -> l' = l | _, _ => False end ->
  keeps s h (upd a o' h).
Proof.
  intros H M b x B. destruct (Nat.eq_dec a b) as [<- |N].
  - rewrite H in B. injection B as <-. rewrite upd_same by (eapply nth_lt; eauto). destruct o, o'; try contradiction; subst; eauto.
  - rewrite upd_other by auto. destruct x; eauto.
Qed.
Lemma wf_upd s h a o o' : wf s h -> nth_error h a = Some o -> keeps s h (upd a o' h) -> wf_obj s (upd a o' h) o' -> wf s (upd a o' h).
Proof.
  intros W H K O b x B. destruct (Nat.eq_dec a b) as [<- |N].
  - rewrite upd_same in B by (eapply nth_lt; eauto). injection B as <-. auto.
  - rewrite upd_other in B by auto. eapply obj_keeps; eauto.
Qed.

(** ** preservation *)
Definition pres {A} (s : bool) (m : M A) : Prop := forall st, wf s (heap st) -> wf s (heap (fst (m st))) /\ keeps s (heap st) (heap (fst (m st))).
Lemma pres_same {A} s (m : M A) : (forall st, heap (fst (m st)) = heap st) -> pres s m.
Proof. intros H st W. rewrite H. split; auto. apply keeps_refl. Qed.
Lemma pres_seq {A B} s (m : M A) (k : A -> M B) : pres s m -> (forall a, pres s (k a)) -> pres s (seq_ m k).
Proof.
  intros P Q st W. unfold seq_. destruct (P st W) as [W1 K1]. destruct (m st) as [st1 [a|e|]]; cbn [fst] in *; auto.
  destruct (Q a st1 W1) as [W2 K2]. split; auto. eapply keeps_trans; eauto.
Qed.
Lemma pres_ret {A} s (a : A) : pres s (ret a). Proof. apply pres_same. reflexivity. Qed.
Lemma pres_raise {A} s e : pres s (@raise A e). Proof. apply pres_same. reflexivity. Qed.
Lemma pres_lift {A} s (r : res A) : pres s (lift r). Proof. apply pres_same. reflexivity. Qed.
Lemma pres_is_a s v t : pres s (is_a v t). Proof. apply pres_same. reflexivity. Qed.
Lemma pres_emit s e : pres s (emit e). Proof. apply pres_same. reflexivity. Qed.
Lemma pres_elements s v : pres s (elements v).
Proof. apply pres_same. intros st. destruct v; cbn; auto. destruct (nth_error (heap st) a) as [[| |]|]; auto. Qed.
Lemma pres_all_are s l t : pres s (all_are l t).
Proof. apply pres_same. intros st. rewrite all_are_spec. reflexivity. Qed.
Lemma pres_set s a n v : public n -> pres s (setattr a n v).
Proof.
  intros PN st W.
  assert (NP : forall k w d, lookup (priv k) (put n w d) = lookup (priv k) d).
  { intros k w d. apply lookup_put_other. intros E. apply (PN k). symmetry. exact E. }
  destruct (setattr_cases st a n v) as [[e ->]|[(c & d & m & H & -> & C)|(d & m & H & -> & C)]]; cbn [fst heap].
  - split; auto. apply keeps_refl.
  - assert (K : keeps s (heap st) (upd a (OConf c (put m v d)) (heap st))) by (eapply keeps_upd; eauto; reflexivity).
    split; auto. eapply wf_upd; eauto. pose proof (obj_keeps s _ _ _ K (W a _ H)) as O. cbn [wf_obj] in *.
    intros k t D. destruct C as [(u & Du & -> & T)| ->].
    + destruct (string_dec k n) as [-> |N].
      * exists v. split; [apply lookup_put_same|]. eapply good_keeps; [exact K|]. apply type_good.
        assert (t = u); [|congruence]. clear -D Du. destruct c; cbn [documented In] in D, Du; repeat destruct D as [[= <- <-]|D]; try contradiction; repeat destruct Du as [[= <-]|Du]; try contradiction; try discriminate; reflexivity.
      * rewrite lookup_put_other; [auto|]. intros E. apply priv_inj in E. auto.
    + rewrite NP. auto.
  - assert (K : keeps s (heap st) (upd a (OCad (put m v d)) (heap st))) by (eapply keeps_upd; eauto; exact Logic.I).
    split; auto. eapply wf_upd; eauto. pose proof (obj_keeps s _ _ _ K (W a _ H)) as O. cbn [wf_obj] in *.
    intros k t D. destruct C as [(u & Du & -> & T)| ->].
    + destruct (string_dec k n) as [-> |N].
      * exists v. split; [apply lookup_put_same|]. eapply conf_keeps; [exact K|].
        assert (t = u); [|congruence]. clear -D Du. cbn [cad_docs In] in D, Du; repeat destruct D as [[= <- <-]|D]; try contradiction; repeat destruct Du as [[= <-]|Du]; try contradiction; try discriminate; reflexivity.
      * rewrite lookup_put_other; [auto|]. intros E. apply priv_inj in E. auto.
    + rewrite NP. auto.
Qed.
Lemma lookup_conf c kw n t : In (n, t) (documented c) -> exists v, lookup (priv n) (conf_dict c kw) = Some v /\ In (n, v) (args_of (params c) kw).
Proof.
  intros D. destruct (params_names c) as (_ & ND & P1 & P2). destruct (P2 n t D) as [v I].
  exists (given kw n v). assert (I2 : In (n, given kw n v) (args_of (params c) kw)) by (unfold args_of; apply in_map_iff; exists (n, v); auto). split; auto.
  apply lookup_nodup.
  - unfold conf_dict. rewrite map_map. cbn [fst]. rewrite <- (map_map fst priv). rewrite args_names.
    clear -ND. induction (map fst (params c)) as [|x l IH]; cbn; constructor; inversion ND; subst; auto. intros H. apply in_map_iff in H. destruct H as [y [E H]]. apply priv_inj in E. congruence.
  - unfold conf_dict. apply in_map_iff. exists (n, given kw n v). auto.
Qed.
Lemma pres_new_conf s c kw : pres s (new_conf c kw).
Proof.
  intros st W. destruct (new_conf_spec c kw st) as [(N & T & ->)|[_ [e [-> _]]]]; cbn [fst heap]; [|split; auto; apply keeps_refl].
  split; [|apply keeps_app]. apply wf_app; auto; [|apply keeps_app].
  intros n t D. destruct (lookup_conf c kw n t D) as [v [L I]]. exists v. split; auto. eapply good_keeps; [apply keeps_app|]. apply type_good. eauto.
Qed.
Lemma wf_out_path s h : wf s h -> forall b d, nth_error h b = Some (OConf CSettings d) -> exists p, lookup (priv "outPath") d = Some p.
Proof. intros W b d H. specialize (W b _ H). cbn [wf_obj] in W. destruct (W "outPath"%string DStr) as [v [L _]]; [cbn; tauto|]. eauto. Qed.
Lemma cad_lookup kw a n c : In (n, c) cad_docs -> exists v, lookup (priv n) (cad_dict kw a) = Some v /\ In (n, v) (args_of cad_params kw).
Proof.
  intros D. cbn [cad_docs In] in D. unfold cad_dict. cbn [args_of cad_params map fst snd app].
  destruct D as [[= <- <-]|[[= <- <-]|[[= <- <-]|[[= <- <-]|[]]]]]; eexists; (split; [cbn; reflexivity|cbn; tauto]).
Qed.
Lemma pres_new_cad s kw : pres s (new_cad kw).
Proof.
  intros st W. destruct (new_cad_spec kw st (wf_out_path s _ W)) as [[A (b & d & p & _ & _ & _ & ->)]|[_ ->]]; cbn [fst heap]; [|split; auto; apply keeps_refl].
  split; [|apply keeps_app].
  replace (heap st ++ [OCad (cad_dict kw (List.length (heap st))); OList []]) with ((heap st ++ [OCad (cad_dict kw (List.length (heap st)))]) ++ [OList []]) by (rewrite <- app_assoc; reflexivity).
  apply wf_app; [|exact Logic.I|apply keeps_app]. apply wf_app; auto; [|apply keeps_app].
  intros n c D. destruct (cad_lookup kw (List.length (heap st)) n c D) as [v [L I]]. exists v. split; auto.
  apply conf_at_app. destruct A as [_ A]. eauto.
Qed.
Ltac pres_tac :=
  repeat (apply pres_seq; [|intros ?]) ; auto using pres_ret, pres_raise, pres_lift, pres_is_a, pres_emit, pres_elements, pres_all_are, pres_new_conf, pres_new_cad.
Lemma pub n : (match n with String c _ => negb (Nat.eqb (Ascii.nat_of_ascii c) 95) | EmptyString => true end = true) -> public n.
Proof. intros H r E. subst n. cbn in H. discriminate. Qed.
Section Files.
Variable is_file : string -> bool.
Lemma all_found_heap l st : heap (fst (all_found is_file l st)) = heap st.
Proof. induction l as [|v l IH]; cbn [all_found]; auto. destruct v; auto. destruct (is_file s); auto. Qed.
Lemma pres_load s a f sk p : pres s (load_step_file is_file a f sk p).
Proof.
  unfold load_step_file. apply pres_seq; [apply pres_is_a|intros l1]. apply pres_seq; [apply pres_is_a|intros l2].
  destruct (negb (l1 || l2)); [apply pres_raise|]. apply pres_seq; [apply pres_elements|intros es]. apply pres_seq; [apply pres_all_are|intros ?].
  do 3 (apply pres_seq; [apply pres_is_a|intros ?]). destruct (negb _); [apply pres_raise|].
  apply pres_seq; [destruct (_ || _); auto using pres_elements, pres_ret|intros files].
  apply pres_seq; [destruct (_ || _); auto using pres_all_are, pres_ret|intros ?].
  destruct p; try apply pres_raise. destruct (existsb _ _); [|apply pres_raise].
  apply pres_seq; [apply pres_set, pub; reflexivity|intros ?]. apply pres_seq; [apply pres_set, pub; reflexivity|intros ?].
  apply pres_seq; [apply pres_same, all_found_heap|intros ?]. apply pres_emit.
Qed.
Lemma args_are_heap ns args t st : heap (fst (args_are ns args t st)) = heap st.
Proof. induction ns as [|n ns IH]; cbn [args_are]; auto. destruct (lookup n args); auto. unfold seq_. rewrite is_a_eq. destruct (isinstance _ _ _); cbn; auto. Qed.
Lemma export_heap a kw st : heap (fst (export_csg a kw st)) = heap st.
Proof.
  unfold export_csg. unfold seq_ at 1. unfold lift. destruct (bind_args export_params kw) as [args|e|]; auto. destruct (lookup "UCARD" args) as [u|]; auto.
  unfold seq_. rewrite !is_a_eq. destruct (_ && _); auto. destruct (_ && _); auto.
  pose proof (args_are_heap ["volSDEF"; "volCARD"; "dummyMat"; "cellCommentFile"; "cellSummaryFile"]%string args TyBool st) as E.
  destruct (args_are _ args TyBool st) as [st1 [x|e|]]; cbn [fst] in *; auto.
  pose proof (args_are_heap ["title"; "geometryName"]%string args TyStr st1) as E1.
  destruct (args_are _ args TyStr st1) as [st2 [y|e|]]; cbn [fst] in *; unfold emit; cbn [fst heap]; congruence.
Qed.
Lemma pres_export s a kw : pres s (export_csg a kw). Proof. apply pres_same, export_heap. Qed.
Lemma pres_splat {A} s v (f : dict -> M A) : (forall d, pres s (f d)) -> pres s (splat v f).
Proof. intros H. destruct v; cbn; auto using pres_raise. Qed.
Lemma pres_config_loop s a c : pres s (config_loop a c).
Proof.
  induction c as [|[k v] c IH]; cbn [config_loop]; [apply pres_ret|]. apply pres_seq; [|intros ?; exact IH].
  destruct (existsb _ _); [apply pres_ret|].
  repeat (destruct (String.eqb k _); [apply pres_seq; [apply pres_splat; intros; apply pres_new_conf|intros ?; apply pres_set, pub; reflexivity]|]). apply pres_raise.
Qed.
Lemma pres_from_json s c : pres s (from_json is_file c).
Proof.
  unfold from_json. apply pres_seq; [apply pres_new_cad|intros o]. destruct o; try apply pres_raise.
  apply pres_seq; [apply pres_config_loop|intros ?].
  apply pres_seq; [|intros ?].
  { destruct (jlookup _ c); [|apply pres_raise]. apply pres_splat. intros d. unfold load_kw. destruct (lookup "filename" d); [|apply pres_raise].
    apply pres_seq; [apply pres_lift|intros l]. destruct (map snd l) as [|? [|? [|? [|]]]]; try apply pres_raise. apply pres_load. }
  apply pres_seq; [apply pres_same; reflexivity|intros ?].
  apply pres_seq; [|intros ?; apply pres_ret]. destruct (jlookup _ c); [apply pres_splat; intros; apply pres_export|apply pres_export].
Qed.
Lemma pres_step s o : fair s o -> pres s (step is_file o).
Proof.
  destruct o as [c kw|kw|a n v|l|a v|a f sk p|a|a kw|c]; cbn [fair step]; intros F; unfold unit_op.
  - apply pres_new_conf. - apply pres_new_cad.
  - apply pres_seq; [apply pres_set; auto|intros ?; apply pres_ret].
  - apply pres_seq; [|intros ?; apply pres_ret]. intros st W. cbn [alloc fst heap]. split; [|apply keeps_app]. apply wf_app; [auto|exact Logic.I|apply keeps_app].
  - subst s. apply pres_seq; [|intros ?; apply pres_ret]. intros st W. unfold list_append.
    destruct (nth_error (heap st) a) as [[l| |]|] eqn:E; cbn [fst heap]; try (split; [auto|apply keeps_refl]).
    assert (K : keeps false (heap st) (upd a (OList (l ++ [v])) (heap st))) by (eapply keeps_upd; eauto; cbn; discriminate).
    split; auto. eapply wf_upd; eauto. exact Logic.I.
  - apply pres_seq; [apply pres_load|intros ?; apply pres_ret].
  - apply pres_seq; [apply pres_same; reflexivity|intros ?; apply pres_ret].
  - apply pres_seq; [apply pres_export|intros ?; apply pres_ret].
  - apply pres_from_json.
Qed.
Lemma wf_history s l : Forall (fair s) l -> forall st, wf s (heap st) -> wf s (heap (history is_file l st)) /\ keeps s (heap st) (heap (history is_file l st)).
Proof.
  induction 1 as [|o l F _ IH]; intros st W; cbn [history]; [split; auto; apply keeps_refl|].
  destruct (pres_step s o F st W) as [W1 K1]. destruct (IH _ W1) as [W2 K2]. split; auto. eapply keeps_trans; eauto.
Qed.
End Files.
(** the import *)
Lemma init_wf s : wf s (heap init_state).
Proof.
  unfold init_state. assert (W : wf s (heap empty_state)).
  { intros a o H. destruct a as [|[|[|a]]]; cbn in H; try (injection H as <-; exact Logic.I). destruct a; discriminate. }
  assert (P : pres s (let! _ := new_conf COptions [] in let! _ := new_conf CTolerances [] in let! _ := new_conf CNumericFormat [] in let! _ := new_conf CSettings [] in ret tt)).
  { repeat (apply pres_seq; [apply pres_new_conf|intros ?]). apply pres_ret. }
  apply (P empty_state W).
Qed.
