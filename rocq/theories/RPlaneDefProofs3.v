(** C38: plane_definition keeps the region in the direction of the orientation. *)
From Coq Require Import Permutation.
From Verif Require Import Prelude BoolSpec BoolSeq BoolProofs BoolTotal BoolTotal2 BoolTotal3 BoolEditProofs RBool RBoolProofs Vec3 Prim RBox RPlanes RPlaneDefProofs RPlaneDefProofs2.
Open Scope Z_scope.

(** join_operators brings no new literal *)
Lemma gs_loop_lits_r z i : forall l g l' g', gs_loop i l g = Ok (l', g') ->
  In z (flat_map lits l') \/ In z (flat_map lits g') -> In z (flat_map lits l) \/ In z (flat_map lits g).
Proof.
  induction i as [|j IH]; intros l g l' g' H M; cbn [gs_loop] in H; [inv H; auto|].
  destruct (nth_error l j) as [e|] eqn:E; [|inv H; auto]. pose proof (nth_error_In _ _ E) as Hi.
  destruct e as [y|o lv b|o lv xs].
  - apply (IH _ _ _ _ H) in M. destruct M as [M|M].
    + left. apply (Permutation_in z (Permutation_sym (Permutation_flat_map lits (remove_lit_perm _ _ Hi)))). cbn [flat_map lits]. apply in_or_app. auto.
    + rewrite flat_map_app in M. apply in_app_or in M. destruct M as [M|M]; auto. left. apply in_flat_map. exists (Lit y). split; [auto|cbn in M; cbn; tauto].
  - destruct (lv =? 0); [discriminate|eauto].
  - destruct xs as [|x [|x' xs]]; eauto. destruct (lv =? 0); eauto. apply (IH _ _ _ _ H) in M. destruct M as [M|M].
    + left. apply (Permutation_in z (Permutation_sym (Permutation_flat_map lits (remove_at_perm _ _ _ E)))). cbn [flat_map lits]. apply in_or_app. auto.
    + rewrite flat_map_app in M. apply in_app_or in M. destruct M as [M|M]; auto. left. apply in_flat_map. exists (Seq o lv [x]). split; auto.
Qed.
Lemma group_single_lits_r z n m : group_single n = Ok m -> In z (lits m) -> In z (lits n).
Proof.
  destruct n as [y|op lev b|op lev l]; cbn [group_single]; intros H M; [discriminate|inv H; auto|].
  destruct (lev =? 0); [inv H; auto|]. inv_bind. destruct a as (l', g').
  assert (K : In z (flat_map lits l') \/ In z (flat_map lits g')).
  { destruct g'; inv H; cbn [lits flat_map] in *; auto. apply in_app_or in M. tauto. }
  apply (gs_loop_lits_r z _ _ _ _ _ Ha) in K. destruct K as [K|[]]. exact K.
Qed.
Lemma mapM_lits_r f z l : (forall e e', In e l -> f e = Ok e' -> In z (lits e') -> In z (lits e)) -> forall l', mapM f l = Ok l' -> In z (flat_map lits l') -> In z (flat_map lits l).
Proof.
  induction l as [|e l IH]; intros Hf l' H M; [injection H as <-; destruct M|]. cbn in H. inv_bind. injection H as <-. cbn [flat_map] in *. apply in_or_app. apply in_app_or in M.
  destruct M as [M|M]; [left; eapply Hf; eauto; now left|right; eapply IH; eauto; intros; eapply Hf; eauto; now right].
Qed.
Lemma rmerge_lits_r op lev l r z : rmerge op lev l = Ok r -> In z (lits r) -> In z (flat_map lits l).
Proof.
  unfold rmerge. intros H M. inv_bind. destruct (Nat.ltb _ _); [|inv H; exact M]. inv_bind. rename a0 into xs. cbn [rappend] in H. injection H as <-.
  cbn [lev_up rappend_loop] in M. cbn [lits] in M. rewrite flat_map_app in M. cbn [flat_map lits] in M. rewrite app_nil_r in M. apply in_app_or in M. destruct M as [M|M].
  - apply in_flat_map in M. destruct M as (e & He & Hz). apply filter_In in He. apply in_flat_map. exists e. tauto.
  - assert (K : exists e, In e (filter (has_op op) l) /\ In z (lits e)).
    { clear -Ha0 M. revert xs Ha0 M. induction (filter (has_op op) l) as [|x m IH]; intros xs H M; cbn in H; [injection H as <-; destruct M|]. inv_bind. injection H as <-. cbn [concat] in M. rewrite flat_map_app in M. apply in_app_or in M.
      destruct M as [M|M]; [|destruct (IH _ Ha0 M) as (e & A & B); exists e; split; auto; now right].
      exists x. split; [now left|]. destruct x; cbn in Ha; try discriminate. injection Ha as <-. exact M. }
    destruct K as (e & He & Hz). apply filter_In in He. apply in_flat_map. exists e. tauto.
Qed.
Lemma rjoin_lits_r z k : forall n r, rjoin k n = Ok r -> In z (lits r) -> In z (lits n).
Proof.
  induction k as [|k IH]; intros n r H M; cbn [rjoin] in H; [discriminate|].
  destruct n as [y|op lev b|op lev l]; [discriminate|cbn in H; inv H; destruct M|].
  change (In z (lits (lev_up (Seq op lev l)))).
  destruct (lev_up (Seq op lev l)) as [y|o1 lev1 b1|op1 lev1 l1] eqn:E1; try discriminate.
  destruct (lev1 =? 0); [injection H as <-; auto|]. inv_bind. rename a into n2. apply (group_single_lits_r z _ _ Ha).
  destruct (group_single_shape _ _ _ _ Ha) as (l2 & ->). inv_bind. rename a into n3. rename a0 into n4.
  change (In z (flat_map lits l2)). apply (rmerge_lits_r _ _ _ _ z Ha0).
  assert (M4 : In z (lits n4)).
  { destruct n4 as [z4|op4 lev4 b4|op4 lev4 l4]; try (inv H; auto; fail). destruct (lev4 =? 0); [inv H; auto|]. inv_bind. injection H as <-. cbn [lits] in *. eapply mapM_lits_r; eauto. }
  destruct n3 as [z3|op3 lev3 b3|op3 lev3 l3]; try (inv Ha1; auto; fail).
  destruct l3 as [|c [|c' l3]]; try (inv Ha1; auto; fail).
  destruct (0 <? lev3); [|inv Ha1; auto]. cbn [lits flat_map]. rewrite app_nil_r.
  destruct c as [zc|oc lc bc|oc lc xs]; [discriminate|destruct (IH _ _ Ha1 M4)|]. apply (IH _ _ Ha1 M4).
Qed.

(** * the loop *)
Definition entries_ok (es : list (Z * entry)) : Prop :=
  NoDup (map fst es) /\
  Forall (fun q => 0 < fst q /\ Forall (fun z => 0 < z) (entry_labs (snd q)) /\ entry_two (snd q) /\ entry_empty (snd q) = false) es /\
  (forall q s, In q es -> In s (map fst es) -> ~ In s (entry_labs (snd q))).
Lemma pd_loop_ok u o : o <> OUnd -> forall es n stop r, entries_ok es -> gd n -> pd_loop o es n = Ok (stop, r) ->
  const_or_gd r /\
  (stop = false -> forall z, In z (lits r) -> (In z (lits n) \/ exists q, In q es /\ In (Z.abs z) (entry_labs (snd q))) /\ ~ In (Z.abs z) (map fst es)) /\
  (stop = true -> is_const r = true) /\
  ((forall q, In q es -> In (outlit o (fst q)) (lits n) -> outer_ok u (fst q) (snd q)) ->
   (forall q, In q es -> In (- outlit o (fst q)) (lits n) -> entry_pos (snd q) = true -> inner_ok u (fst q) (snd q)) ->
   R2 (dirn o) (eval u n) (eval u r)).
Proof.
  intros O. induction es as [|(s, e) es IH]; intros n stop r K G H; cbn [pd_loop] in H.
  - injection H as <- <-. split; [right; exact G|]. split; [intros _ z I; cbn; tauto|]. split; [discriminate|]. intros _ _. apply R2_refl.
  - destruct K as (ND & F & D). cbn [map fst] in ND. apply NoDup_cons_iff in ND. destruct ND as (N1 & ND). apply Forall_cons_iff in F. destruct F as ((F1 & F2 & F3 & F4) & F). cbn [fst snd] in *.
    rewrite F4 in H. assert (CN : is_const n = false) by (destruct n; auto; destruct G). rewrite CN in H.
    destruct (pd_step o s e n) as [n'|?|] eqn:E; try discriminate. cbn [bind] in H.
    assert (NS : ~ In s (entry_labs e)) by (apply (D (s, e) s); now left).
    destruct (pd_step_ok u o s e n n' O F1 G F2 F3 NS E) as (C & L & R).
    assert (K' : entries_ok es) by (split; [exact ND|split; [exact F|]]; intros q t I J; apply D; right; auto).
    assert (AB : forall t, 0 < t -> Z.abs (outlit o t) = t) by (intros t Ht; destruct o; cbn; lia).
    destruct C as [C|C].
    + (* constant: the next round returns it *)
      assert (X : r = n' /\ (stop = false -> es = [])).
      { destruct es as [|(s2, e2) es]; cbn [pd_loop] in H; [injection H as <- <-; auto|]. apply Forall_cons_iff in F. destruct F as ((_ & _ & _ & Q) & _). cbn [snd] in Q. rewrite Q, C in H. injection H as <- <-. split; [reflexivity|discriminate]. }
      destruct X as (-> & X). split; [left; exact C|]. split; [|split; [intros _; exact C|]].
      * intros _ z I. destruct n'; try discriminate. destruct I.
      * intros HO HI. apply R; intros; [apply (HO (s, e)); auto; now left|apply (HI (s, e)); auto; now left].
    + destruct (IH n' stop r K' C H) as (C2 & L2 & ST & R2'). split; [exact C2|]. split; [|split; [exact ST|]].
      * intros Q z I. destruct (L2 Q z I) as ([A|(q & A & B)] & NI).
        -- destruct (L z A) as (A1 & A2). split; [|cbn; intros [J|J]; [congruence|auto]]. destruct A1 as [A1|A1]; [auto|]. right. exists (s, e). split; [now left|exact A1].
        -- split; [right; exists q; split; [now right|exact B]|]. cbn. intros [J|J]; [|auto]. apply (D q s); [now right|now left|]. rewrite J. exact B.
      * intros HO HI. eapply R2_trans; [apply R|apply R2'].
        -- intros I. apply (HO (s, e)); auto. now left.
        -- intros I P. apply (HI (s, e)); auto. now left.
        -- intros q J I. apply HO; [now right|]. destruct (L _ I) as ([A|A] & _); [exact A|]. exfalso. apply (D (s, e) (fst q)); [now left|right; apply in_map; exact J|].
           rewrite Forall_forall in F. destruct (F q J) as (P & _). rewrite AB in A by exact P. exact A.
        -- intros q J I P. apply HI; auto; [now right|]. destruct (L _ I) as ([A|A] & _); [exact A|]. exfalso. apply (D (s, e) (fst q)); [now left|right; apply in_map; exact J|].
           rewrite Forall_forall in F. destruct (F q J) as (P' & _). rewrite Z.abs_opp, AB in A by exact P'. exact A.
Qed.
Lemma plane_definition_ok u o fuel es n r : o <> OUnd -> entries_ok es -> gd n -> plane_definition fuel o es n = Ok r ->
  (forall z, In z (lits r) -> (In z (lits n) \/ exists q, In q es /\ In (Z.abs z) (entry_labs (snd q))) /\ ~ In (Z.abs z) (map fst es)) /\
  ((forall q, In q es -> In (outlit o (fst q)) (lits n) -> outer_ok u (fst q) (snd q)) ->
   (forall q, In q es -> In (- outlit o (fst q)) (lits n) -> entry_pos (snd q) = true -> inner_ok u (fst q) (snd q)) ->
   R2 (dirn o) (eval u n) (eval u r)).
Proof.
  intros O K G H. unfold plane_definition in H. destruct (pd_loop o es n) as [(stop, n')|?|] eqn:E; try discriminate. cbn [bind] in H.
  destruct (pd_loop_ok u o O es n stop n' K G E) as (C & L & ST & R). destruct stop.
  - injection H as <-. specialize (ST eq_refl). split; [|exact R]. intros z I. destruct n'; try discriminate. destruct I.
  - assert (J : eval u r = eval u n').
    { apply (rjoin_sound u _ _ _ H). destruct C as [C|C]; [destruct n'; try discriminate; exact Logic.I|]. apply gd_nz in C. destruct n'; auto. }
    split; [|rewrite J; exact R]. intros z I. apply L; auto. apply (rjoin_lits_r z _ _ _ H I).
Qed.
