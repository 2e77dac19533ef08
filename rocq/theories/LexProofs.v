(** The tokens of a text determine what it denotes; normalisation keeps them. *)
From Coq Require Import Ascii String.
From Verif Require Import Prelude BoolSpec CellText LexSpec Writers ParenModel Wrap WritersProofs ParenProofs.

Definition ends_word (s : chars) : bool := head_word (rev s).

Lemma wordc_special c : wordc c = true -> special c = None /\ Ascii.eqb c " " = false.
Proof. unfold wordc. destruct (Ascii.eqb c " "), (special c); simpl; intros; try discriminate; auto. Qed.
Lemma special_blank c t : special c = Some t -> Ascii.eqb c " " = false.
Proof.
  unfold special. destruct (Ascii.eqb_spec c "("); [subst; reflexivity|].
  destruct (Ascii.eqb_spec c ")"); [subst; reflexivity|].
  destruct (Ascii.eqb_spec c ":"); [subst; reflexivity|discriminate].
Qed.
Lemma special_wordc c t : special c = Some t -> wordc c = false.
Proof. unfold wordc. intros ->. apply andb_false_r. Qed.
Lemma special_noword c t : special c = Some t -> forall w, t <> TWord w.
Proof.
  unfold special. intros H w ->. destruct (Ascii.eqb c "("), (Ascii.eqb c ")"), (Ascii.eqb c ":"); discriminate.
Qed.
Lemma not_wordc c : wordc c = false -> c = " "%char \/ exists t, special c = Some t.
Proof.
  unfold wordc. destruct (Ascii.eqb_spec c " "); auto. destruct (special c); eauto. discriminate.
Qed.

Lemma tokens_special c t s : special c = Some t -> tokens (c :: s) = t :: tokens s.
Proof. simpl. intros ->. reflexivity. Qed.
Lemma tokens_blank s : tokens (" "%char :: s) = tokens s.
Proof. reflexivity. Qed.
Lemma tokens_head s : head_word s = true -> exists w ts, tokens s = TWord w :: ts /\ w <> [].
Proof.
  destruct s as [|c r]; simpl; [discriminate|]. intros H. apply wordc_special in H. destruct H as (-> & ->).
  destruct (head_word r); [destruct (tokens r) as [|[| | |w] ts]|]; do 2 eexists; split; try reflexivity; discriminate.
Qed.
Lemma tokens_word c s : wordc c = true -> head_word s = false -> tokens (c :: s) = TWord [c] :: tokens s.
Proof. simpl. intros H ->. apply wordc_special in H. destruct H as (-> & ->). reflexivity. Qed.
Lemma tokens_glue c s w ts : wordc c = true -> head_word s = true -> tokens s = TWord w :: ts ->
  tokens (c :: s) = TWord (c :: w) :: ts.
Proof. simpl. intros H -> ->. apply wordc_special in H. destruct H as (-> & ->). reflexivity. Qed.

(** Replacing the tail by one with the same tokens. *)
Lemma tokens_cons c s s' : tokens s = tokens s' -> (wordc c = true -> head_word s = head_word s') ->
  tokens (c :: s) = tokens (c :: s').
Proof.
  intros H1 H2. simpl. destruct (special c) eqn:E; [congruence|].
  destruct (Ascii.eqb c " ") eqn:E2; auto. rewrite H1, H2; auto.
  unfold wordc. rewrite E, E2. reflexivity.
Qed.

Lemma head_app s s' : s <> [] -> head_word (s ++ s') = head_word s.
Proof. destruct s; simpl; congruence. Qed.
Lemma ends_cons c s : s <> [] -> ends_word (c :: s) = ends_word s.
Proof.
  unfold ends_word. simpl. intros H. destruct (rev s) eqn:E; auto.
  exfalso. apply H. rewrite <- (rev_involutive s), E. reflexivity.
Qed.

Lemma tokens_app a b : ends_word a && head_word b = false -> tokens (a ++ b) = tokens a ++ tokens b.
Proof.
  induction a as [|c a IH]; intros H; auto.
  destruct a as [|d a].
  - cbn [app]. destruct (wordc c) eqn:E.
    + assert (Hb : head_word b = false).
      { unfold ends_word in H. simpl in H. rewrite E in H. exact H. }
      rewrite tokens_word by auto. rewrite tokens_word by auto. reflexivity.
    + apply not_wordc in E. destruct E as [->|(t & E)]; auto.
      rewrite !(tokens_special c t) by auto. reflexivity.
  - rewrite ends_cons in H by discriminate. specialize (IH H).
    remember (d :: a) as a'. assert (HA : a' <> []) by (subst; discriminate).
    cbn [app]. destruct (wordc c) eqn:E.
    + destruct (head_word a') eqn:E2.
      * destruct (tokens_head _ E2) as (w & ts & E3 & _).
        rewrite (tokens_glue c a' w ts), (tokens_glue c (a' ++ b) w (ts ++ tokens b)); auto.
        -- rewrite head_app by auto. exact E2.
        -- rewrite IH, E3. reflexivity.
      * rewrite !tokens_word; auto; [rewrite IH; reflexivity|rewrite head_app by auto; exact E2].
    + apply not_wordc in E. destruct E as [->|(t & E)].
      * rewrite !tokens_blank. exact IH.
      * rewrite !(tokens_special c t) by auto. rewrite IH. reflexivity.
Qed.

Lemma head_blanks k s : head_word (blanks (S k) ++ s) = false.
Proof. reflexivity. Qed.
Lemma tokens_blanks_l k s : tokens (blanks k ++ s) = tokens s.
Proof. induction k; simpl; auto. Qed.
Lemma tokens_blanks k : tokens (blanks k) = [].
Proof. induction k; simpl; auto. Qed.
Lemma tokens_blanks_r k s : tokens (s ++ blanks k) = tokens s.
Proof.
  rewrite tokens_app, tokens_blanks, app_nil_r; auto. destruct k; simpl; apply andb_false_r.
Qed.

(** * Inversion *)
Lemma inv_nil s : tokens s = [] -> exists k, s = blanks k.
Proof.
  induction s as [|c s IH]; intros H; [exists O; reflexivity|].
  destruct (wordc c) eqn:E.
  - destruct (tokens_head (c :: s) E) as (w & ts & E2 & _). congruence.
  - apply not_wordc in E. destruct E as [->|(t & E)].
    + destruct (IH H) as (k & ->). exists (S k). reflexivity.
    + rewrite (tokens_special c t) in H by auto. discriminate.
Qed.
Lemma inv_special s c t ts : special c = Some t -> tokens s = t :: ts ->
  exists k s', s = blanks k ++ c :: s' /\ tokens s' = ts.
Proof.
  intros HC. induction s as [|d s IH]; intros H; [discriminate|].
  destruct (wordc d) eqn:E.
  - destruct (tokens_head (d :: s) E) as (w & ts' & E2 & _).
    rewrite E2 in H. injection H as H _. exfalso. eapply special_noword; eauto.
  - apply not_wordc in E. destruct E as [->|(t' & E)].
    + destruct (IH H) as (k & s' & -> & H2). exists (S k), s'. auto.
    + rewrite (tokens_special d t') in H by auto. injection H as -> H. exists O, s. split; auto.
      simpl. f_equal. revert HC E. unfold special.
      destruct (Ascii.eqb_spec c "("), (Ascii.eqb_spec c ")"), (Ascii.eqb_spec c ":"),
        (Ascii.eqb_spec d "("), (Ascii.eqb_spec d ")"), (Ascii.eqb_spec d ":"); intros; congruence.
Qed.
Lemma inv_word s w ts : tokens s = TWord w :: ts ->
  exists k s', s = blanks k ++ w ++ s' /\ tokens s' = ts /\ head_word s' = false /\ w <> [] /\ Forall (fun c => wordc c = true) w.
Proof.
  revert w ts. induction s as [|d s IH]; intros w ts H; [discriminate|].
  destruct (wordc d) eqn:E.
  - destruct (head_word s) eqn:E2.
    + destruct (tokens_head s E2) as (w' & ts' & E3 & _). rewrite (tokens_glue d s w' ts') in H by auto.
      injection H as <- <-. destruct (IH _ _ E3) as (k & s' & H1 & H2 & H3 & H4 & H5).
      destruct k; [|subst s; discriminate]. exists O, s'. subst s. repeat split; auto. discriminate.
    + rewrite tokens_word in H by auto. injection H as <- <-. exists O, s. repeat split; auto. discriminate.
  - apply not_wordc in E. destruct E as [->|(t' & E)].
    + destruct (IH _ _ H) as (k & s' & -> & H2). exists (S k), s'. auto.
    + rewrite (tokens_special d t') in H by auto. injection H as -> H. exfalso. eapply special_noword; eauto.
Qed.

Lemma tokens_run w s : Forall (fun c => wordc c = true) w -> w <> [] -> head_word s = false ->
  tokens (w ++ s) = TWord w :: tokens s.
Proof.
  induction 1 as [|c w Hc Hw IH]; intros H1 H2; [congruence|]. cbn [app].
  destruct w as [|d w].
  - apply tokens_word; auto.
  - inversion Hw; subst. apply tokens_glue; auto. apply IH; auto. discriminate.
Qed.
Lemma ends_app a b : b <> [] -> ends_word (a ++ b) = ends_word b.
Proof.
  intros H. unfold ends_word. rewrite rev_app_distr. destruct (rev b) eqn:E; auto.
  exfalso. apply H. rewrite <- (rev_involutive b), E. reflexivity.
Qed.
Lemma ends_noword a c : wordc c = false -> ends_word (a ++ [c]) = false.
Proof. intros H. rewrite ends_app by discriminate. unfold ends_word. simpl. auto. Qed.

Lemma tokens_split A : forall s B, tokens s = A ++ B ->
  exists s1 s2, s = s1 ++ s2 /\ tokens s1 = A /\ tokens s2 = B /\ ends_word s1 && head_word s2 = false.
Proof.
  induction A as [|t A IH]; intros s B H.
  - exists [], s. auto.
  - cbn [app] in H. destruct (match t with TWord _ => true | _ => false end) eqn:ET.
    + destruct t as [| | |w]; try discriminate.
      apply inv_word in H. destruct H as (k & s' & -> & H1 & H2 & H3 & H4).
      destruct (IH _ _ H1) as (s1 & s2 & -> & T1 & T2 & T3).
      exists (blanks k ++ w ++ s1), s2. rewrite <- !app_assoc. split; auto. split; [|split; auto].
      * rewrite tokens_blanks_l, tokens_run; auto; [congruence|]. destruct s1; auto.
      * destruct s1 as [|d s1].
        -- simpl in H2. rewrite H2. apply andb_false_r.
        -- rewrite !ends_app; auto; try discriminate. intros E; apply app_eq_nil in E; destruct E; discriminate.
    + assert (HC : exists c, special c = Some t).
      { destruct t; [exists "("%char|exists ")"%char|exists ":"%char|discriminate]; reflexivity. }
      destruct HC as (c & HC). destruct (inv_special s c t _ HC H) as (k & s' & -> & H1).
      destruct (IH _ _ H1) as (s1 & s2 & -> & T1 & T2 & T3).
      exists (blanks k ++ c :: s1), s2. rewrite <- app_assoc. split; auto. split; [|split; auto].
      * rewrite tokens_blanks_l, (tokens_special c t); auto. congruence.
      * rewrite ends_app by discriminate. destruct s1 as [|d s1].
        -- unfold ends_word. simpl. rewrite (special_wordc c t); auto.
        -- rewrite ends_cons by discriminate. exact T3.
Qed.

(** * Tokens determine the denotation *)
Lemma digits_word ds : Forall (fun c => wordc c = true) (digits ds).
Proof. induction ds; simpl; constructor; auto. Qed.
Lemma digits_nonnil ds : ds <> Decimal.Nil -> digits ds <> [].
Proof. destruct ds; simpl; intros; congruence. Qed.
Lemma num_word sg ds pre post : grammatical mcnp (TNum pre sg ds post) ->
  Forall (fun c => wordc c = true) (sg ++ digits ds) /\ sg ++ digits ds <> [].
Proof.
  intros (H1 & H2 & _). split.
  - apply Forall_app. split; [|apply digits_word]. destruct H1 as [->|[->| ->]]; simpl; repeat constructor.
  - intros E. apply app_eq_nil in E. destruct E as (_ & E). revert E. apply digits_nonnil; auto.
Qed.
Lemma word_ends w : Forall (fun c => wordc c = true) w -> w <> [] -> ends_word w = true.
Proof.
  intros H1 H2. unfold ends_word. assert (H3 : rev w <> []).
  { intros E. apply H2. rewrite <- (rev_involutive w), E. reflexivity. }
  apply Forall_rev in H1. destruct H1; simpl; auto.
Qed.
Lemma word_head w : Forall (fun c => wordc c = true) w -> w <> [] -> head_word w = true.
Proof. intros H1 H2. destruct H1; simpl; congruence. Qed.

Lemma text_nonempty t : grammatical mcnp t -> text mcnp t <> [].
Proof.
  induction t; intros H E; cbn [text] in E.
  - apply num_word in H. destruct H as (_ & H). apply app_eq_nil in E. destruct E as (_ & E).
    apply H. cbn [surf_prefix mcnp app] in E. rewrite app_assoc in E. apply app_eq_nil in E. tauto.
  - apply app_eq_nil in E. destruct E; discriminate.
  - simpl in H. apply app_eq_nil in E. tauto.
  - simpl in H. apply app_eq_nil in E. tauto.
Qed.

Lemma ends_text t : grammatical mcnp t -> (ends_word (text mcnp t) = true <-> ends_num t).
Proof.
  induction t as [pre sg ds post|pre t IH post|a IHa b IHb|a IHa b IHb]; intros H; cbn [text ends_num].
  - apply num_word in H. destruct H as (H1 & H2). cbn [surf_prefix mcnp app]. rewrite (app_assoc sg).
    destruct post as [|p].
    + split; auto. intros _. simpl. rewrite app_nil_r, ends_app by auto. apply word_ends; auto.
    + split; [|discriminate]. replace (S p) with (p + 1)%nat by lia. rewrite blanks_app; change (blanks 1) with [" "%char]; rewrite !app_assoc, ends_noword; auto. discriminate.
  - destruct post as [|p].
    + simpl blanks. rewrite app_nil_r. change (cs ")") with [")"%char]. rewrite !app_assoc, ends_noword by auto. split; [discriminate|tauto].
    + replace (S p) with (p + 1)%nat by lia. rewrite blanks_app; change (blanks 1) with [" "%char]; rewrite !app_assoc, ends_noword by auto. split; [discriminate|tauto].
  - simpl in H. rewrite app_assoc, ends_app; [tauto|]. apply text_nonempty; tauto.
  - simpl in H. rewrite app_assoc, ends_app; [tauto|]. apply text_nonempty; tauto.
Qed.
Lemma head_text t : grammatical mcnp t -> (head_word (text mcnp t) = true <-> starts_num t).
Proof.
  induction t as [pre sg ds post|pre t IH post|a IHa b IHb|a IHa b IHb]; intros H; cbn [text starts_num].
  - apply num_word in H. destruct H as (H1 & H2). cbn [surf_prefix mcnp app]. rewrite (app_assoc sg).
    destruct pre as [|p].
    + split; auto. intros _. simpl. rewrite head_app by auto. apply word_head; auto.
    + split; discriminate.
  - destruct pre; simpl; split; try discriminate; tauto.
  - simpl in H. rewrite head_app; [tauto|]. apply text_nonempty; tauto.
  - simpl in H. rewrite head_app; [tauto|]. apply text_nonempty; tauto.
Qed.

Lemma tokens_tree t : grammatical mcnp t -> forall s, tokens s = tokens (text mcnp t) ->
  exists t', text mcnp t' = s /\ grammatical mcnp t' /\ (is_or t' <-> is_or t) /\ (forall v, sem v t' = sem v t) /\ numbers t' = numbers t.
Proof.
  induction t as [pre sg ds post|pre t IH post|a IHa b IHb|a IHa b IHb]; intros G s H; cbn [text] in H.
  - assert (HW := num_word _ _ _ _ G). destruct HW as (W1 & W2).
    cbn [surf_prefix mcnp app] in H. rewrite (app_assoc sg), tokens_blanks_l, tokens_blanks_r in H.
    rewrite <- (app_nil_r (sg ++ digits ds)), tokens_run in H by auto.
    apply inv_word in H. destruct H as (k & s' & -> & H1 & _). apply inv_nil in H1. destruct H1 as (j & ->).
    exists (TNum k sg ds j). repeat split; try tauto; try apply G. simpl. rewrite <- app_assoc. reflexivity.
  - rewrite tokens_blanks_l in H. change (cs "(" ++ ?x) with ("("%char :: x) in H.
    rewrite (tokens_special "(" TOpen) in H by reflexivity.
    rewrite tokens_app in H by (simpl; apply andb_false_r).
    change (cs ")" ++ ?x) with (")"%char :: x) in H. rewrite (tokens_special ")" TClose), tokens_blanks in H by reflexivity.
    apply (inv_special s "(" TOpen) in H; [|reflexivity]. destruct H as (k & s' & -> & H).
    apply tokens_split in H. destruct H as (s1 & s2 & -> & T1 & T2 & T3).
    apply (inv_special s2 ")" TClose) in T2; [|reflexivity]. destruct T2 as (j & s3 & -> & H).
    apply inv_nil in H. destruct H as (i & ->).
    destruct (IH G (s1 ++ blanks j)) as (t' & E & G' & _ & S' & N'); [rewrite tokens_blanks_r; auto|].
    exists (TPar k t' i). split; [|repeat split; auto; tauto].
    cbn [text]. rewrite E. rewrite <- !app_assoc. reflexivity.
  - destruct G as (Ga & Gb & Na & Nb & Nn). cbn [and_sign mcnp app] in *.
    rewrite tokens_app in H.
    2:{ apply andb_false_iff. destruct (ends_word (text mcnp a)) eqn:E1; auto.
        destruct (head_word (text mcnp b)) eqn:E2; auto. exfalso. apply Nn; auto.
        apply ends_text in E1; auto. apply head_text in E2; auto. }
    apply tokens_split in H. destruct H as (s1 & s2 & -> & T1 & T2 & T3).
    destruct (IHa Ga s1 T1) as (a' & Ea & Ga' & Oa & Sa & Ma). destruct (IHb Gb s2 T2) as (b' & Eb & Gb' & Ob & Sb & Mb).
    exists (TAnd a' b'). split; [cbn [text]; rewrite Ea, Eb; reflexivity|].
    split; [|split; [simpl; tauto|split; [intros v; simpl; rewrite Sa, Sb; reflexivity|simpl; rewrite Ma, Mb; reflexivity]]].
    simpl. repeat (split; [tauto|]). intros _ (X & Y).
    apply (ends_text a' Ga') in X. apply (head_text b' Gb') in Y. rewrite Ea in X. rewrite Eb in Y.
    rewrite X, Y in T3. discriminate.
  - destruct G as (Ga & Gb). cbn [or_sign mcnp] in *. change (cs ":" ++ ?x) with (":"%char :: x) in H.
    rewrite tokens_app in H by (simpl; apply andb_false_r).
    rewrite (tokens_special ":" TColon) in H by reflexivity.
    apply tokens_split in H. destruct H as (s1 & s2 & -> & T1 & T2 & T3).
    apply (inv_special s2 ":" TColon) in T2; [|reflexivity]. destruct T2 as (j & s3 & -> & T2).
    destruct (IHa Ga (s1 ++ blanks j)) as (a' & Ea & Ga' & Oa & Sa & Ma); [rewrite tokens_blanks_r; auto|].
    destruct (IHb Gb s3 T2) as (b' & Eb & Gb' & Ob & Sb & Mb).
    exists (TOr a' b'). split; [cbn [text]; rewrite Ea, Eb; cbn [or_sign mcnp]; rewrite <- !app_assoc; reflexivity|].
    split; [simpl; auto|split; [simpl; tauto|split; [intros v; simpl; rewrite Sa, Sb; reflexivity|simpl; rewrite Ma, Mb; reflexivity]]].
Qed.

Lemma tokens_denotes s s' f : tokens s' = tokens s -> denotes mcnp s f -> denotes mcnp s' f.
Proof.
  intros H (t & G & <- & S). destruct (tokens_tree t G s' H) as (t' & E & G' & _ & S' & _).
  exists t'. repeat split; auto. intros v. rewrite S'. auto.
Qed.
Lemma tokens_mentions s s' Q : tokens s' = tokens s -> mentions mcnp s Q -> mentions mcnp s' Q.
Proof.
  intros H (t & G & <- & S). destruct (tokens_tree t G s' H) as (t' & E & G' & _ & _ & N).
  exists t'. split; auto. split; auto. rewrite N. auto.
Qed.

(** * Normalisation *)
Lemma collapse_tokens s : tokens (collapse false s) = tokens s /\ tokens (collapse true s) = tokens s /\
  head_word (collapse false s) = head_word s.
Proof.
  induction s as [|c s (H1 & H2 & H3)]; auto. cbn [collapse].
  destruct (Ascii.eqb_spec c " ").
  - subst. auto.
  - split; [|split]; auto; apply tokens_cons; auto.
Qed.

Lemma tight_tokens x t : special x = Some t -> forall s,
  (forall k, tokens (tight x false k s) = tokens s) /\ tokens (tight x true 0 s) = tokens s /\
  head_word (tight x false 0 s) = head_word s /\ (forall k, head_word (tight x false (S k) s) = false \/
     exists r, tight x false (S k) s = x :: r).
Proof.
  intros HX. induction s as [|c s (H1 & H2 & H3 & H4)].
  - repeat split; auto. intros; apply tokens_blanks.
  - cbn [tight]. destruct (Ascii.eqb_spec c " ").
    + subst c. repeat split; auto. destruct (H4 O) as [E|(r & E)]; rewrite E; auto.
      simpl. apply (special_wordc x t HX).
    + destruct (Ascii.eqb_spec c x).
      * subst c. repeat split; intros; try (right; eexists; reflexivity); auto;
        rewrite !(tokens_special x t) by auto; congruence.
      * assert (HH : tokens (c :: tight x false 0 s) = tokens (c :: s)) by (apply tokens_cons; auto).
        repeat split; auto. intros k. rewrite tokens_blanks_l. exact HH.
Qed.

Lemma spread_tokens p q : (forall c d, p c = true -> q d = true -> wordc c && wordc d = false) ->
  forall s, tokens (spread p q s) = tokens s /\ head_word (spread p q s) = head_word s.
Proof.
  intros HP. induction s as [|c s (H1 & H2)]; auto. cbn [spread].
  split; [|reflexivity].
  destruct (p c && match s with [] => false | d :: _ => q d end) eqn:E.
  - destruct s as [|d s]; [rewrite andb_false_r in E; discriminate|].
    apply andb_true_iff in E. destruct E as (E1 & E2). specialize (HP c d E1 E2).
    destruct (wordc c) eqn:EW.
    + rewrite (tokens_word c (_ :: _)), tokens_blank, H1 by auto. rewrite (tokens_word c (d :: s)); auto.
    + apply not_wordc in EW. destruct EW as [->|(t & EW)]; [rewrite !tokens_blank; auto|].
      rewrite !(tokens_special c t) by auto. rewrite tokens_blank. congruence.
  - apply tokens_cons; auto.
Qed.

(** Only white space character: the blank. *)
Definition blank_only (s : chars) : Prop := Forall (fun c => is_space c = true -> c = " "%char) s.

Lemma drop_while_blanks s : blank_only s -> exists k, s = blanks k ++ drop_while is_space s.
Proof.
  induction 1 as [|c s Hc Hs (k & IH)]; [exists O; reflexivity|]. cbn [drop_while].
  destruct (is_space c) eqn:E; [|exists O; reflexivity].
  exists (S k). rewrite (Hc eq_refl). simpl. f_equal. exact IH.
Qed.
Lemma rev_blanks k : rev (blanks k) = blanks k.
Proof.
  assert (H : forall k, blanks k ++ [" "%char] = blanks (S k)).
  { intros j. induction j as [|j IH]; auto. change (blanks (S j)) with (" "%char :: blanks j). cbn [app]. rewrite IH. reflexivity. }
  induction k; auto. change (blanks (S k)) with (" "%char :: blanks k) at 1. cbn [rev]. rewrite IHk. apply H.
Qed.
Lemma strip_blanks s : blank_only s -> exists k j, s = blanks k ++ strip is_space s ++ blanks j.
Proof.
  intros H. destruct (drop_while_blanks s H) as (k & E).
  assert (H' : blank_only (rev (drop_while is_space s))).
  { apply Forall_rev. rewrite E in H. apply Forall_app in H. tauto. }
  destruct (drop_while_blanks _ H') as (j & E2). exists k, j. unfold strip.
  rewrite E at 1. f_equal. rewrite <- (rev_involutive (drop_while is_space s)) at 1.
  rewrite E2 at 1. rewrite rev_app_distr, rev_blanks. reflexivity.
Qed.

Lemma spread_tok p q s : (forall c d, p c = true -> q d = true -> wordc c && wordc d = false) ->
  tokens (spread p q s) = tokens s.
Proof. intros H. apply spread_tokens; auto. Qed.
Lemma tight_tok x t s : special x = Some t -> tokens (tight x false 0 s) = tokens s.
Proof. intros H. apply (tight_tokens x t H). Qed.

Lemma normal_tokens s : blank_only s -> tokens (normal s) = tokens s.
Proof.
  intros H. unfold normal. cbv zeta.
  rewrite spread_tok, spread_tok, spread_tok, spread_tok.
  2-5: intros c d; first [destruct (Ascii.eqb_spec ")" c); [subst; intros; reflexivity|discriminate]
    |intros _; destruct (Ascii.eqb_spec "(" d); [subst; intros _; apply andb_false_r|discriminate]].
  rewrite (tight_tok ":" TColon), (tight_tok ")" TClose), (tight_tok "(" TOpen) by reflexivity.
  rewrite (proj1 (collapse_tokens _)).
  destruct (strip_blanks s H) as (k & j & E). rewrite E at 2. rewrite tokens_blanks_l, tokens_blanks_r. reflexivity.
Qed.

(** normal introduces no new line. *)
Lemma text_blank_only t : grammatical mcnp t -> blank_only (text mcnp t).
Proof.
  assert (HB : forall k, blank_only (blanks k)) by (induction k; constructor; auto).
  assert (HD : forall ds, blank_only (digits ds)).
  { induction ds; simpl; constructor; auto; discriminate. }
  unfold blank_only in *.
  induction t; simpl; intros G; repeat (apply Forall_app; split); auto; try tauto.
  - destruct G as ([->|[->| ->]] & _); repeat constructor; discriminate.
  - constructor; [discriminate|]. repeat (apply Forall_app; split); auto. constructor; [discriminate|auto].
  - constructor; [discriminate|]. tauto.
Qed.
