(** The terms extracted by outer_terms, seen on trees. *)
From Coq Require Import Ascii String Decimal DecimalZ.
From Verif Require Import Prelude BoolSpec BoolSeq CellText ParenModel BoolProofs WritersProofs ParenProofs ParenRemove.

Ltac digit H := apply digit_cases in H; simpl in H;
  repeat match type of H with _ \/ _ => destruct H as [H|H] end; [subst ..|tauto].

Lemma zero_open c : c <> "("%char -> zero_fill c <> "("%char. Proof. discriminate. Qed.
Lemma zero_close c : c <> ")"%char -> zero_fill c <> ")"%char. Proof. discriminate. Qed.
Lemma zero_caret c : c <> "^"%char -> zero_fill c <> "^"%char. Proof. discriminate. Qed.
Lemma zero_colon c : zero_fill c <> ":"%char. Proof. discriminate. Qed.

(** Is the outermost operator (under parentheses) a union? *)
Fixpoint tv (t : tree) : bool :=
  match t with
  | TNum _ _ _ _ => false
  | TPar _ t _ => tv t
  | TAnd _ _ => false
  | TOr _ _ => true
  end.
Lemma vis_tv x : closed x -> G false x -> vis x = tv (erase x).
Proof.
  induction x; simpl; intros C H; auto; try tauto.
  - destruct H as (H & _). discriminate.
  - destruct H as (H1 & H2 & H3), C as (C1 & C2). rewrite (G_true_vis _ C1 H1), (G_true_vis _ C2 H2). auto.
Qed.

(* ------------------------------------------------------------------ *)
(** * Unions *)

Definition piece := (chars * tree * chars)%type.
Definition ptext (p : piece) : chars := let '(L, t, R) := p in L ++ text mcnp t ++ R.
Definition ptree (p : piece) : tree := let '(L, t, R) := p in t.
(** A piece of text that is an expression with left over parentheses. *)
Definition pgood (p : piece) : Prop :=
  let '(L, t, R) := p in wl L /\ wr R /\ onesided L R /\ grammatical mcnp t.

Fixpoint oterms (L : chars) (x : xt) (R : chars) : list piece :=
  match x with
  | XOr a b => oterms L a [] ++ oterms [] b R
  | XFlat pre t post =>
      if vis t then oterms (L ++ blanks pre ++ cs "(") t (cs ")" ++ blanks post ++ R)
      else [(L, erase x, R)]
  | _ => [(L, erase x, R)]
  end.

Definition nocol (l : list pc) : Prop := existsb (is_c ":") l = false.
Lemma nocol_app a b : nocol (a ++ b) <-> nocol a /\ nocol b.
Proof. unfold nocol. rewrite existsb_app. apply orb_false_iff. Qed.

Lemma split_nocol l : nocol l -> split_colon l = [map fst l].
Proof.
  unfold nocol. induction l as [|p l IH]; simpl; auto. intros H. apply orb_false_iff in H.
  destruct H as (-> & H). rewrite IH; auto.
Qed.
Lemma split_nonnil l : split_colon l <> [].
Proof. induction l as [|p l IH]; simpl; [discriminate|]. destruct (is_c ":" p); [discriminate|]. destruct (split_colon l); congruence. Qed.
Lemma split_app a p b : is_c ":" p = true -> split_colon (a ++ p :: b) = split_colon a ++ split_colon b.
Proof.
  intros H. induction a as [|q a IH]; simpl.
  - rewrite H. reflexivity.
  - destruct (is_c ":" q); [rewrite IH; reflexivity|]. rewrite IH.
    pose proof (split_nonnil a). destruct (split_colon a) as [|t ts]; [congruence|]. reflexivity.
Qed.

Notation rd := (render zero_fill).
Lemma colon_rd x : nums x -> existsb (is_c ":") (rd x) = vis x.
Proof. apply colon_render. apply zero_colon. Qed.

Lemma split_oterms x : forall Lp Rp, closed x -> G false x -> nums x -> nocol Lp -> nocol Rp ->
  split_colon (Lp ++ rd x ++ Rp) = map ptext (oterms (map fst Lp) x (map fst Rp)).
Proof.
  assert (base : forall x Lp Rp, nums x -> vis x = false -> nocol Lp -> nocol Rp ->
     split_colon (Lp ++ rd x ++ Rp) = [ptext (map fst Lp, erase x, map fst Rp)]).
  { clear x. intros x Lp Rp N V H1 H2. rewrite split_nocol.
    - rewrite !map_app, fst_render. reflexivity.
    - rewrite !nocol_app. repeat split; auto. unfold nocol. rewrite colon_rd; auto. }
  induction x; intros Lp Rp C HG N HL HR.
  - apply base; auto.
  - simpl in HG. destruct HG; discriminate.
  - simpl in C. tauto.
  - simpl oterms. destruct (vis x) eqn:E; [|apply base; auto].
    simpl rd. simpl in C, HG, N.
    replace (Lp ++ (bl pre ++ ("("%char, " "%char) :: rd x ++ (")"%char, " "%char) :: bl post) ++ Rp)
      with ((Lp ++ bl pre ++ [("("%char, " "%char)]) ++ rd x ++ ((")"%char, " "%char) :: bl post ++ Rp))
      by (rewrite <- !app_assoc; simpl; rewrite <- !app_assoc; reflexivity).
    rewrite IHx; try tauto.
    + rewrite !map_app, fst_bl. simpl. rewrite !map_app, fst_bl. reflexivity.
    + rewrite !nocol_app. repeat split; auto. apply colon_bl.
    + change ((")"%char, " "%char) :: bl post ++ Rp) with ([(")"%char, " "%char)] ++ bl post ++ Rp).
      rewrite !nocol_app. repeat split; auto. apply colon_bl.
  - apply base; auto. rewrite (vis_tv _ C HG). reflexivity.
  - simpl oterms. simpl rd. simpl in C, HG, N.
    replace (Lp ++ (rd x1 ++ (":"%char, ":"%char) :: rd x2) ++ Rp)
      with ((Lp ++ rd x1 ++ []) ++ (":"%char, ":"%char) :: ([] ++ rd x2 ++ Rp))
      by (rewrite app_nil_r, <- !app_assoc; reflexivity).
    rewrite split_app by reflexivity. rewrite IHx1, IHx2; try tauto; try reflexivity.
    rewrite map_app. reflexivity.
Qed.

Lemma oterms_sem v x : forall L R, sem v (erase x) = existsb (fun p => sem v (ptree p)) (oterms L x R).
Proof.
  induction x; intros L R; simpl; rewrite ?orb_false_r; auto.
  - destruct (vis x); simpl; rewrite ?orb_false_r; auto.
  - rewrite existsb_app, <- IHx1, <- IHx2. reflexivity.
Qed.

Lemma wl_app a b : wl (a ++ b) <-> wl a /\ wl b. Proof. apply Forall_app. Qed.
Lemma wr_app a b : wr (a ++ b) <-> wr a /\ wr b. Proof. apply Forall_app. Qed.
Lemma wl_bl n : wl (blanks n). Proof. apply blanks_Forall. auto. Qed.
Lemma wr_bl n : wr (blanks n). Proof. apply blanks_Forall. auto. Qed.

Lemma oterms_good x : forall L R, closed x -> G false x -> grammatical mcnp (erase x) ->
  wl L -> wr R -> (onesided L R \/ vis x = true) ->
  Forall (fun p => pgood p /\ tv (ptree p) = false) (oterms L x R).
Proof.
  assert (base : forall x L R, closed x -> G false x -> grammatical mcnp (erase x) ->
    wl L -> wr R -> (onesided L R \/ vis x = true) -> vis x = false ->
    Forall (fun p => pgood p /\ tv (ptree p) = false) [(L, erase x, R)]).
  { clear x. intros x L R C HG HT HL HR HO HV. constructor; [|constructor]. split.
    - repeat split; auto. destruct HO; auto. congruence.
    - simpl. rewrite <- vis_tv; auto. }
  induction x; intros L R C HG HT HL HR HO.
  - apply (base (XNum pre sg ds post)); auto.
  - simpl in HG. destruct HG; discriminate.
  - simpl in C. tauto.
  - simpl oterms. destruct (vis x) eqn:E; [|apply (base (XFlat pre x post)); auto].
    simpl in C, HG, HT. apply IHx; try tauto.
    + rewrite !wl_app. repeat split; auto using wl_bl. constructor; [auto|constructor].
    + constructor; [auto|]. apply wr_app. auto using wr_bl.
  - apply (base (XAnd x1 x2)); auto. rewrite (vis_tv _ C HG). reflexivity.
  - simpl in C, HG, HT |- *. apply Forall_app. split.
    + apply IHx1; try tauto; [constructor|]. left. right. constructor.
    + apply IHx2; try tauto; [constructor|]. left. left. constructor.
Qed.

Lemma oterms_length x : forall L R, closed x -> G false x ->
  Forall (fun p => (length (ptext p) + (if vis x then 1 else 0) <= length (L ++ text mcnp (erase x) ++ R))%nat)
         (oterms L x R).
Proof.
  induction x; intros L R C HG; simpl oterms; try (repeat constructor; simpl; lia).
  - simpl in C. tauto.
  - destruct (vis x) eqn:E; [|repeat constructor; simpl; rewrite E; simpl; lia].
    simpl in C, HG. simpl vis. rewrite E in *. eapply Forall_impl; [|apply IHx; tauto]. intros p H.
    simpl in H |- *. rewrite !app_length in *. simpl in *. rewrite !app_length in *. simpl in *. lia.
  - repeat constructor. rewrite (vis_tv _ C HG). simpl. lia.
  - simpl in C, HG. simpl vis. apply Forall_app. split.
    + eapply Forall_impl; [|apply IHx1; tauto]. intros p H. simpl in H |- *.
      rewrite !app_length in *. simpl in *. rewrite ?app_length in *. simpl in *. lia.
    + eapply Forall_impl; [|apply IHx2; tauto]. intros p H. simpl in H |- *.
      rewrite !app_length in *. simpl in *. rewrite ?app_length in *. simpl in *. lia.
Qed.

(* ------------------------------------------------------------------ *)
(** * Stripping blanks *)

Fixpoint unpad_l (t : tree) : tree :=
  match t with
  | TNum _ sg ds post => TNum 0 sg ds post
  | TPar _ t post => TPar 0 t post
  | TAnd a b => TAnd (unpad_l a) b
  | TOr a b => TOr (unpad_l a) b
  end.
Fixpoint unpad_r (t : tree) : tree :=
  match t with
  | TNum pre sg ds _ => TNum pre sg ds 0
  | TPar pre t _ => TPar pre t 0
  | TAnd a b => TAnd a (unpad_r b)
  | TOr a b => TOr a (unpad_r b)
  end.
Lemma unpad_l_isor t : is_or (unpad_l t) <-> is_or t. Proof. destruct t; simpl; tauto. Qed.
Lemma unpad_r_isor t : is_or (unpad_r t) <-> is_or t. Proof. destruct t; simpl; tauto. Qed.
Lemma unpad_l_ends t : ends_num (unpad_l t) <-> ends_num t. Proof. induction t; simpl; tauto. Qed.
Lemma unpad_r_starts t : starts_num (unpad_r t) <-> starts_num t. Proof. induction t; simpl; tauto. Qed.
Lemma unpad_l_gram t : grammatical mcnp t -> grammatical mcnp (unpad_l t).
Proof. induction t; simpl; auto; intros H; rewrite ?unpad_l_isor, ?unpad_l_ends; tauto. Qed.
Lemma unpad_r_gram t : grammatical mcnp t -> grammatical mcnp (unpad_r t).
Proof. induction t; simpl; auto; intros H; rewrite ?unpad_r_isor, ?unpad_r_starts; tauto. Qed.
Lemma unpad_l_sem v t : sem v (unpad_l t) = sem v t. Proof. induction t; simpl; congruence. Qed.
Lemma unpad_r_sem v t : sem v (unpad_r t) = sem v t. Proof. induction t; simpl; congruence. Qed.
Lemma unpad_l_tv t : tv (unpad_l t) = tv t. Proof. induction t; simpl; congruence. Qed.
Lemma unpad_r_tv t : tv (unpad_r t) = tv t. Proof. induction t; simpl; congruence. Qed.

Lemma unpad_l_numbers t : numbers (unpad_l t) = numbers t. Proof. induction t; simpl; congruence. Qed.
Lemma unpad_r_numbers t : numbers (unpad_r t) = numbers t. Proof. induction t; simpl; congruence. Qed.

Lemma drop_bl n l : drop_while is_space (blanks n ++ l) = drop_while is_space l.
Proof. unfold blanks. induction n; simpl; auto. Qed.
Lemma digit_nospace c : is_digit c = true -> is_space c = false.
Proof. intros H. digit H; reflexivity. Qed.
Lemma num_nospace sg ds l : good_num sg ds ->
  drop_while is_space (sg ++ digits ds ++ l) = sg ++ digits ds ++ l.
Proof.
  intros (S & D). destruct S as [->|[->| ->]]; try reflexivity.
  destruct ds; try congruence; reflexivity.
Qed.
Lemma num_nospace_r sg ds l : good_num sg ds ->
  drop_while is_space (rev (sg ++ digits ds) ++ l) = rev (sg ++ digits ds) ++ l.
Proof.
  intros (S & D). destruct (digits_last ds D) as (m & c & E & Hc). rewrite E, app_assoc, rev_app_distr.
  simpl. rewrite (digit_nospace c Hc). reflexivity.
Qed.
Lemma gram_num pre sg ds post : grammatical mcnp (TNum pre sg ds post) -> good_num sg ds.
Proof. simpl. unfold good_num. tauto. Qed.

Lemma drop_text_l t : grammatical mcnp t -> forall l,
  drop_while is_space (text mcnp t ++ l) = text mcnp (unpad_l t) ++ l.
Proof.
  induction t; intros H l.
  - apply gram_num in H. simpl. rewrite <- !app_assoc, drop_bl, num_nospace; auto.
  - simpl. rewrite <- !app_assoc, drop_bl. simpl. rewrite <- !app_assoc. reflexivity.
  - simpl in H |- *. rewrite <- !app_assoc. apply IHt1. tauto.
  - simpl in H |- *. rewrite <- !app_assoc. apply IHt1. tauto.
Qed.
Lemma rev_blanks n : rev (blanks n) = blanks n.
Proof.
  unfold blanks. assert (H : forall m, repeat " "%char m ++ [" "%char] = " "%char :: repeat " "%char m).
  { induction m; simpl; congruence. }
  induction n; simpl; auto. rewrite IHn. apply H.
Qed.
Lemma drop_text_r t : grammatical mcnp t -> forall l,
  drop_while is_space (rev (text mcnp t) ++ l) = rev (text mcnp (unpad_r t)) ++ l.
Proof.
  induction t; intros H l.
  - apply gram_num in H. simpl. rewrite !rev_app_distr. rewrite rev_blanks. rewrite <- !app_assoc.
    rewrite drop_bl. simpl. rewrite (app_assoc (rev (digits ds))), <- rev_app_distr.
    apply num_nospace_r; auto.
  - simpl. rewrite !rev_app_distr. simpl. rewrite !rev_app_distr. simpl. rewrite rev_blanks, <- !app_assoc, drop_bl.
    reflexivity.
  - simpl in H |- *. rewrite !rev_app_distr, <- !app_assoc. apply IHt2. tauto.
  - simpl in H |- *. rewrite !rev_app_distr. simpl. rewrite <- !app_assoc. apply IHt2. tauto.
Qed.

(** same tree up to blanks *)
Definition teq (t t' : tree) : Prop :=
  (grammatical mcnp t -> grammatical mcnp t') /\ (forall v, sem v t' = sem v t) /\ tv t' = tv t /\ numbers t' = numbers t.

Lemma drop_wl L t l : wl L -> grammatical mcnp t ->
  exists (L' : chars) t', drop_while is_space (L ++ text mcnp t ++ l) = L' ++ text mcnp t' ++ l /\
    wl L' /\ (allbl L -> allbl L') /\ teq t t'.
Proof.
  intros HL HT. induction HL as [|c L Hc HL IH].
  - exists [], (unpad_l t). simpl. rewrite drop_text_l by auto. repeat split; auto using unpad_l_gram, unpad_l_sem, unpad_l_tv, unpad_l_numbers; constructor.
  - destruct Hc as [->| ->].
    + destruct IH as (L' & t' & E & H1 & H2 & H3). exists L', t'. simpl. repeat split; auto; try apply H3.
      intros H. apply H2. inversion H; auto.
    + exists ("("%char :: L), t. simpl. repeat split; auto. constructor; auto.
Qed.
Lemma drop_wr R t l : wr R -> grammatical mcnp t ->
  exists (R' : chars) t', drop_while is_space (rev R ++ rev (text mcnp t) ++ l) = rev R' ++ rev (text mcnp t') ++ l /\
    wr R' /\ (allbl R -> allbl R') /\ teq t t'.
Proof.
  intros HR HT. induction R as [|c R IH] using rev_ind.
  - exists [], (unpad_r t). simpl. rewrite drop_text_r by auto. repeat split; auto using unpad_r_gram, unpad_r_sem, unpad_r_tv, unpad_r_numbers; constructor.
  - apply wr_app in HR. destruct HR as (HR & Hc). inversion Hc as [|? ? Hc' _]; subst.
    rewrite rev_app_distr. simpl. destruct Hc' as [->| ->].
    + destruct IH as (L' & t' & E & H1 & H2 & H3); auto. exists L', t'. simpl. repeat split; auto; try apply H3.
      intros H. apply H2. apply Forall_app in H. tauto.
    + exists (R ++ [")"%char]), t. rewrite rev_app_distr. simpl. repeat split; auto.
      apply wr_app. split; auto.
Qed.

Lemma strip_piece p : pgood p -> exists p', strip is_space (ptext p) = ptext p' /\ pgood p' /\
  (forall v, sem v (ptree p') = sem v (ptree p)) /\ tv (ptree p') = tv (ptree p) /\ numbers (ptree p') = numbers (ptree p).
Proof.
  destruct p as [[L t] R]. intros (HL & HR & HO & HT). unfold strip. simpl ptext.
  destruct (drop_wl L t R HL HT) as (L' & t' & -> & H1 & H2 & H3 & H4 & H5 & N1).
  rewrite !rev_app_distr, <- app_assoc.
  destruct (drop_wr R t' (rev L') HR (H3 HT)) as (R' & t'' & -> & H6 & H7 & H8 & H9 & H10 & N2).
  exists (L', t'', R'). rewrite !rev_app_distr, !rev_involutive, <- app_assoc. simpl. repeat split; auto.
  - destruct HO; [left|right]; auto.
  - intros v. rewrite H9, H4. auto.
  - congruence.
  - congruence.
Qed.
Lemma drop_length p l : (length (drop_while p l) <= length l)%nat.
Proof. induction l as [|c l IH]; simpl; auto. destruct (p c); simpl; lia. Qed.
Lemma strip_length p l : (length (strip p l) <= length l)%nat.
Proof.
  unfold strip. rewrite rev_length. etransitivity; [apply drop_length|]. rewrite rev_length. apply drop_length.
Qed.
