(** remove_redundant keeps the meaning of a cell expression. *)
From Coq Require Import Ascii String Decimal DecimalZ.
From Verif Require Import Prelude BoolSpec BoolSeq CellText ParenModel BoolProofs WritersProofs ParenProofs.

Lemma semi_open c : c <> "("%char -> semi_fill c <> "("%char.
Proof. unfold semi_fill. destruct (Ascii.eqb c ":"); congruence. Qed.
Lemma semi_close c : c <> ")"%char -> semi_fill c <> ")"%char.
Proof. unfold semi_fill. destruct (Ascii.eqb c ":"); congruence. Qed.
Lemma semi_caret c : c <> "^"%char -> semi_fill c <> "^"%char.
Proof. unfold semi_fill. destruct (Ascii.eqb c ":"); congruence. Qed.
Lemma semi_colon c : semi_fill c <> ":"%char.
Proof. unfold semi_fill. destruct (Ascii.eqb_spec c ":"); congruence. Qed.

(** The tree left after the passes. *)
Fixpoint stript (x : xt) : tree :=
  match x with
  | XNum pre sg ds post => TNum pre sg ds post
  | XBr pre t post | XOpen pre t post => TPar pre (stript t) post
  | XFlat pre t post => pad_l (S pre) (pad_r (S post) (stript t))
  | XAnd a b => TAnd (stript a) (stript b)
  | XOr a b => TOr (stript a) (stript b)
  end.

Lemma sem_stript v x : sem v (stript x) = sem v (erase x).
Proof.
  induction x; simpl; auto.
  - rewrite sem_pad_l, sem_pad_r. auto.
  - rewrite IHx1, IHx2. auto.
  - rewrite IHx1, IHx2. auto.
Qed.
Lemma numbers_stript x : numbers (stript x) = numbers (erase x).
Proof. induction x; simpl; rewrite ?numbers_pad_l, ?numbers_pad_r; congruence. Qed.
Lemma ends_stript x : ends_num (stript x) -> ends_num (erase x).
Proof.
  induction x; simpl; auto. intros H. apply ends_pad_l, ends_pad_r in H. destruct H. discriminate.
Qed.
Lemma starts_pad_l0 k t : starts_num (pad_l k t) -> k = 0%nat.
Proof. induction t; simpl; intros; auto; lia || tauto. Qed.
Lemma starts_stript x : starts_num (stript x) -> starts_num (erase x).
Proof.
  induction x; simpl; auto. intros H. apply starts_pad_l0 in H. discriminate.
Qed.
Lemma isor_stript x : is_or (stript x) -> vis x = true.
Proof.
  induction x; simpl; try tauto. intros H. apply IHx. apply is_or_pad_l, is_or_pad_r in H. auto.
Qed.
Lemma G_true_vis x : closed x -> G true x -> vis x = false.
Proof.
  induction x; simpl; intros C H; auto; try tauto.
  - destruct (vis x) eqn:E; auto. destruct H as (_ & _ & H). discriminate (H eq_refl).
  - destruct H as (H1 & H2 & _), C. rewrite IHx1, IHx2; auto.
Qed.

Lemma gram_stript x : forall b, closed x -> G b x -> grammatical mcnp (erase x) -> grammatical mcnp (stript x).
Proof.
  induction x; simpl; intros b C HG H; auto; try tauto.
  - destruct HG as (_ & _ & _ & HG). eapply IHx; eauto.
  - destruct HG as (_ & HG & _). apply gram_pad_l, gram_pad_r. eapply IHx; eauto.
  - destruct H as (H1 & H2 & H3 & H4 & H5), C as (C1 & C2), HG as (G1 & G2 & _).
    repeat split.
    + eapply IHx1; eauto.
    + eapply IHx2; eauto.
    + intros HO. apply isor_stript in HO. rewrite (G_true_vis _ C1 G1) in HO. discriminate.
    + intros HO. apply isor_stript in HO. rewrite (G_true_vis _ C2 G2) in HO. discriminate.
    + intros HA (E1 & E2). apply (H5 HA). split; [apply ends_stript|apply starts_stript]; auto.
  - destruct H as (H1 & H2), C as (C1 & C2), HG as (_ & G1 & G2). split; eauto.
Qed.

Definition rst (p : ascii * ascii) : ascii := restore (snd p).
Lemma rst_refill l : map rst (refill semi_fill l) = map rst l.
Proof.
  unfold refill. rewrite map_map. apply map_ext. intros p. unfold rst, setc, semi_fill. simpl.
  destruct (Ascii.eqb_spec (snd p) ":") as [->|]; reflexivity.
Qed.
Lemma rst_bl n : map rst (bl n) = blanks n.
Proof. unfold bl, blanks, twice. induction n; simpl; auto. f_equal. auto. Qed.
Lemma rst_num sg ds : good_num sg ds -> map rst (twice (sg ++ digits ds)) = sg ++ digits ds.
Proof.
  intros (S & _). rewrite twice_app, map_app. f_equal.
  - destruct S as [->|[->| ->]]; reflexivity.
  - induction ds; simpl; auto; unfold rst; simpl; f_equal; auto.
Qed.
Lemma rst_render x : nums x -> closed x -> map rst (render semi_fill x) = text mcnp (stript x).
Proof.
  induction x; simpl; intros N C; try tauto.
  - rewrite twice_app, app_assoc, twice_app, !map_app.
    fold (bl pre) (bl post). rewrite !rst_bl, rst_num, <- app_assoc; auto.
  - rewrite map_app, rst_bl. simpl. rewrite map_app, rst_refill, IHx; auto. simpl. rewrite rst_bl. reflexivity.
  - rewrite text_pad_l, text_pad_r, map_app, rst_bl. simpl. rewrite map_app, IHx; auto. simpl. rewrite rst_bl.
    unfold blanks. change (rst ("("%char, " "%char)) with " "%char. change (rst (")"%char, " "%char)) with " "%char.
    assert (H : forall n l, repeat " "%char n ++ " "%char :: l = " "%char :: repeat " "%char n ++ l).
    { induction n; simpl; intros; f_equal; auto. }
    rewrite H. reflexivity.
  - rewrite map_app. destruct N, C. rewrite IHx1, IHx2; auto.
  - rewrite map_app. destruct N, C. simpl. rewrite IHx1, IHx2; auto.
Qed.

Lemma remove_redundant_tree t : grammatical mcnp t ->
  exists t', remove_redundant (text mcnp t) = Ok (text mcnp t') /\ grammatical mcnp t' /\
             (forall v, sem v t' = sem v t) /\ numbers t' = numbers t.
Proof.
  intros H. unfold remove_redundant.
  destruct (passes_text semi_fill semi_open semi_close semi_caret semi_colon [] [] t) as (x & E & I1 & I2 & I3 & I4);
    try constructor; auto; try constructor.
  simpl app in E. rewrite ?app_nil_r in E. simpl twice in E. rewrite ?app_nil_r in E. simpl app in E. rewrite E. simpl.
  exists (stript x). subst t. repeat split.
  - f_equal. exact (rst_render x I2 I4).
  - eapply gram_stript; eauto.
  - intros v. apply sem_stript.
  - apply numbers_stript.
Qed.

Lemma remove_redundant_denotes s f : denotes mcnp s f ->
  exists s', remove_redundant s = Ok s' /\ denotes mcnp s' f.
Proof.
  intros (t & H1 & <- & H2). destruct (remove_redundant_tree t H1) as (t' & E & H3 & H4 & _).
  exists (text mcnp t'). split; auto. exists t'. repeat split; auto. intros v. rewrite H4. auto.
Qed.
