From Coq Require Import Ascii String Decimal DecimalZ DecimalPos DecimalFacts DecimalN.
From Verif Require Import Prelude BoolSpec CellText Writers BoolProofs.

Lemma full_seq op lev l : full (Seq op lev l) <-> l <> [] /\ Forall full l.
Proof.
  simpl. assert (HH : fold_right (fun c p => full c /\ p) True l <-> Forall full l); [|tauto].
  induction l as [|x l IH]; simpl; split; intros H; auto.
  - constructor; tauto.
  - inversion H; subst; tauto.
Qed.

Fixpoint pad_r (k : nat) (t : tree) : tree :=
  match t with
  | TNum pre sg ds post => TNum pre sg ds (post + k)
  | TPar pre t post => TPar pre t (post + k)
  | TAnd a b => TAnd a (pad_r k b)
  | TOr a b => TOr a (pad_r k b)
  end.
Fixpoint pad_l (k : nat) (t : tree) : tree :=
  match t with
  | TNum pre sg ds post => TNum (k + pre) sg ds post
  | TPar pre t post => TPar (k + pre) t post
  | TAnd a b => TAnd (pad_l k a) b
  | TOr a b => TOr (pad_l k a) b
  end.
Lemma blanks_app a b : blanks (a + b) = blanks a ++ blanks b.
Proof. apply repeat_app. Qed.
Lemma text_pad_r nt k t : text nt (pad_r k t) = text nt t ++ blanks k.
Proof. induction t; simpl; rewrite ?blanks_app, ?IHt2, ?app_assoc, ?app_comm_cons; rewrite <- ?app_assoc; simpl; auto. Qed.
Lemma text_pad_l nt k t : text nt (pad_l k t) = blanks k ++ text nt t.
Proof. induction t; simpl; rewrite ?blanks_app, ?IHt1; rewrite <- ?app_assoc; simpl; auto. Qed.
Lemma sem_pad_r v k t : sem v (pad_r k t) = sem v t.
Proof. induction t; simpl; congruence. Qed.
Lemma sem_pad_l v k t : sem v (pad_l k t) = sem v t.
Proof. induction t; simpl; congruence. Qed.
Lemma numbers_pad_r k t : numbers (pad_r k t) = numbers t.
Proof. induction t; simpl; congruence. Qed.
Lemma numbers_pad_l k t : numbers (pad_l k t) = numbers t.
Proof. induction t; simpl; congruence. Qed.
Lemma is_or_pad_r k t : is_or (pad_r k t) <-> is_or t.
Proof. destruct t; simpl; tauto. Qed.
Lemma is_or_pad_l k t : is_or (pad_l k t) <-> is_or t.
Proof. destruct t; simpl; tauto. Qed.
Lemma ends_pad_r k t : ends_num (pad_r k t) -> ends_num t /\ k = 0%nat.
Proof. induction t; simpl; auto; try tauto. lia. Qed.
Lemma starts_pad_r k t : starts_num (pad_r k t) -> starts_num t.
Proof. induction t; simpl; auto; try tauto. Qed.
Lemma ends_pad_l k t : ends_num (pad_l k t) -> ends_num t.
Proof. induction t; simpl; auto. Qed.
Lemma starts_pad_l k t : starts_num (pad_l k t) -> starts_num t.
Proof. induction t; simpl; auto; try tauto. lia. Qed.
Lemma gram_pad_r nt k t : grammatical nt t -> grammatical nt (pad_r k t).
Proof.
  induction t; simpl; auto; [|intros (? & ?); auto].
  rewrite is_or_pad_r. intros (A & B & C & D & E). repeat (split; auto).
  intros F (G & H). apply E; auto. split; auto. eapply starts_pad_r; eauto.
Qed.
Lemma gram_pad_l nt k t : grammatical nt t -> grammatical nt (pad_l k t).
Proof.
  induction t; simpl; auto; [|intros (? & ?); auto].
  rewrite is_or_pad_l. intros (A & B & C & D & E). repeat (split; auto).
  intros F (G & H). apply E; auto. split; auto. eapply ends_pad_l; eauto.
Qed.

(** numbers *)
Lemma to_uint_nonnil p : Pos.to_uint p <> Decimal.Nil.
Proof. apply DecimalPos.Unsigned.to_uint_nonnil. Qed.
Lemma of_uint_pos p : Z.of_uint (Pos.to_uint p) = Zpos p.
Proof.
  pose proof (DecimalZ.of_to (Zpos p)) as H. simpl in H. exact H.
Qed.
Lemma num_tree z : z <> 0 ->
  exists sg ds, str_int z = sg ++ digits ds /\ (sg = [] \/ sg = cs "-") /\ ds <> Decimal.Nil /\ num_val sg ds = z.
Proof.
  intros H. destruct z as [|p|p]; [lia| |]; unfold str_int; simpl.
  - exists [], (Pos.to_uint p). repeat split; auto using to_uint_nonnil. unfold num_val. apply of_uint_pos.
  - exists (cs "-"), (Pos.to_uint p). repeat split; auto using to_uint_nonnil.
    unfold num_val. simpl. rewrite of_uint_pos. reflexivity.
Qed.

Section Gen.
  Variables (nt : notation) (lit : Z -> chars) (pa qa po qo : nat).
  Hypothesis lit_ok : forall z, z <> 0 -> exists sg ds,
    lit z = sg ++ surf_prefix nt ++ digits ds /\ grammatical nt (TNum 0 sg ds 0) /\ num_val sg ds = z.
  Hypothesis sep_ok : and_sign nt = [] -> (0 < pa)%nat.
  Let asep := blanks pa ++ and_sign nt ++ blanks qa.
  Let osep := blanks po ++ or_sign nt ++ blanks qo.

  Definition item_for (s : chars) (e : node) (t : tree) : Prop :=
    ~ is_or t /\ grammatical nt t /\ text nt t = s /\ (forall v, sem v t = eval v e) /\ numbers t = lits e.

  Lemma join_and l terms :
    l <> [] -> Forall2 (fun e s => exists t, item_for s e t) l terms ->
    exists t, ~ is_or t /\ grammatical nt t /\ text nt t = join_str asep terms /\
      (forall v, sem v t = forallb (eval v) l) /\ numbers t = flat_map lits l.
  Proof.
    revert terms; induction l as [|e l IH]; intros terms Hne HF; [congruence|]. inv HF.
    destruct H1 as (t & T1 & T2 & T3 & T4 & T5).
    destruct l as [|e2 l].
    - inv H3. exists t. split; auto. split; auto. split; auto. split; [intros v; simpl; rewrite T4, andb_true_r; auto|]. simpl. rewrite app_nil_r. auto.
    - destruct (IH _ ltac:(congruence) H3) as (u & U1 & U2 & U3 & U4 & U5). inversion H3; subst.
      exists (TAnd (pad_r pa t) (pad_l qa u)). split; [simpl; auto|]. split; [|split; [|split]].
      + cbn [grammatical]. rewrite is_or_pad_r, is_or_pad_l.
        split; [apply gram_pad_r; auto|]. split; [apply gram_pad_l; auto|].
        split; auto. split; auto. intros HE (H5 & _). apply ends_pad_r in H5. specialize (sep_ok HE). lia.
      + cbn [text]. rewrite text_pad_r, text_pad_l, U3. simpl. unfold asep. rewrite <- !app_assoc. reflexivity.
      + intros v. cbn [sem]. rewrite sem_pad_r, sem_pad_l, T4, U4. reflexivity.
      + cbn [numbers]. rewrite numbers_pad_r, numbers_pad_l, T5, U5. reflexivity.
  Qed.
  Lemma join_or l terms :
    l <> [] -> Forall2 (fun e s => exists t, item_for s e t) l terms ->
    exists t, grammatical nt t /\ text nt t = join_str osep terms /\
      (forall v, sem v t = existsb (eval v) l) /\ numbers t = flat_map lits l.
  Proof.
    revert terms; induction l as [|e l IH]; intros terms Hne HF; [congruence|]. inv HF.
    destruct H1 as (t & T1 & T2 & T3 & T4 & T5).
    destruct l as [|e2 l].
    - inv H3. exists t. split; auto. split; auto. split; [intros v; simpl; rewrite T4, orb_false_r; auto|]. simpl. rewrite app_nil_r. auto.
    - destruct (IH _ ltac:(congruence) H3) as (u & U2 & U3 & U4 & U5). inversion H3; subst.
      exists (TOr (pad_r po t) (pad_l qo u)). split; [|split; [|split]].
      + cbn [grammatical]. split; [apply gram_pad_r; auto|apply gram_pad_l; auto].
      + cbn [text]. rewrite text_pad_r, text_pad_l, U3. simpl. unfold osep. rewrite <- !app_assoc. reflexivity.
      + intros v. cbn [sem]. rewrite sem_pad_r, sem_pad_l, T4, U4. reflexivity.
      + cbn [numbers]. rewrite numbers_pad_r, numbers_pad_l, T5, U5. reflexivity.
  Qed.

  Lemma paren_item op lev l terms :
    l <> [] -> Forall2 (fun e s => exists t, item_for s e t) l terms ->
    exists t, item_for ("("%char :: join_str (match op with AND => asep | OR => osep end) terms ++ cs ")")
       (Seq op lev l) t.
  Proof.
    intros Hne HF. destruct op.
    - destruct (join_and l terms Hne HF) as (t & A & B & C & D & N).
      exists (TPar 0 t 0). split; [simpl; auto|]. split; [auto|]. split; [simpl; rewrite C; rewrite ?app_nil_r; reflexivity|]. auto.
    - destruct (join_or l terms Hne HF) as (t & B & C & D & N).
      exists (TPar 0 t 0). split; [simpl; auto|]. split; [auto|]. split; [simpl; rewrite C; rewrite ?app_nil_r; reflexivity|]. auto.
  Qed.

  Lemma mapM_Forall2_in {A B} (f : A -> res B) l l' (P : A -> B -> Prop) :
    mapM f l = Ok l' -> (forall x y, In x l -> f x = Ok y -> P x y) -> Forall2 P l l'.
  Proof.
    revert l'; induction l as [|x l IH]; simpl; intros l' H HP; [inv H; constructor|].
    inv_bind. inv H. constructor; auto.
  Qed.

  Lemma write_seq_item n : forall s,
    full n -> nz n -> write_seq lit asep osep n = Ok s -> exists t, item_for s n t.
  Proof.
    induction n as [z|op lev b|op lev l IH] using node_ind'; intros s F N H; try discriminate.
    simpl in H. inv_bind. inv H. apply full_seq in F. destruct F as (F1 & F2). apply nz_seq in N.
    apply paren_item; auto.
    eapply mapM_Forall2_in; [exact Ha|]. rewrite Forall_forall in *.
    intros x y Hx Hy. destruct x as [z|o lv b|o lv xs].
    - inv Hy. destruct (lit_ok z) as (sg & ds & E & G & V); [apply (N _ Hx)|].
      exists (TNum 0 sg ds 0). split; [simpl; auto|]. split; auto. split; [|split].
      + simpl. rewrite E, app_nil_r. auto.
      + intros v. simpl. rewrite V. auto.
      + simpl. rewrite V. auto.
    - destruct (lev =? 0); discriminate.
    - destruct (lev =? 0); [discriminate|]. apply IH; auto.
  Qed.

  Lemma write_seq_total n : is_seq n -> wf n -> full n -> exists s, write_seq lit asep osep n = Ok s.
  Proof.
    induction n as [z|op lev b|op lev l IH] using node_ind'; intros S W F; [simpl in S; tauto|simpl in F; tauto|].
    apply wf_seq in W. destruct W as (W0 & W1 & W2). apply full_seq in F. destruct F as (F1 & F2).
    simpl.
    assert (HH : exists l', mapM (fun e => match e with
                                 | Lit z => Ok (lit z)
                                 | _ => if lev =? 0 then Err TypeError
                                        else write_seq lit asep osep e
                                 end) l = Ok l').
    { clear F1. induction l as [|e l IHl]; simpl; eauto.
      inv IH. inv W2. inv F2.
      assert (He : exists y, match e with
                                 | Lit z => Ok (lit z)
                                 | _ => if lev =? 0 then Err TypeError
                                        else write_seq lit asep osep e
                                 end = Ok y).
      { destruct e as [z|o lv b|o lv xs]; eauto; [simpl in H5; tauto|].
        destruct (Z.eqb_spec lev 0) as [E|E]; [specialize (W1 E); inv W1; simpl in *; tauto|].
        apply H1; auto; exact I. }
      destruct He as (y & ->). cbn [bind]. destruct IHl as (ys & ->); auto.
      - intros E. specialize (W1 E). inv W1. auto.
      - simpl. eauto. }
    destruct HH as (l' & ->). simpl. eauto.
  Qed.
End Gen.

Lemma lit_mcnp nt : surf_prefix nt = [] -> forall z, z <> 0 -> exists sg ds,
    str_int z = sg ++ surf_prefix nt ++ digits ds /\ grammatical nt (TNum 0 sg ds 0) /\ num_val sg ds = z.
Proof.
  intros HP z Hz. destruct (num_tree z Hz) as (sg & ds & E & S & N & V).
  exists sg, ds. rewrite HP. split; auto. split; auto. simpl. split; [tauto|]. split; auto. congruence.
Qed.

Lemma lit_py : forall z, z <> 0 -> exists sg ds,
    str_surf z = sg ++ surf_prefix openmc_py ++ digits ds /\ grammatical openmc_py (TNum 0 sg ds 0) /\ num_val sg ds = z.
Proof.
  intros z Hz. unfold str_surf. destruct z as [|p|p]; [lia| |].
  - exists (cs "+"), (Pos.to_uint p). split; auto. split; [|apply of_uint_pos].
    simpl. split; auto. split; [apply to_uint_nonnil|]. unfold num_val. simpl. rewrite of_uint_pos. lia.
  - exists (cs "-"), (Pos.to_uint p). split; auto.
    assert (HV : num_val (cs "-") (Pos.to_uint p) = Z.neg p) by (unfold num_val; simpl; rewrite of_uint_pos; reflexivity).
    split; auto. simpl. split; auto. split; [apply to_uint_nonnil|]. simpl in HV. rewrite HV. lia.
Qed.

Lemma write_denotes nt lit pa qa po qo n s
  (lit_ok : forall z, z <> 0 -> exists sg ds,
    lit z = sg ++ surf_prefix nt ++ digits ds /\ grammatical nt (TNum 0 sg ds 0) /\ num_val sg ds = z)
  (sep_ok : and_sign nt = [] -> (0 < pa)%nat) :
  full n -> nz n ->
  write_seq lit (blanks pa ++ and_sign nt ++ blanks qa) (blanks po ++ or_sign nt ++ blanks qo) n = Ok s ->
  denotes nt s (fun v => eval v n).
Proof.
  intros F N H. destruct (write_seq_item nt lit pa qa po qo lit_ok sep_ok n s F N H) as (t & _ & A & B & C & _).
  exists t. auto.
Qed.
Lemma write_mentions nt lit pa qa po qo n s (Q : Z -> Prop)
  (lit_ok : forall z, z <> 0 -> exists sg ds,
    lit z = sg ++ surf_prefix nt ++ digits ds /\ grammatical nt (TNum 0 sg ds 0) /\ num_val sg ds = z)
  (sep_ok : and_sign nt = [] -> (0 < pa)%nat) :
  full n -> nz n -> (forall z, In z (lits n) -> Q (Z.abs z)) ->
  write_seq lit (blanks pa ++ and_sign nt ++ blanks qa) (blanks po ++ or_sign nt ++ blanks qo) n = Ok s ->
  mentions nt s Q.
Proof.
  intros F N HQ H. destruct (write_seq_item nt lit pa qa po qo lit_ok sep_ok n s F N H) as (t & _ & A & B & _ & D).
  exists t. split; auto. split; auto. rewrite D. auto.
Qed.

Lemma write_mcnp_denotes n s : full n -> nz n -> write_sequence_mcnp n = Ok s ->
  denotes mcnp s (fun v => eval v n).
Proof. apply (write_denotes mcnp str_int 1 0 0 0); [apply lit_mcnp; auto|auto]. Qed.
Lemma write_xml_denotes n s : full n -> nz n -> write_sequence_omc_xml n = Ok s ->
  denotes openmc_xml s (fun v => eval v n).
Proof. apply (write_denotes openmc_xml str_int 1 0 1 1); [apply lit_mcnp; auto|auto]. Qed.
Lemma write_py_denotes n s : full n -> nz n -> write_sequence_omc_py n = Ok s ->
  denotes openmc_py s (fun v => eval v n).
Proof. apply (write_denotes openmc_py str_surf 1 1 1 1); [apply lit_py|discriminate]. Qed.

Lemma write_mcnp_mentions n s (Q : Z -> Prop) : full n -> nz n -> (forall z, In z (lits n) -> Q (Z.abs z)) ->
  write_sequence_mcnp n = Ok s -> mentions mcnp s Q.
Proof. apply (write_mentions mcnp str_int 1 0 0 0); [apply lit_mcnp; auto|auto]. Qed.
Lemma write_xml_mentions n s (Q : Z -> Prop) : full n -> nz n -> (forall z, In z (lits n) -> Q (Z.abs z)) ->
  write_sequence_omc_xml n = Ok s -> mentions openmc_xml s Q.
Proof. apply (write_mentions openmc_xml str_int 1 0 1 1); [apply lit_mcnp; auto|auto]. Qed.
Lemma write_py_mentions n s (Q : Z -> Prop) : full n -> nz n -> (forall z, In z (lits n) -> Q (Z.abs z)) ->
  write_sequence_omc_py n = Ok s -> mentions openmc_py s Q.
Proof. apply (write_mentions openmc_py str_surf 1 1 1 1); [apply lit_py|discriminate]. Qed.

Lemma write_serpent_mcnp n : write_sequence_serpent n = write_sequence_mcnp n.
Proof. destruct n; reflexivity. Qed.
