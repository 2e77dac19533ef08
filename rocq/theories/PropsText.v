(** Properties C07, C17, C18, C19, C41: cell texts.
    Specification vocabulary: CellText.v ([denotes]: grammar and meaning of a
    text), LexSpec.v ([tokens], [unwrap], [lines], [breakable]), BoolSpec.v
    ([eval], [wf], [full]). *)
From Coq Require Import Ascii String Permutation.
From Verif Require Import Prelude BoolSpec BoolSeq BoolProofs CellText LexSpec Writers ParenModel Wrap
  WritersProofs ParenProofs ParenRemove ParseProofs LexProofs WrapProofs.

(** Running example  1 -2 (3:(4 -5)) . *)
Definition ex2 : node :=
  Seq AND 2 [Seq AND 0 [Lit 1; Lit (-2)];
             Seq OR 1 [Seq OR 0 [Lit 3]; Seq AND 0 [Lit 4; Lit (-5)]]].
Lemma ex2_ok : is_seq ex2 /\ wf ex2 /\ full ex2.
Proof. cbn. repeat (split || constructor || intros || discriminate || lia). Qed.

(* ------------------------------------------------------------------ *)
(** * C17 the writers *)

(** Every well formed definition is written, and the text denotes it:
    MCNP and PHITS, Serpent, OpenMC XML, OpenMC Python. *)
Theorem C17_sequence_mcnp : forall n, is_seq n -> wf n -> full n ->
  exists s, write_sequence_mcnp n = Ok s /\ denotes mcnp s (fun v => eval v n).
Proof.
  intros n S W F. destruct (write_seq_total mcnp str_int 1 0 0 0 n S W F) as (s & E).
  exists s. split; auto. apply write_mcnp_denotes; auto. apply wf_nz; auto.
Qed.
Theorem C17_sequence_serpent : forall n, is_seq n -> wf n -> full n ->
  exists s, write_sequence_serpent n = Ok s /\ denotes mcnp s (fun v => eval v n).
Proof. intros n S W F. rewrite write_serpent_mcnp. apply C17_sequence_mcnp; auto. Qed.
Theorem C17_openmc_xml : forall n, is_seq n -> wf n -> full n ->
  exists s, write_sequence_omc_xml n = Ok s /\ denotes openmc_xml s (fun v => eval v n).
Proof.
  intros n S W F. destruct (write_seq_total openmc_xml str_int 1 0 1 1 n S W F) as (s & E).
  exists s. split; auto. apply write_xml_denotes; auto. apply wf_nz; auto.
Qed.
Theorem C17_openmc_py : forall n, is_seq n -> wf n -> full n ->
  exists s, write_sequence_omc_py n = Ok s /\ denotes openmc_py s (fun v => eval v n).
Proof.
  intros n S W F. destruct (write_seq_total openmc_py str_surf 1 1 1 1 n S W F) as (s & E).
  exists s. split; auto. apply write_py_denotes; auto. apply wf_nz; auto.
Qed.
Example C17_ex : write_sequence_mcnp ex2 = Ok (cs "((1 -2) ((3):(4 -5)))") /\
  write_sequence_omc_py ex2 = Ok (cs "((+S1 & -S2) & ((+S3) | (+S4 & -S5)))").
Proof. split; reflexivity. Qed.

(** The grammar is not too lax: texts are read in one way only, e.g. "1 2:3" is
    the union of "1 2" and "3". *)
Example denotes_ex : denotes mcnp (cs "1 2:3") (fun v => v 1 && v 2 || v 3) /\
  ~ denotes mcnp (cs "1 2:3") (fun v => v 1 && (v 2 || v 3)).
Proof.
  split.
  - exists (TOr (TAnd (TNum 0 [] (Decimal.D1 Decimal.Nil) 1) (TNum 0 [] (Decimal.D2 Decimal.Nil) 0))
                (TNum 0 [] (Decimal.D3 Decimal.Nil) 0)).
    split; [|split; reflexivity]. simpl. unfold num_val. simpl.
    repeat split; auto; try discriminate. intros _ (H & _). discriminate.
  - intros H. destruct H as (t & G & E & S).
    destruct (parse_spec (fun l => l) t) as (n & P1 & _ & P2); auto; [intros l; apply Permutation_refl|].
    rewrite E in P1. vm_compute in P1. injection P1 as <-.
    specialize (P2 (fun s => s =? 3)). rewrite S in P2. vm_compute in P2. discriminate.
Qed.

(* ------------------------------------------------------------------ *)
(** * C18 redundant parentheses *)
Theorem C18_remove_redundant : forall s f, denotes mcnp s f ->
  exists s', remove_redundant s = Ok s' /\ denotes mcnp s' f.
Proof. exact remove_redundant_denotes. Qed.
Example C18_ex : remove_redundant (cs "((1 -2) ((3):(4 -5)))") = Ok (cs "  1 -2  ( 3 : 4 -5 ) ").
Proof. reflexivity. Qed.

(* ------------------------------------------------------------------ *)
(** * C07 parsing *)

(** [sord] is the order in which Python enumerates a set of ints: any. *)
Theorem C07_parse : forall sord s f, (forall l, Permutation (sord l) l) -> denotes mcnp s f ->
  exists n, parse sord s = Ok n /\ is_seq n /\ wf n /\ forall v, eval v n = f v.
Proof.
  intros sord s f HS (t & G & <- & S). destruct (parse_spec sord t HS G) as (n & E & HP & HV).
  exists n. split; auto. split; [|split; [|intros v; rewrite HV; auto]].
  - destruct HP as [->|((lev & l & ->) & _)]; simpl; auto.
  - destruct HP as [->|(_ & W & _)]; simpl; auto. lia.
Qed.
(** The outermost operator and the grouped shape the other methods rely on. *)
Theorem C07_parse_shape : forall sord s f n, (forall l, Permutation (sord l) l) -> denotes mcnp s f ->
  parse sord s = Ok n ->
  (exists o, n = Cst o (-1) (absorbing o)) \/ gr n /\ no_const n.
Proof.
  intros sord s f n HS (t & G & <- & S) E. destruct (parse_spec sord t HS G) as (n' & E' & HP & HV).
  rewrite E in E'. injection E' as <-. destruct HP as [->|(_ & _ & A & B)]; eauto.
Qed.
Example C07_ex : parse (fun l => l) (cs " 1 (-2 (3 : (4 -5)))") =
  Ok (Seq AND 2 [Seq AND 0 [Lit (-2); Lit 1]; Seq OR 1 [Seq OR 0 [Lit 3]; Seq AND 0 [Lit 4; Lit (-5)]]]).
Proof. reflexivity. Qed.

(** A union of contradictory terms is parsed as a union without element: it
    means the empty region, but its written text "()" is not an expression. *)
Theorem C07_empty_union : exists s f n, denotes mcnp s f /\ parse (fun l => l) s = Ok n /\
  ~ full n /\ write_sequence_mcnp n = Ok (cs "()") /\ ~ exists g, denotes mcnp (cs "()") g.
Proof.
  exists (cs "(1 -1):(2 -2)"), (fun v => v 1 && negb (v 1) || v 2 && negb (v 2)), (Seq OR 0 []).
  split; [|split; [reflexivity|split; [simpl; tauto|split; [reflexivity|]]]].
  - exists (TOr (TPar 0 (TAnd (TNum 0 [] (Decimal.D1 Decimal.Nil) 1) (TNum 0 (cs "-") (Decimal.D1 Decimal.Nil) 0)) 0)
                (TPar 0 (TAnd (TNum 0 [] (Decimal.D2 Decimal.Nil) 1) (TNum 0 (cs "-") (Decimal.D2 Decimal.Nil) 0)) 0)).
    split; [|split; reflexivity]. simpl. unfold num_val. simpl.
    repeat split; auto; try discriminate; intros _ (H & _); discriminate.
  - intros (g & t & G & E & _).
    assert (exists p t' q, t = TPar p t' q) as (p & t' & q & ->).
    { assert (HT := f_equal tokens E). destruct t as [p sg ds q|p t q|a b|a b]; eauto; exfalso.
      - destruct (num_word _ _ _ _ G) as (W1 & W2). cbn [text surf_prefix mcnp app] in HT.
        rewrite (app_assoc sg), tokens_blanks_l, tokens_blanks_r, <- (app_nil_r (sg ++ _)), tokens_run in HT by auto. discriminate.
      - assert (HA : forall t, grammatical mcnp t -> exists c r, text mcnp t = c :: r).
        { intros t0 G0. destruct (text mcnp t0) eqn:E0; eauto. exfalso. exact (text_nonempty t0 G0 E0). }
        destruct G as (Ga & Gb & _). cbn [text and_sign mcnp app] in E.
        destruct (HA _ Ga) as (c & r & Ea), (HA _ Gb) as (d & r' & Eb). rewrite Ea, Eb in E. simpl in E.
        injection E as -> E. destruct r as [|x r]; [|destruct r; simpl in E; discriminate].
        clear - Ga Ea. revert Ea. induction a; intros E; cbn [text] in E.
        + destruct (num_word _ _ _ _ Ga) as (W1 & W2). cbn [surf_prefix mcnp app] in E.
          assert (HT := f_equal tokens E).
          rewrite (app_assoc sg), tokens_blanks_l, tokens_blanks_r, <- (app_nil_r (sg ++ _)), tokens_run in HT by auto. discriminate.
        + apply (f_equal (@List.length ascii)) in E. rewrite !app_length in E. simpl in E. lia.
        + destruct Ga as (G1 & G2 & _). destruct (text mcnp a1) eqn:E1; [exact (text_nonempty _ G1 E1)|].
          destruct (text mcnp a2) eqn:E2; [exact (text_nonempty _ G2 E2)|]. simpl in E. injection E as _ E.
          apply app_eq_nil in E. destruct E; discriminate.
        + apply (f_equal (@List.length ascii)) in E. rewrite !app_length in E. simpl in E.
          destruct Ga as (G1 & G2). destruct (text mcnp a1) eqn:E1; [exact (text_nonempty _ G1 E1)|]. simpl in E. lia.
      - cbn [text or_sign mcnp] in E. apply (f_equal (existsb (Ascii.eqb ":"))) in E.
        rewrite !existsb_app in E. simpl in E. rewrite orb_true_r in E. discriminate. }
    cbn [text] in E. assert (HL := f_equal (@List.length ascii) E). rewrite !app_length in HL. simpl in HL.
    simpl in G. assert (HN := text_nonempty t' G). destruct (text mcnp t'); [congruence|]. simpl in HL. lia.
Qed.

(* ------------------------------------------------------------------ *)
(** * C19 line wrapping *)

(** wrap_line on any text whose only white space is the blank, when break
    positions exist: it terminates, keeps the token sequence, and keeps every
    line within the line size (the first one after [offset] columns). *)
Theorem C19_wrap_line : forall size tab offset s,
  0 <= tab < size -> 0 <= offset < size ->
  (forall c, In c s -> is_space c = true -> c = " "%char) ->
  breakable (Z.to_nat (size - offset)) (Z.to_nat (size - tab)) (normal s) ->
  exists out k0, (forall k, (k0 <= k)%nat -> wrap_line k size tab offset s = Ok out) /\
    tokens (unwrap out) = tokens s /\
    exists l ls, lines out = l :: ls /\ Z.of_nat (length l) + offset <= size /\
      Forall (fun l => Z.of_nat (length l) <= size) ls.
Proof.
  intros size tab offset s HT HO HB HK.
  assert (HB' : blank_only s) by (apply Forall_forall; auto).
  destruct (wrap_line_spec size tab offset s (S (length (normal s))) HT HO HB' HK) as (out & E & H1 & H2 & _); [lia|].
  exists out, (S (length (normal s))). split; [|split; auto]. intros k Hk.
  destruct (wrap_line_spec size tab offset s k HT HO HB' HK) as (out' & E' & _); [lia|].
  rewrite E'. f_equal. revert E E'. unfold wrap_line.
  destruct (Z.of_nat (length (normal s)) + offset <=? size); [congruence|].
  generalize (@nil ascii), 0, (size - 1 - offset), (Z.of_nat (length (normal s))).
  revert Hk. generalize (S (length (normal s))). intros k1 Hk.
  revert k Hk. induction k1 as [|k1 IH]; intros k Hk o i ic ll E E'; [discriminate|].
  destruct k as [|k]; [lia|]. cbn [breaks] in E, E'.
  destruct (back _ (normal s) ic); try discriminate. cbn [bind] in E, E'.
  destruct (_ =? 0); [congruence|]. destruct (_ <? _); [|congruence].
  eapply (IH k); eauto. lia.
Qed.

(** The whole cell text (MCNP, PHITS; Serpent is the same function): what is
    written, read with line ends as blanks, denotes the definition. *)
Theorem C19_cell_def : forall tab offset n, 0 <= tab < 80 -> 0 <= offset < 80 ->
  is_seq n -> wf n -> full n ->
  exists s s', write_sequence_mcnp n = Ok s /\ remove_redundant s = Ok s' /\ denotes mcnp s' (fun v => eval v n) /\
  (breakable (Z.to_nat (80 - offset)) (Z.to_nat (80 - tab)) (normal s') ->
   exists out k0, (forall k, (k0 <= k)%nat -> write_cell_def write_sequence_mcnp k tab offset n = Ok out) /\
     denotes mcnp (unwrap out) (fun v => eval v n) /\
     exists l ls, lines out = l :: ls /\ Z.of_nat (length l) + offset <= 80 /\
       Forall (fun l => Z.of_nat (length l) <= 80) ls).
Proof.
  intros tab offset n HT HO S W F. destruct (C17_sequence_mcnp n S W F) as (s & E1 & D1).
  destruct (remove_redundant_denotes s _ D1) as (s' & E2 & D2). exists s, s'. repeat (split; auto).
  intros HK. destruct (C19_wrap_line 80 tab offset s') as (out & k0 & H1 & H2 & H3); auto.
  - destruct D2 as (t & G & <- & _). exact (proj1 (Forall_forall _ _) (text_blank_only t G)).
  - exists out, k0. split; [|split; auto].
    + intros k Hk. unfold write_cell_def. rewrite E1. cbn [bind]. rewrite E2. cbn [bind]. auto.
    + eapply tokens_denotes; eauto.
Qed.
Example C19_ex : exists out, write_cell_def write_sequence_mcnp 10 11 72 ex2 = Ok out /\
  lines out = [cs "1 -2 (3:"; cs "           4 -5)"].
Proof. eexists; split; vm_compute; reflexivity. Qed.

(** A text of 30 surfaces meets the hypotheses and needs several lines. *)
Definition long30 : node := Seq AND 0 (map (fun k => Lit (Z.of_nat k + 1000)) (seq 0 30)).
Example C19_long : wf long30 /\ full long30 /\
  exists s s', write_sequence_mcnp long30 = Ok s /\ remove_redundant s = Ok s' /\
    breakable (Z.to_nat (80 - 13)) (Z.to_nat (80 - 11)) (normal s') /\ Nat.ltb 140 (length s') = true.
Proof.
  split; [|split].
  - simpl. repeat (split || constructor || discriminate || lia).
  - simpl. repeat (split || constructor || discriminate || lia).
  - eexists _, _. split; [vm_compute; reflexivity|]. split; [vm_compute; reflexivity|]. split; [|reflexivity].
    change (Z.to_nat (80 - 11)) with (S 68). apply run_ok_breakable; vm_compute; reflexivity.
Qed.

(** Left nested definitions: ((((1:2) 3):3) 3) ... *)
Fixpoint deep (k : nat) : node :=
  match k with
  | O => Seq OR 0 [Lit 1; Lit 2]
  | S k => let op := if Nat.even k then AND else OR in
           Seq op (Z.of_nat (S k)) [deep k; Seq op 0 [Lit 3]]
  end.

(** The state of the outer loop repeats. *)
Definition stuck (tab offset : Z) (n : node) : bool :=
  match (do s <- write_sequence_mcnp n; remove_redundant s) with
  | Ok s' =>
      let str := normal s' in
      let L := Z.of_nat (length str) in
      let k := S (length str + length str) in
      negb (L + offset <=? 80) &&
      match back k str (80 - 1 - offset) with
      | Ok i => negb (L - (i + 1) =? 0) && (i + (80 - tab) <? L) &&
                match back k str (i + (80 - tab)) with Ok j => i =? j | _ => false end
      | _ => false
      end
  | _ => false
  end.
Lemma stuck_spec tab offset n : stuck tab offset n = true ->
  forall fuel, write_cell_def write_sequence_mcnp fuel tab offset n = Fuel.
Proof.
  unfold stuck, write_cell_def. destruct (write_sequence_mcnp n) as [s| |]; cbn [bind]; try discriminate.
  destruct (remove_redundant s) as [s'| |]; cbn [bind]; try discriminate. unfold wrap_line.
  set (str := normal s'). cbv zeta. set (L := Z.of_nat (length str)).
  destruct (L + offset <=? 80); [discriminate|]. cbn [negb andb].
  destruct (back _ str (80 - 1 - offset)) as [i| |] eqn:E1; try discriminate.
  destruct (Z.eqb_spec (L - (i + 1)) 0) as [|E2]; [discriminate|]. destruct (i + (80 - tab) <? L) eqn:E3; [|discriminate].
  destruct (back _ str (i + (80 - tab))) as [j| |] eqn:E4; try discriminate.
  cbn [negb andb]. intros E5. apply Z.eqb_eq in E5. subst j.
  intros [|fuel]; [reflexivity|]. cbn [breaks]. rewrite E1. cbn [bind]. cbv zeta. fold L.
  replace (L - (i - 0 + 1)) with (L - (i + 1)) by lia. rewrite (proj2 (Z.eqb_neq _ _) E2), E3.
  generalize (([] ++ py_slice str 0 (i + 1)) ++ newline :: blanks (Z.to_nat tab)).
  induction fuel as [|fuel IH]; intros out; [reflexivity|]. cbn [breaks]. rewrite E4. cbn [bind]. cbv zeta. fold L.
  replace (L - (i + 1) - (i - (i + 1) + 1)) with (L - (i + 1)) by lia.
  rewrite (proj2 (Z.eqb_neq _ _) E2), E3. apply IH.
Qed.

Lemma deep_ok k : wf (deep k) /\ full (deep k).
Proof.
  induction k as [|k (IH1 & IH2)].
  - simpl. repeat (split || constructor || discriminate || intros || lia).
  - cbn [deep]. set (op := if Nat.even k then AND else OR). split.
    + apply wf_seq. split; [lia|]. split; [lia|]. constructor; [exact IH1|]. constructor; [|constructor].
      simpl. repeat (split || constructor || discriminate || intros || lia).
    + split; [discriminate|]. split; [exact IH2|]. split; [|exact I]. simpl. repeat split; discriminate.
Qed.

Lemma prefix_ok lev n : 0 < lev -> wf n -> full n ->
  let m := Seq AND lev [Seq AND 0 [Lit 9]; n] in is_seq m /\ wf m /\ full m.
Proof.
  intros HL D1 D2. split; [exact I|]. split.
  - apply wf_seq. split; [lia|]. split; [lia|]. constructor; [|constructor; [exact D1|constructor]].
    simpl. repeat (split || constructor || discriminate || intros || lia).
  - split; [discriminate|]. split; [simpl; repeat split; discriminate|]. split; [exact D2|exact I].
Qed.

(** Without a break position in a window the writer loops forever ... *)
Theorem C19_hang_refuted : exists n, is_seq n /\ wf n /\ full n /\
  forall fuel, write_cell_def write_sequence_mcnp fuel 11 13 n = Fuel.
Proof.
  assert (HS : stuck 11 13 (Seq AND 150 [Seq AND 0 [Lit 9]; deep 149]) = true) by (vm_compute; reflexivity).
  revert HS. destruct (deep_ok 149) as (D1 & D2). revert D1 D2. generalize (deep 149). intros n D1 D2 HS.
  exists (Seq AND 150 [Seq AND 0 [Lit 9]; n]). destruct (prefix_ok 150 n ltac:(lia) D1 D2) as (A & B & C).
  split; [exact A|]. split; [exact B|]. split; [exact C|]. apply stuck_spec, HS.
Qed.

(** ... or, when the first line has none, writes a text that is not the cell. *)
Definition corrupt (fuel : nat) (tab offset : Z) (n : node) : bool :=
  match write_cell_def write_sequence_mcnp fuel tab offset n, (do s <- write_sequence_mcnp n; remove_redundant s) with
  | Ok out, Ok s => negb (Nat.eqb (length (tokens (unwrap out))) (length (tokens s)))
  | _, _ => false
  end.
Theorem C19_corrupt_refuted : exists n fuel out s, is_seq n /\ wf n /\ full n /\
  write_cell_def write_sequence_mcnp fuel 11 13 n = Ok out /\
  (do s <- write_sequence_mcnp n; remove_redundant s) = Ok s /\ tokens (unwrap out) <> tokens s.
Proof.
  assert (H : corrupt 40 11 13 (deep 131) = true) by (vm_compute; reflexivity).
  assert (HI : is_seq (deep 131)) by exact I.
  revert H HI. destruct (deep_ok 131) as (D1 & D2). revert D1 D2. generalize (deep 131). intros n D1 D2.
  generalize 40%nat. intros fuel H HI. unfold corrupt in H.
  destruct (write_cell_def write_sequence_mcnp fuel 11 13 n) as [out| |] eqn:E1; try discriminate.
  destruct (do s <- write_sequence_mcnp n; remove_redundant s) as [s| |] eqn:E2; try discriminate.
  exists n, fuel, out, s. repeat (split; auto). intros E. rewrite E, Nat.eqb_refl in H. discriminate.
Qed.

(* ------------------------------------------------------------------ *)
(** * C41 round trip *)
Theorem C41_round_trip : forall sord tab offset n, (forall l, Permutation (sord l) l) ->
  0 <= tab < 80 -> 0 <= offset < 80 -> is_seq n -> wf n -> full n ->
  (exists s n', write_sequence_mcnp n = Ok s /\ parse sord s = Ok n' /\ forall v, eval v n' = eval v n) /\
  (exists s s' n', write_sequence_mcnp n = Ok s /\ remove_redundant s = Ok s' /\ parse sord s' = Ok n' /\
     forall v, eval v n' = eval v n) /\
  (forall k out, write_cell_def write_sequence_mcnp k tab offset n = Ok out ->
     (exists s', (do s <- write_sequence_mcnp n; remove_redundant s) = Ok s' /\
       breakable (Z.to_nat (80 - offset)) (Z.to_nat (80 - tab)) (normal s')) ->
     exists n', parse sord (unwrap out) = Ok n' /\ forall v, eval v n' = eval v n).
Proof.
  intros sord tab offset n HS HT HO S W F.
  destruct (C17_sequence_mcnp n S W F) as (s & E1 & D1).
  destruct (remove_redundant_denotes s _ D1) as (s' & E2 & D2).
  split; [|split].
  - destruct (C07_parse sord s _ HS D1) as (n' & P & _ & _ & V). exists s, n'. auto.
  - destruct (C07_parse sord s' _ HS D2) as (n' & P & _ & _ & V). exists s, s', n'. auto.
  - intros k out E (s2 & E3 & HK). rewrite E1 in E3. cbn [bind] in E3. rewrite E2 in E3. injection E3 as <-.
    destruct (C19_cell_def tab offset n HT HO S W F) as (s2 & s3 & F1 & F2 & _ & F3).
    rewrite E1 in F1. injection F1 as <-. rewrite E2 in F2. injection F2 as <-.
    destruct (F3 HK) as (out' & k0 & F4 & F5 & _).
    assert (out' = out).
    { specialize (F4 (Nat.max k0 k) ltac:(lia)). revert E F4. unfold write_cell_def. rewrite E1. cbn [bind]. rewrite E2. cbn [bind].
      unfold wrap_line. destruct (_ <=? 80); [congruence|]. generalize (@nil ascii), 0, (80 - 1 - offset), (Z.of_nat (length (normal s'))).
      assert (Hk : (k <= Nat.max k0 k)%nat) by lia. revert Hk. generalize (Nat.max k0 k). clear.
      induction k as [|k IH]; intros k1 Hk o i ic ll E E'; [discriminate|]. destruct k1 as [|k1]; [lia|]. cbn [breaks] in E, E'.
      destruct (back _ (normal s') ic); try discriminate. cbn [bind] in E, E'.
      destruct (_ =? 0); [congruence|]. destruct (_ <? _); [|congruence]. eapply (IH k1); eauto. lia. }
    subst out'. destruct (C07_parse sord _ _ HS F5) as (n' & P & _ & _ & V). eauto.
Qed.
Example C41_ex : exists out n', write_cell_def write_sequence_mcnp 10 11 72 ex2 = Ok out /\
  parse (fun l => l) (unwrap out) = Ok n' /\ n' <> ex2.
Proof. eexists _, _. split; [vm_compute; reflexivity|]. split; [vm_compute; reflexivity|discriminate]. Qed.

Print Assumptions C17_sequence_mcnp.
Print Assumptions C17_openmc_py.
Print Assumptions C18_remove_redundant.
Print Assumptions C07_parse.
Print Assumptions C19_wrap_line.
Print Assumptions C19_cell_def.
Print Assumptions C41_round_trip.
