(** BoolSequence(text) denotes what the text denotes. *)
From Coq Require Import Ascii String Decimal DecimalZ Permutation.
From Verif Require Import Prelude BoolSpec BoolSeq CellText ParenModel BoolProofs BoolTotal BoolEditProofs
  WritersProofs ParenProofs ParenRemove ParseTerms ParseInts.

(** What the parser returns for an expression whose outermost operator is [o]. *)
Definition pres (o : bop) (n : node) : Prop :=
  n = Cst o (-1) (absorbing o) \/
  (exists lev l, n = Seq o lev l) /\ wf n /\ gr n /\ no_const n.

Definition term_ok (rec : chars -> res node) (op : bop) (s : chars) (f : point -> bool) : Prop :=
  (exists z, as_integer s = Some z /\ z <> 0 /\ forall v, f v = lit_val v z) \/
  (as_integer s = None /\ s <> [] /\
   exists n, rec s = Ok n /\ pres (comp_op op) n /\ forall v, eval v n = f v).

Definition folded (op : bop) (fs : list bool) : bool := fold_right (opb op) (neutral op) fs.

Lemma absorbing_comp op : eqb (absorbing (comp_op op)) (absorbing op) = false.
Proof. destruct op; reflexivity. Qed.
Lemma eval_cst_comp op : absorbing (comp_op op) = neutral op.
Proof. destruct op; reflexivity. Qed.

Definition selfok (op : bop) (lev : Z) (l : list node) : Prop :=
  0 <= lev /\ (lev = 0 -> l = []) /\ Forall grouped_elt l /\ Forall wf l /\ Forall gr l /\ Forall no_const l.

Lemma def_loop_spec rec op (fs : list (point -> bool)) terms :
  Forall2 (term_ok rec op) terms fs -> forall lev l ints, selfok op lev l -> Forall (fun z => z <> 0) ints ->
  exists lev' l' ints', def_loop rec terms (Seq op lev l) ints = Ok (Seq op lev' l', ints') /\
    selfok op lev' l' /\ Forall (fun z => z <> 0) ints' /\
    forall v, opb op (evl v op l') (evl v op (map Lit ints')) =
      opb op (opb op (evl v op l) (evl v op (map Lit ints))) (folded op (map (fun f => f v) fs)).
Proof.
  induction 1 as [|s f terms fs H HF IH]; intros lev l ints HS HI; cbn [def_loop].
  - exists lev, l, ints. split; [reflexivity|]. split; [exact HS|]. split; [exact HI|]. intros v. unfold folded. cbn [map fold_right]. rewrite opb_neutral_r. reflexivity.
  - destruct H as [(z & -> & Hz & Hv)|(-> & Hs & n & Hn & HP & Hv)].
    + destruct (IH lev l (ints ++ [z]) HS) as (lev' & l' & ints' & E & H1 & H2 & H3).
      { apply Forall_app; auto. }
      exists lev', l', ints'. split; [exact E|]. split; [exact H1|]. split; [exact H2|]. intros v. rewrite H3, map_app, evl_app. simpl.
      rewrite evl_cons, evl_nil, opb_neutral_r, Hv. unfold folded. cbn [map fold_right]. rewrite !opb_assoc. reflexivity.
    + destruct s as [|c s]; [congruence|]. rewrite Hn. cbn [bind].
      destruct HS as (S1 & S2 & S3 & S4 & S5 & S6).
      destruct HP as [->|((lv & l0 & ->) & HW & HG & HC)].
      * cbn [set_level level_of append bind append_loop]. rewrite absorbing_comp.
        replace (Z.max (-1 + 1) lev) with lev by lia.
        destruct (IH lev l ints) as (lev' & l' & ints' & E & H1 & H2 & H3); auto; [repeat split; auto|].
        exists lev', l', ints'. split; [exact E|]. split; [exact H1|]. split; [exact H2|]. intros v. rewrite H3. f_equal.
        unfold folded. cbn [map fold_right]. rewrite <- Hv. cbn [eval]. rewrite eval_cst_comp, opb_neutral. reflexivity.
      * assert (0 <= lv) by (apply wf_seq in HW; tauto).
        cbn [set_level append bind append_loop level_of].
        destruct (IH (Z.max (Z.max (lv + 1) lev) (lv + 1)) (l ++ [Seq (comp_op op) lv l0]) ints) as (lev' & l' & ints' & E & H1 & H2 & H3); auto.
        { repeat split; try lia; apply Forall_app; split; auto. repeat constructor. }
        exists lev', l', ints'. split; [exact E|]. split; [exact H1|]. split; [exact H2|]. intros v. rewrite H3.
        rewrite evl_app, evl_cons, evl_nil, opb_neutral_r, Hv. unfold folded. cbn [map fold_right].
        rewrite !opb_assoc. f_equal. rewrite <- !opb_assoc. f_equal. apply opb_comm.
Qed.

(* ------------------------------------------------------------------ *)
(** * The set of integers *)

Definition opp_free (ints : list Z) : Prop := forall z, In z ints -> z <> 0 -> ~ In (- z) ints.

Lemma set_lengths ints : Forall (fun z => z <> 0) ints ->
  length (nodup Z.eq_dec ints) = length (nodup Z.eq_dec (map Z.abs ints)) <-> opp_free ints.
Proof.
  intros HZ. set (i' := nodup Z.eq_dec ints). set (a := nodup Z.eq_dec (map Z.abs ints)).
  assert (HN : NoDup i') by apply NoDup_nodup.
  assert (HA : NoDup a) by apply NoDup_nodup.
  assert (Hi : forall z, In z i' <-> In z ints) by (intros; apply nodup_In).
  assert (Ha : forall z, In z a <-> exists y, In y ints /\ Z.abs y = z).
  { intros z. unfold a. rewrite nodup_In, in_map_iff. split; intros (y & H1 & H2); exists y; auto. }
  split; intros H.
  - intros z H1 H2 H3.
    assert (ND : NoDup (map Z.abs i')).
    { apply (@NoDup_incl_NoDup _ a); auto.
      - rewrite map_length. lia.
      - intros y Hy. apply Ha in Hy. destruct Hy as (w & W1 & <-). apply in_map. apply Hi; auto. }
    apply Hi in H1, H3. apply in_split in H1. destruct H1 as (l1 & l2 & E). rewrite E in *.
    rewrite map_app in ND. simpl in ND. apply NoDup_remove_2 in ND. apply ND.
    rewrite <- map_app. apply in_elt_inv in H3. destruct H3 as [H3|H3]; [lia|].
    replace (Z.abs z) with (Z.abs (- z)) by lia. apply in_map; auto.
  - apply Nat.le_antisymm.
    + rewrite <- (map_length Z.abs i'). apply NoDup_incl_length.
      * assert (HF : forall l, NoDup l -> incl l ints -> NoDup (map Z.abs l)).
        { intros l Hl. induction Hl as [|x l Hx Hl IH]; simpl; intros HI; constructor.
          - rewrite in_map_iff. intros (y & E & Hy).
            assert (y = x \/ y = - x) as [->| ->] by lia; auto.
            assert (Hx' : In x ints) by (apply HI; simpl; auto).
            rewrite Forall_forall in HZ. apply (H x); auto. apply HI. simpl; auto.
          - apply IH. intros w Hw. apply HI. simpl; auto. }
        apply HF; auto. intros w Hw. apply Hi; auto.
      * intros y Hy. apply in_map_iff in Hy. destruct Hy as (w & <- & Hw). apply Ha. exists w. split; auto. apply Hi; auto.
    + rewrite <- (map_length Z.abs i'). apply NoDup_incl_length; auto.
      intros y Hy. apply Ha in Hy. destruct Hy as (w & W & <-). apply in_map. apply Hi; auto.
Qed.

Lemma evl_nodup v op ints : evl v op (map Lit (nodup Z.eq_dec ints)) = evl v op (map Lit ints).
Proof.
  induction ints as [|z ints IH]; simpl nodup; auto.
  destruct (in_dec Z.eq_dec z ints) as [H|H]; simpl map.
  - rewrite IH, evl_cons. apply in_split in H. destruct H as (l1 & l2 & ->).
    rewrite map_app, evl_app. simpl map. rewrite evl_cons.
    destruct op, (eval v (Lit z)), (evl v AND (map Lit l1)), (evl v AND (map Lit l2)), (evl v OR (map Lit l1)), (evl v OR (map Lit l2)); reflexivity.
  - rewrite !evl_cons, IH. reflexivity.
Qed.

Lemma evl_opp v op ints : Forall (fun z => z <> 0) ints -> ~ opp_free ints ->
  evl v op (map Lit ints) = absorbing op.
Proof.
  intros HZ H.
  assert (HE : exists z, In z ints /\ In (- z) ints).
  { destruct (existsb (fun z => if in_dec Z.eq_dec (- z) ints then true else false) ints) eqn:E.
    - apply existsb_exists in E. destruct E as (z & H1 & H2). exists z. split; auto.
      destruct (in_dec Z.eq_dec (- z) ints); auto; discriminate.
    - exfalso. apply H. intros z H1 _ H2.
      assert (E' : existsb (fun z => if in_dec Z.eq_dec (- z) ints then true else false) ints = true).
      { apply existsb_exists. exists z. split; auto. destruct (in_dec Z.eq_dec (- z) ints); auto. }
      congruence. }
  destruct HE as (z & H1 & H2).
  assert (z <> 0) by (rewrite Forall_forall in HZ; auto).
  destruct (Bool.bool_dec (lit_val v z) (absorbing op)) as [E|E].
  - apply (evl_in_absorb v op (Lit z)); auto. apply in_map; auto.
  - apply (evl_in_absorb v op (Lit (- z))); [apply in_map; auto|]. simpl. rewrite lit_val_opp by auto.
    destruct op, (lit_val v z); simpl in *; congruence.
Qed.

Lemma append_lits op ints : forall lev l, 0 <= lev ->
  NoDup ints -> opp_free ints -> Forall (fun z => z <> 0) ints ->
  (forall z, In z ints -> ~ In (Lit z) l /\ ~ In (Lit (- z)) l) ->
  append_loop op lev l (map (fun z => AN (Lit z)) ints) = Seq op lev (l ++ map Lit ints).
Proof.
  induction ints as [|z ints IH]; intros lev l HL ND OF HZ HD; simpl.
  - rewrite app_nil_r. reflexivity.
  - destruct (HD z (or_introl eq_refl)) as (D1 & D2).
    inversion ND as [|? ? ND1 ND2]; subst. inversion HZ as [|? ? HZ1 HZ2]; subst.
    destruct (in_lits z l) eqn:E1; [apply in_lits_In in E1; tauto|].
    destruct (in_lits (- z) l) eqn:E2; [apply in_lits_In in E2; tauto|].
    replace (Z.max lev 0) with lev by lia. rewrite IH; auto.
    + rewrite <- app_assoc. reflexivity.
    + intros y Hy Hy0 Hn. apply (OF y); simpl; auto.
    + intros y Hy. destruct (HD y (or_intror Hy)) as (F1 & F2). rewrite !in_app_iff. simpl. split; intros [HH|[HH|[]]]; auto.
      * injection HH as <-. auto.
      * injection HH as HH. rewrite Forall_forall in HZ2. apply (OF y); [right; auto|apply HZ2; auto|left; lia].
Qed.

Definition perm_order (sord : list Z -> list Z) : Prop := forall l, Permutation (sord l) l.

Lemma finish_spec sord op lev l ints : perm_order sord -> selfok op lev l -> Forall (fun z => z <> 0) ints ->
  exists n,
   (do self' <-
        (if Nat.eqb (length (nodup Z.eq_dec ints)) (length (nodup Z.eq_dec (map Z.abs ints)))
         then append (Seq op lev l) (map (fun z => AN (Lit z)) (sord (nodup Z.eq_dec ints)))
         else Ok (Cst op (-1) (absorbing op)));
      group_single self') = Ok n /\ pres op n /\
   forall v, eval v n = opb op (evl v op l) (evl v op (map Lit ints)).
Proof.
  intros HP (S1 & S2 & S3 & S4 & S5 & S6) HZ.
  destruct (Nat.eqb_spec (length (nodup Z.eq_dec ints)) (length (nodup Z.eq_dec (map Z.abs ints)))) as [E|E].
  - apply set_lengths in E; auto. set (is := sord (nodup Z.eq_dec ints)).
    assert (HPm : Permutation is (nodup Z.eq_dec ints)) by apply HP.
    assert (HIn : forall z, In z is <-> In z ints).
    { intros z. rewrite <- (nodup_In Z.eq_dec ints z). split; apply Permutation_in; auto. symmetry; auto. }
    cbn [append bind]. rewrite append_lits; auto.
    2:{ eapply Permutation_NoDup; [symmetry; exact HPm|apply NoDup_nodup]. }
    2:{ intros z H1 H2 H3. apply (E z); auto; apply HIn; auto. }
    2:{ rewrite Forall_forall in *. intros z Hz. apply HZ, HIn; auto. }
    2:{ intros z _. rewrite Forall_forall in S3. split; intros H; apply S3 in H; simpl in H; auto. }
    assert (HW : wf (Seq op lev (l ++ map Lit is))).
    { apply wf_seq. repeat split; auto.
      - intros ->. rewrite S2 by auto. simpl. apply Forall_map. apply Forall_forall. simpl; auto.
      - apply Forall_app; split; auto. apply Forall_map. simpl. rewrite Forall_forall in *. intros z Hz. apply HZ, HIn; auto. }
    assert (HC : Forall no_const (l ++ map Lit is)).
    { apply Forall_app; split; auto. apply Forall_map. apply Forall_forall. simpl; auto. }
    destruct (group_single_total op lev (l ++ map Lit is)) as (l' & EG & G1 & G2).
    { left. eapply Forall_impl; [|exact HC]. intros [] H; simpl in *; auto; tauto. }
    exists (Seq op lev l'). split; auto.
    pose proof (group_single_wf _ _ EG HW) as HW'. split.
    + right. split; [eauto|]. split; auto. split.
      * apply gr_seq. destruct (Z.eq_dec lev 0) as [->|Hl].
        -- split; [tauto|]. rewrite G1 by auto. apply Forall_app; split; auto.
           apply Forall_map, Forall_forall. simpl; auto.
        -- destruct (G2 Hl) as (A1 & A2). split; auto. apply Forall_forall. intros x Hx.
           destruct (A2 x Hx) as [HH|(g & -> & HH)].
           ++ apply in_app_iff in HH. destruct HH as [HH|HH].
              ** rewrite Forall_forall in S5; auto.
              ** apply in_map_iff in HH. destruct HH as (z & <- & _). simpl. auto.
           ++ apply gr_seq. split; [tauto|].
              apply wf_seq in HW'. destruct HW' as (_ & _ & HW'). rewrite Forall_forall in HW'. apply HW' in Hx.
              apply wf_seq in Hx. destruct Hx as (_ & Hx & _). specialize (Hx eq_refl).
              eapply Forall_impl; [|exact Hx]. intros [] Hy; simpl in *; tauto.
      * apply no_const_seq. apply Forall_forall. destruct (Z.eq_dec lev 0) as [->|Hl].
        -- rewrite G1 by auto. apply Forall_forall; auto.
        -- destruct (G2 Hl) as (A1 & A2). intros x Hx.
           destruct (A2 x Hx) as [HH|(g & -> & HH)].
           ++ rewrite Forall_forall in HC; auto.
           ++ apply no_const_seq.
              apply wf_seq in HW'. destruct HW' as (_ & _ & HW'). rewrite Forall_forall in HW'. apply HW' in Hx.
              apply wf_seq in Hx. destruct Hx as (_ & Hx & _). specialize (Hx eq_refl).
              eapply Forall_impl; [|exact Hx]. intros [] Hy; simpl in *; tauto.
    + intros v. rewrite (group_single_eval v _ _ EG), eval_seq, evl_app. f_equal.
      rewrite <- (evl_nodup v op ints). apply evl_perm. apply Permutation_map. auto.
  - exists (Cst op (-1) (absorbing op)). split; [reflexivity|]. split; [left; auto|].
    intros v. rewrite (evl_opp v op ints), opb_absorb_r; auto.
    intros H. apply E. apply set_lengths; auto.
Qed.

(* ------------------------------------------------------------------ *)
(** * The parser *)

Definition top_op (t : tree) : bop := if tv t then OR else AND.

Lemma nocol_wl L : wl L -> nocol (twice L).
Proof. unfold nocol, twice. induction 1; simpl; auto. destruct H as [->| ->]; simpl; auto. Qed.
Lemma nocol_wr L : wr L -> nocol (twice L).
Proof. unfold nocol, twice. induction 1; simpl; auto. destruct H as [->| ->]; simpl; auto. Qed.

Lemma folded_or (fs : list bool) : folded OR fs = existsb (fun b => b) fs.
Proof. unfold folded. induction fs; simpl; [reflexivity|]. f_equal; auto. Qed.
Lemma folded_and (fs : list bool) : folded AND fs = forallb (fun b => b) fs.
Proof. unfold folded. induction fs; simpl; [reflexivity|]. f_equal; auto. Qed.

Lemma set_def_spec sord : perm_order sord -> forall fuel p, (length (ptext p) < fuel)%nat -> pgood p ->
  exists n, set_def sord fuel (ptext p) = Ok n /\ pres (top_op (ptree p)) n /\
    forall v, eval v n = sem v (ptree p).
Proof.
  intros HP. induction fuel as [|fuel IH]; intros p HF HG; [lia|].
  destruct p as [[L t] R]. assert (HG' := HG). destruct HG as (HL & HR & HO & HT). cbn [ptext ptree] in *.
  cbn [set_def]. unfold outer_terms.
  destruct (passes_text zero_fill zero_open zero_close zero_caret zero_colon L R t HL HR HO HT)
    as (x & EP & E1 & N & HGx & C).
  rewrite EP. cbn [bind].
  assert (EC : existsb (is_c ":") (twice L ++ rd x ++ twice R) = vis x).
  { rewrite !existsb_app, colon_rd by auto.
    rewrite (nocol_wl L HL), (nocol_wr R HR), orb_false_r. reflexivity. }
  rewrite EC. assert (HV := vis_tv x C HGx). rewrite E1 in HV.
  unfold top_op. rewrite <- HV. destruct (vis x) eqn:EV; cbn [bind].
  - (* union *)
    rewrite split_oterms; auto using nocol_wl, nocol_wr. rewrite !fst_twice, map_map.
    set (ps := oterms L x R).
    assert (HPS : Forall (fun p => pgood p /\ tv (ptree p) = false) ps).
    { apply oterms_good; auto. rewrite E1; auto. }
    assert (HLn : Forall (fun p => (length (ptext p) + 1 <= length (L ++ text mcnp t ++ R))%nat) ps).
    { pose proof (oterms_length x L R C HGx) as H. rewrite EV, E1 in H. exact H. }
    assert (HF2 : Forall2 (term_ok (set_def sord fuel) OR) (map (fun p => strip is_space (ptext p)) ps)
                    (map (fun p v => sem v (ptree p)) ps)).
    { clearbody ps. induction HPS as [|p ps (P1 & P2) HPS IHp]; simpl; constructor.
      - inversion HLn as [|? ? HL1 HL2]; subst.
        destruct (strip_piece p P1) as (p' & ES & Q1 & Q2 & Q3 & _). 
        pose proof (strip_length is_space (ptext p)) as HSL. rewrite ES in *.
        destruct (as_integer (ptext p')) as [z|] eqn:EA.
        + left. exists z. destruct (as_integer_piece p' z Q1 EA) as (Z1 & Z2). repeat split; auto.
          intros v. rewrite <- Q2. auto.
        + right. split; auto. split.
          * destruct p' as [[L' t'] R']. simpl. destruct Q1 as (_ & _ & _ & HT').
            intros E. apply app_eq_nil in E. destruct E as (_ & E). apply app_eq_nil in E. destruct E as (E & _).
            apply (text_nonnil _ HT' E).
          * destruct (IH p') as (n & E & Hn & Hv); auto; [lia|].
            exists n. split; auto. unfold top_op in Hn. rewrite Q3, P2 in Hn. split; auto.
            intros v. rewrite Hv. auto.
      - inversion HLn; auto. }
    destruct (def_loop_spec _ _ _ _ HF2 0 [] []) as (lev & l & ints & ED & S1 & S2 & S3).
    { repeat split; auto; lia. }
    { constructor. }
    rewrite ED. cbn [bind].
    destruct (finish_spec sord OR lev l ints HP S1 S2) as (n & EF & Hn & Hv).
    exists n. split; [exact EF|]. split; auto. intros v. rewrite Hv, S3.
    rewrite map_map. rewrite folded_or. cbn [evl map existsb opb orb].
    rewrite <- E1, (oterms_sem v x L R). fold ps. clear. induction ps; simpl; congruence.
  - (* intersection *)
    assert (ESC : scan_terms (length (twice L ++ rd x ++ twice R)) (twice L ++ rd x ++ twice R) =
                  map (text mcnp) (aterms x)).
    { change (sc (twice L ++ rd x ++ twice R) = map (text mcnp) (aterms x)).
      rewrite sc_nostarts.
      2:{ apply twice_Forall. eapply Forall_impl; [|exact HL]. intros c [->| ->]; reflexivity. }
      rewrite (sc_render x false); auto.
      - rewrite <- (app_nil_r (twice R)), sc_nostarts; [apply app_nil_r|].
        apply twice_Forall. eapply Forall_impl; [|exact HR]. intros c [->| ->]; reflexivity.
      - rewrite E1; auto.
      - intros _. destruct HR as [|c R' HR1 HR2]; simpl; auto. destruct HR1 as [->| ->]; reflexivity. }
    rewrite ESC.
    assert (HA : Forall (fun t' => match t' with
      | TNum 0 sg ds 0 => grammatical mcnp t'
      | TPar 0 t2 0 => grammatical mcnp t' /\ tv t2 = true /\
          (length (text mcnp t') + 1 <= length (text mcnp t))%nat
      | _ => False end) (aterms x)).
    { pose proof (aterms_good x false C HGx) as H. rewrite E1 in H. auto. }
    assert (HF2 : Forall2 (term_ok (set_def sord fuel) AND) (map (text mcnp) (aterms x))
                    (map (fun t v => sem v t) (aterms x))).
    { clear ESC. induction HA as [|a l Ha Hl IHl]; simpl; constructor; auto.
      destruct a as [[] sg ds []|[] t2 []|a a'|a a']; try tauto.
      - left. exists (num_val sg ds). assert (HN := gram_num _ _ _ _ Ha). simpl.
        rewrite app_nil_r. split; [apply as_integer_num; auto|]. simpl in Ha. split; tauto.
      - destruct Ha as (A1 & A2 & A3).
        assert (HQ : pgood ([], TPar 0 t2 0, [])) by (repeat split; auto; try constructor; constructor).
        assert (HQt : ptext ([], TPar 0 t2 0, []) = text mcnp (TPar 0 t2 0)).
        { cbn [ptext app]. apply app_nil_r. }
        destruct (as_integer (text mcnp (TPar 0 t2 0))) as [z|] eqn:EA.
        + left. exists z. assert (EA' := EA). rewrite <- HQt in EA'. destruct (as_integer_piece _ z HQ EA') as (Z1 & Z2). auto.
        + right. split; auto. split; [discriminate|].
          destruct (IH ([], TPar 0 t2 0, [])) as (n & E & Hn & Hv); auto.
          { rewrite HQt. rewrite !app_length in HF. lia. }
          exists n. rewrite HQt in E. split; auto. unfold top_op in Hn. cbn [ptree tv] in Hn. rewrite A2 in Hn. auto. }
    destruct (def_loop_spec _ _ _ _ HF2 0 [] []) as (lev & l & ints & ED & S1 & S2 & S3).
    { repeat split; auto; lia. }
    { constructor. }
    rewrite ED. cbn [bind].
    destruct (finish_spec sord AND lev l ints HP S1 S2) as (n & EF & Hn & Hv).
    exists n. split; [exact EF|]. split; auto. intros v. rewrite Hv, S3.
    rewrite map_map. rewrite folded_and. cbn [evl map forallb opb andb].
    rewrite <- E1, (aterms_sem v x EV). clear. induction (aterms x); simpl; congruence.
Qed.

Lemma parse_spec sord t : perm_order sord -> grammatical mcnp t ->
  exists n, parse sord (text mcnp t) = Ok n /\ pres (top_op t) n /\ forall v, eval v n = sem v t.
Proof.
  intros HP HT. unfold parse.
  assert (HQ : pgood ([], t, [])) by (repeat split; auto; try constructor; constructor).
  destruct (set_def_spec sord HP (S (length (text mcnp t))) ([], t, [])) as (n & E & Hn & Hv); auto.
  - cbn [ptext app]. rewrite app_nil_r. lia.
  - cbn [ptext app] in E. rewrite app_nil_r in E. eauto.
Qed.
