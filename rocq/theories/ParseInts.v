(** The items of an intersection and the recognition of integers. *)
From Coq Require Import Ascii String Decimal DecimalZ.
From Verif Require Import Prelude BoolSpec BoolSeq CellText ParenModel BoolProofs WritersProofs ParenProofs ParenRemove ParseTerms.

(* ------------------------------------------------------------------ *)
(** * Scanning an intersection *)

Fixpoint aterms (x : xt) : list tree :=
  match x with
  | XNum _ sg ds _ => [TNum 0 sg ds 0]
  | XBr _ t _ => [TPar 0 (erase t) 0]
  | XFlat _ t _ | XOpen _ t _ => aterms t
  | XAnd a b => aterms a ++ aterms b
  | XOr a b => []
  end.

Lemma span_length p l : (length (snd (span p l)) <= length l)%nat.
Proof. induction l as [|x l IH]; simpl; auto. destruct (p x); simpl; auto. destruct (span p l); simpl in *. lia. Qed.
Lemma span_cons_length p l a m b : span p l = (a :: m, b) -> (length b < length l)%nat.
Proof.
  destruct l as [|x l]; simpl; [discriminate|]. destruct (p x); [|discriminate].
  pose proof (span_length p l). destruct (span p l). intros H'. injection H' as <- <- <-. simpl in *. lia.
Qed.
Lemma match_length l m r : match_at l = Some (m, r) -> (length r < length l)%nat.
Proof.
  unfold match_at. destruct l as [|p l]; [discriminate|].
  destruct (is_sign (snd p)) eqn:ES.
  - destruct (span (fun p => is_digit (snd p)) l) as [[|d ds] r'] eqn:E.
    + destruct (is_c "[" p); [|discriminate].
      destruct (span (is_c "0") l) as [[|z zs] [|c r0]] eqn:E2; try discriminate.
      destruct (is_c "]" c); [|discriminate]. intros H; injection H as <- <-.
      apply span_cons_length in E2. simpl in *. lia.
    + intros H; injection H as <- <-. apply span_cons_length in E. simpl. lia.
  - destruct (span (fun p => is_digit (snd p)) (p :: l)) as [[|d ds] r'] eqn:E.
    + destruct (is_c "[" p); [|discriminate].
      destruct (span (is_c "0") l) as [[|z zs] [|c r0]] eqn:E2; try discriminate.
      destruct (is_c "]" c); [|discriminate]. intros H; injection H as <- <-.
      apply span_cons_length in E2. simpl in *. lia.
    + intros H; injection H as <- <-. apply span_cons_length in E. simpl in *. lia.
Qed.
Lemma scan_fuel n : forall l m, (length l <= n)%nat -> (length l <= m)%nat -> scan_terms n l = scan_terms m l.
Proof.
  induction n as [|n IH]; intros [|p l] [|m] H1 H2; cbn [length scan_terms] in *; auto; try lia.
  destruct (match_at (p :: l)) as [[a r]|] eqn:E.
  - apply match_length in E. simpl in E. f_equal. apply IH; lia.
  - apply IH; lia.
Qed.
Definition sc (l : list pc) : list chars := scan_terms (length l) l.
Lemma sc_cons p l : sc (p :: l) = match match_at (p :: l) with
  | Some (m, r) => map fst m :: sc r | None => sc l end.
Proof.
  unfold sc. cbn [length scan_terms]. destruct (match_at (p :: l)) as [[a r]|] eqn:E; auto.
  apply match_length in E. simpl in E. f_equal. apply scan_fuel; lia.
Qed.

Definition nostart (p : pc) : bool := negb (is_digit (snd p) || is_sign (snd p) || is_c "[" p).
Lemma sc_nostart p l : nostart p = true -> sc (p :: l) = sc l.
Proof.
  unfold nostart. intros H. rewrite negb_true_iff in H. apply orb_false_iff in H. destruct H as (H & H3).
  apply orb_false_iff in H. destruct H as (H1 & H2).
  rewrite sc_cons. unfold match_at. rewrite H2, H3. simpl. rewrite H1. reflexivity.
Qed.
Lemma sc_nostarts W l : Forall (fun p => nostart p = true) W -> sc (W ++ l) = sc l.
Proof. induction 1; simpl; auto. rewrite sc_nostart; auto. Qed.
Lemma sc_bl n l : sc (bl n ++ l) = sc l.
Proof. apply sc_nostarts. apply bl_Forall. reflexivity. Qed.

Definition nodig (l : list pc) : Prop := match l with [] => True | p :: _ => is_digit (snd p) = false end.
Lemma span_app (p : pc -> bool) a b : Forall (fun x => p x = true) a ->
  match b with [] => True | x :: _ => p x = false end -> span p (a ++ b) = (a, b).
Proof.
  intros H Hb. induction H as [|x a Hx Ha IH]; simpl.
  - destruct b as [|y b]; simpl; auto. rewrite Hb. auto.
  - rewrite Hx, IH. auto.
Qed.
Lemma match_num sg ds l : good_num sg ds -> nodig l ->
  match_at (twice (sg ++ digits ds) ++ l) = Some (twice (sg ++ digits ds), l).
Proof.
  intros (S & D) HN.
  assert (HS : span (fun p => is_digit (snd p)) (twice (digits ds) ++ l) = (twice (digits ds), l)).
  { apply span_app; [|exact HN]. apply twice_Forall. apply digits_digit. }
  destruct S as [->|[->| ->]].
  - rewrite app_nil_l.
    assert (HD : exists p q, twice (digits ds) = p :: q /\ is_digit (snd p) = true).
    { destruct ds; try congruence; simpl; eauto. }
    destruct HD as (p & q & E & Hp). rewrite E in *.
    change ((p :: q) ++ l) with (p :: (q ++ l)) in *. unfold match_at.
    assert (ES : is_sign (snd p) = false)
      by (destruct p as [o c]; simpl in *; clear - Hp; unfold is_sign; digit Hp; reflexivity).
    rewrite ES, HS. reflexivity.
  - simpl app. unfold match_at. simpl. rewrite HS. destruct ds; try congruence; reflexivity.
  - simpl app. unfold match_at. simpl. rewrite HS. destruct ds; try congruence; reflexivity.
Qed.
Lemma sc_num sg ds l : good_num sg ds -> nodig l ->
  sc (twice (sg ++ digits ds) ++ l) = (sg ++ digits ds) :: sc l.
Proof.
  intros H HN. pose proof (match_num sg ds l H HN) as E.
  destruct (twice (sg ++ digits ds)) as [|p q] eqn:ET.
  { destruct H as (_ & H). destruct sg; [destruct ds; try congruence; discriminate|discriminate]. }
  simpl app in *. rewrite sc_cons, E. rewrite <- (fst_twice (sg ++ digits ds)), ET. reflexivity.
Qed.
Lemma sc_br (w r : list pc) : w <> [] ->
  sc (("("%char, "["%char) :: refill zero_fill w ++ (")"%char, "]"%char) :: r) =
  ("("%char :: map fst w ++ [")"%char]) :: sc r.
Proof.
  intros HW. rewrite sc_cons. unfold match_at. simpl.
  rewrite span_app; simpl; auto.
  - destruct w as [|p w]; [congruence|]. simpl. rewrite map_app. simpl. rewrite fst_refill. reflexivity.
  - apply Forall_map. apply Forall_forall. reflexivity.
Qed.

Lemma text_nonnil t : grammatical mcnp t -> text mcnp t <> [].
Proof.
  induction t; simpl; intros H E.
  - destruct H as (_ & H & _). apply app_eq_nil in E. destruct E as (_ & E).
    apply app_eq_nil in E. destruct E as (_ & E). destruct ds; simpl in *; try congruence.
  - apply app_eq_nil in E. destruct E. discriminate.
  - apply app_eq_nil in E. apply IHt1; tauto.
  - apply app_eq_nil in E. destruct E. discriminate.
Qed.

Lemma nodig_start x : nums x -> ~ starts_num (erase x) -> forall l, nodig (rd x ++ l).
Proof.
  induction x; simpl; intros N H l; auto.
  - destruct pre; [tauto|]. reflexivity.
  - destruct pre; reflexivity.
  - destruct pre; reflexivity.
  - destruct pre; reflexivity.
  - rewrite <- app_assoc. apply IHx1; tauto.
  - rewrite <- app_assoc. apply IHx1; tauto.
Qed.

Lemma sc_render x : forall b rest, nums x -> closed x -> G b x -> vis x = false -> grammatical mcnp (erase x) ->
  (ends_num (erase x) -> nodig rest) ->
  sc (rd x ++ rest) = map (text mcnp) (aterms x) ++ sc rest.
Proof.
  induction x; intros b rest N C HG HV HT HE; simpl in N, C, HG, HV, HT.
  - simpl. rewrite twice_app, <- app_assoc. fold (bl pre). rewrite sc_bl.
    rewrite (app_assoc sg), twice_app, <- app_assoc. fold (bl post).
    rewrite sc_num; auto.
    + rewrite sc_bl. rewrite app_nil_r. reflexivity.
    + destruct post; [simpl; apply HE; reflexivity|reflexivity].
  - simpl. rewrite <- app_assoc, sc_bl. simpl. rewrite <- app_assoc. simpl.
    rewrite sc_br.
    + rewrite sc_bl, fst_render. reflexivity.
    + intros E. apply (f_equal (map fst)) in E. rewrite fst_render in E. apply (text_nonnil _ HT E).
  - tauto.
  - simpl. rewrite <- app_assoc, sc_bl. simpl. rewrite sc_nostart by reflexivity. rewrite <- app_assoc. simpl.
    rewrite (IHx false); try tauto.
    + rewrite sc_nostart by reflexivity. rewrite sc_bl. reflexivity.
    + intros _. reflexivity.
  - apply orb_false_iff in HV. destruct HV as (V1 & V2), N as (N1 & N2), C as (C1 & C2), HG as (G1 & G2 & G3), HT as (T1 & T2 & _).
    simpl. rewrite <- app_assoc, (IHx1 true); auto.
    + rewrite (IHx2 true); auto. rewrite map_app, <- app_assoc. reflexivity.
    + intros He. apply nodig_start; auto.
  - discriminate.
Qed.

Lemma aterms_sem v x : vis x = false -> sem v (erase x) = forallb (sem v) (aterms x).
Proof.
  induction x; simpl; intros H; rewrite ?andb_true_r; auto; try discriminate.
  apply orb_false_iff in H. rewrite forallb_app, IHx1, IHx2; tauto.
Qed.

Lemma aterms_good x : forall b, closed x -> G b x -> grammatical mcnp (erase x) ->
  Forall (fun t => match t with
    | TNum 0 sg ds 0 => grammatical mcnp t
    | TPar 0 t' 0 => grammatical mcnp t /\ tv t' = true /\
         (length (text mcnp t) + (if b then 0 else 1) <= length (text mcnp (erase x)))%nat
    | _ => False end) (aterms x).
Proof.
  induction x; intros b C HG HT; simpl in C, HG, HT; simpl aterms.
  - constructor; [|constructor]. simpl. tauto.
  - destruct HG as (-> & HV & HC & HG). constructor; [|constructor].
    rewrite vis_tv in HV by auto. split; [exact HT|]. split; auto.
    simpl. rewrite !app_length. simpl. rewrite !app_length. simpl. lia.
  - tauto.
  - destruct HG as (HC & HG & _). eapply Forall_impl; [|apply (IHx false); auto].
    intros [[] sg ds []|[] t' []|a a'|a a'] H; auto. destruct H as (H1 & H2 & H3). repeat split; auto.
    simpl in H3 |- *. rewrite !app_length in *. simpl in *. rewrite !app_length in *. destruct b; lia.
  - destruct C as (C1 & C2), HG as (G1 & G2 & G3), HT as (T1 & T2 & _).
    assert (P1 : (length (text mcnp (erase x1)) > 0)%nat).
    { pose proof (text_nonnil _ T1). destruct (text mcnp (erase x1)); simpl; [congruence|lia]. }
    assert (P2 : (length (text mcnp (erase x2)) > 0)%nat).
    { pose proof (text_nonnil _ T2). destruct (text mcnp (erase x2)); simpl; [congruence|lia]. }
    apply Forall_app; split; (eapply Forall_impl; [|apply (IHx1 true) || apply (IHx2 true); auto]);
    intros [[] sg ds []|[] t' []|a a'|a a'] H; auto; destruct H as (H1 & H2 & H3); repeat split; auto;
    simpl in H3 |- *; rewrite ?app_length in *; simpl in *; rewrite ?app_length in *; destruct b; lia.
  - constructor.
Qed.

(* ------------------------------------------------------------------ *)
(** * Recognising integers *)

Lemma drop_split p l : exists a, l = a ++ drop_while p l /\ Forall (fun c => p c = true) a.
Proof.
  induction l as [|c l (a & IH1 & IH2)]; simpl; [exists []; auto|].
  destruct (p c) eqn:E; [exists (c :: a); simpl; rewrite <- IH1; auto|exists []; auto].
Qed.
Lemma strip_split p l : exists a b, l = a ++ strip p l ++ b /\ Forall (fun c => p c = true) a /\ Forall (fun c => p c = true) b.
Proof.
  unfold strip. destruct (drop_split p l) as (a & E1 & H1).
  destruct (drop_split p (rev (drop_while p l))) as (b & E2 & H2).
  exists a, (rev b). repeat split; auto; [|apply Forall_rev; auto].
  rewrite E1 at 1. f_equal. rewrite <- rev_app_distr, <- E2, rev_involutive. reflexivity.
Qed.
Lemma drop_app p a l : Forall (fun c => p c = true) a -> drop_while p (a ++ l) = drop_while p l.
Proof. induction 1; simpl; auto. rewrite H. auto. Qed.
Lemma drop_stop p c l : p c = false -> drop_while p (c :: l) = c :: l.
Proof. simpl. intros ->. auto. Qed.

Definition wch (c : ascii) : bool := is_space c || Ascii.eqb c "(" || Ascii.eqb c ")".
Lemma digit_nowch c : is_digit c = true -> wch c = false.
Proof. intros H. digit H; reflexivity. Qed.

Lemma parse_digits_spec l d : parse_digits l = Some d -> l = digits d.
Proof.
  revert d. induction l as [|c l IH]; simpl; intros d H.
  - injection H as <-. reflexivity.
  - destruct (digit_of c) as [f|] eqn:E; [|discriminate].
    destruct (parse_digits l) as [d'|]; [|discriminate]. injection H as <-. rewrite (IH d' eq_refl).
    unfold digit_of in E.
    repeat match type of E with context [Ascii.eqb c ?x] =>
      destruct (Ascii.eqb_spec c x); [injection E as <-; subst; reflexivity|] end. discriminate.
Qed.
Lemma parse_digits_digits d : parse_digits (digits d) = Some d.
Proof. induction d; simpl; auto; rewrite IHd; reflexivity. Qed.

(** The shape of the texts accepted by is_integer. *)
Definition numshape (s : chars) (sg : chars) (ds : Decimal.uint) : Prop :=
  exists w1 w2, s = w1 ++ (sg ++ digits ds) ++ w2 /\
    Forall (fun c => wch c = true) w1 /\ Forall (fun c => wch c = true) w2.

Lemma int_of_shape s z : int_of s = Some z -> exists sg ds w1 w2,
  s = w1 ++ (sg ++ digits ds) ++ w2 /\ Forall (fun c => is_space c = true) w1 /\
  Forall (fun c => is_space c = true) w2 /\ good_num sg ds /\ z = num_val sg ds.
Proof.
  unfold int_of. destruct (strip_split is_space s) as (w1 & w2 & E & H1 & H2).
  set (s' := strip is_space s) in *. clearbody s'. intros H.
  destruct s' as [|c r]; [discriminate|].
  destruct (is_sign c) eqn:ES.
  - destruct r as [|d r]; [discriminate|].
    destruct (parse_digits (d :: r)) as [u|] eqn:EP; [|discriminate].
    injection H as <-. apply parse_digits_spec in EP. rewrite EP in E.
    assert (HU : u <> Decimal.Nil) by (intros ->; discriminate).
    unfold is_sign in ES. apply orb_true_iff in ES.
    destruct ES as [ES|ES]; apply Ascii.eqb_eq in ES; subst c.
    + exists (cs "-"), u, w1, w2. repeat split; auto.
    + exists (cs "+"), u, w1, w2. repeat split; auto.
  - destruct (parse_digits (c :: r)) as [u|] eqn:EP; [|discriminate].
    injection H as <-. apply parse_digits_spec in EP. rewrite EP in E.
    assert (HU : u <> Decimal.Nil) by (intros ->; discriminate).
    exists [], u, w1, w2. repeat split; auto.
Qed.
Lemma as_integer_shape s z : as_integer s = Some z -> exists sg ds,
  numshape s sg ds /\ good_num sg ds /\ z = num_val sg ds.
Proof.
  unfold as_integer. intros H. apply int_of_shape in H.
  destruct H as (sg & ds & w1 & w2 & E & H1 & H2 & H3 & H4).
  destruct (strip_split (fun c => Ascii.eqb c "(") s) as (a & b & E1 & A1 & A2).
  destruct (strip_split (fun c => Ascii.eqb c ")") (strip (fun c => Ascii.eqb c "(") s)) as (a' & b' & E2 & B1 & B2).
  rewrite E in E2. rewrite E2 in E1.
  exists sg, ds. split; auto. exists (a ++ a' ++ w1), (w2 ++ b' ++ b). split.
  - rewrite E1 at 1. rewrite <- !app_assoc. reflexivity.
  - split; repeat (apply Forall_app; split); eapply Forall_impl; eauto; unfold wch; intros c Hc; simpl in Hc; rewrite Hc, ?orb_true_r; reflexivity.
Qed.

(** two separate runs of digits *)
Definition two (s : chars) : bool :=
  existsb is_digit (drop_while is_digit (drop_while (fun c => negb (is_digit c)) s)).
Lemma wch_nodigit w : Forall (fun c => wch c = true) w -> Forall (fun c => negb (is_digit c) = true) w.
Proof.
  apply Forall_impl. intros c H. destruct (is_digit c) eqn:E; auto. rewrite digit_nowch in H; auto.
Qed.
Lemma numshape_one s sg ds : numshape s sg ds -> good_num sg ds -> two s = false.
Proof.
  intros (w1 & w2 & -> & H1 & H2) (S & D). unfold two.
  rewrite drop_app by (apply wch_nodigit; auto). rewrite <- app_assoc.
  assert (HS : Forall (fun c => negb (is_digit c) = true) sg) by (destruct S as [->|[->| ->]]; repeat constructor).
  rewrite drop_app by auto.
  assert (HD : drop_while (fun c => negb (is_digit c)) (digits ds ++ w2) = digits ds ++ w2).
  { destruct ds; try congruence; reflexivity. }
  rewrite HD, drop_app by apply digits_digit.
  apply wch_nodigit in H2. clear - H2.
  assert (E : drop_while is_digit w2 = w2).
  { destruct H2; simpl; auto. apply negb_true_iff in H. rewrite H. auto. }
  rewrite E. clear E. induction H2; simpl; auto. apply negb_true_iff in H. rewrite H. auto.
Qed.

Definition bad (s : chars) : Prop := exists a d b w c d' e,
  s = a ++ d :: b ++ w :: c ++ d' :: e /\ is_digit d = true /\ is_digit w = false /\ is_digit d' = true.
Lemma bad_two s : bad s -> two s = true.
Proof.
  intros (a & d & b & w & c & d' & e & -> & H1 & H2 & H3). unfold two.
  assert (E1 : forall b0, existsb is_digit (drop_while is_digit (b0 ++ w :: c ++ d' :: e)) = true).
  { induction b0 as [|x b0 IH]; simpl.
    - rewrite H2. simpl. rewrite H2. simpl. rewrite existsb_app. simpl. rewrite H3. apply orb_true_r.
    - destruct (is_digit x) eqn:E; auto. simpl. rewrite E. simpl. rewrite existsb_app. simpl.
      rewrite existsb_app. simpl. rewrite H3, !orb_true_r. reflexivity. }
  induction a as [|x a IH]; simpl.
  - rewrite H1. simpl. rewrite H1. apply E1.
  - destruct (is_digit x) eqn:E; simpl; auto.
    rewrite E. change (a ++ d :: b ++ w :: c ++ d' :: e) with (a ++ (d :: b) ++ w :: c ++ d' :: e).
    rewrite app_assoc. apply E1.
Qed.
Lemma bad_ctx L s R : bad s -> bad (L ++ s ++ R).
Proof.
  intros (a & d & b & w & c & d' & e & -> & H). exists (L ++ a), d, b, w, c, d', (e ++ R).
  split; auto. rewrite <- !app_assoc. simpl. rewrite <- !app_assoc. simpl. rewrite <- !app_assoc. reflexivity.
Qed.

Lemma hasdig t : grammatical mcnp t -> exists a d b, text mcnp t = a ++ d :: b /\ is_digit d = true.
Proof.
  induction t; simpl; intros H.
  - destruct H as (_ & H & _). exists (blanks pre ++ sg).
    assert (HD : exists c q, digits ds = c :: q /\ is_digit c = true) by (destruct ds; try congruence; simpl; eauto).
    destruct HD as (c & q & -> & Hc). exists c, (q ++ blanks post). rewrite <- !app_assoc. auto.
  - destruct (IHt H) as (a & d & b & -> & Hd). exists (blanks pre ++ "("%char :: a), d, (b ++ cs ")" ++ blanks post).
    split; auto. rewrite <- !app_assoc. simpl. rewrite <- ?app_assoc. reflexivity.
  - destruct (IHt1 (proj1 H)) as (a & d & b & -> & Hd). exists a, d, (b ++ text mcnp t2). rewrite <- app_assoc. auto.
  - destruct (IHt1 (proj1 H)) as (a & d & b & -> & Hd). exists a, d, (b ++ ":"%char :: text mcnp t2). rewrite <- app_assoc. auto.
Qed.
Lemma blanks_snoc n : blanks (S n) = blanks n ++ [" "%char].
Proof. unfold blanks. induction n; simpl in *; congruence. Qed.
Lemma ends_nd t : grammatical mcnp t -> ~ ends_num t ->
  exists a d b w, text mcnp t = a ++ d :: b ++ [w] /\ is_digit d = true /\ is_digit w = false.
Proof.
  induction t; intros H HE.
  - destruct post; [simpl in HE; tauto|].
    destruct (hasdig (TNum pre sg ds post) H) as (a & d & b & E & Hd).
    exists a, d, b, " "%char. split; auto. cbn [text]. rewrite blanks_snoc.
    cbn [text] in E. rewrite !app_assoc in *. rewrite E. rewrite <- !app_assoc. reflexivity.
  - destruct (hasdig t H) as (a & d & b & E & Hd). simpl. rewrite E.
    destruct post as [|post].
    + exists (blanks pre ++ "("%char :: a), d, b, ")"%char. split; auto. rewrite <- !app_assoc. simpl. rewrite <- ?app_assoc. reflexivity.
    + exists (blanks pre ++ "("%char :: a), d, (b ++ ")"%char :: blanks post), " "%char. split; auto.
      rewrite blanks_snoc, <- !app_assoc. simpl. rewrite <- ?app_assoc. simpl. rewrite <- ?app_assoc. reflexivity.
  - simpl in H, HE |- *. destruct IHt2 as (a & d & b & w & -> & Hd); try tauto.
    exists (text mcnp t1 ++ a), d, b, w. rewrite <- app_assoc. auto.
  - simpl in H, HE |- *. destruct IHt2 as (a & d & b & w & -> & Hd); try tauto.
    exists (text mcnp t1 ++ ":"%char :: a), d, b, w. rewrite <- app_assoc. auto.
Qed.
Lemma starts_nd t : grammatical mcnp t -> ~ starts_num t ->
  exists w a d b, text mcnp t = w :: a ++ d :: b /\ is_digit w = false /\ is_digit d = true.
Proof.
  induction t; intros H HE.
  - destruct pre; [simpl in HE; tauto|].
    destruct (hasdig (TNum pre sg ds post) H) as (a & d & b & E & Hd).
    exists " "%char, a, d, b. split; auto. simpl. f_equal. exact E.
  - destruct (hasdig t H) as (a & d & b & E & Hd). simpl. rewrite E.
    destruct pre as [|pre].
    + exists "("%char, a, d, (b ++ cs ")" ++ blanks post). split; auto. simpl. rewrite <- ?app_assoc. reflexivity.
    + exists " "%char, (blanks pre ++ "("%char :: a), d, (b ++ cs ")" ++ blanks post). split; auto.
      simpl. rewrite <- ?app_assoc. simpl. rewrite <- ?app_assoc. reflexivity.
  - simpl in H, HE |- *. destruct IHt1 as (w & a & d & b & -> & Hd); try tauto.
    exists w, a, d, (b ++ text mcnp t2). simpl. rewrite <- app_assoc. auto.
  - simpl in H, HE |- *. destruct IHt1 as (w & a & d & b & -> & Hd); try tauto.
    exists w, a, d, (b ++ ":"%char :: text mcnp t2). simpl. rewrite <- app_assoc. auto.
Qed.

Fixpoint single (t : tree) : option (chars * Decimal.uint) :=
  match t with
  | TNum _ sg ds _ => Some (sg, ds)
  | TPar _ t _ => single t
  | _ => None
  end.
Lemma single_gram t sg ds : grammatical mcnp t -> single t = Some (sg, ds) ->
  good_num sg ds /\ num_val sg ds <> 0 /\ (forall v, sem v t = lit_val v (num_val sg ds)) /\ numshape (text mcnp t) sg ds.
Proof.
  induction t; simpl; intros H HS; try discriminate.
  - injection HS as -> ->. unfold good_num. repeat split; try tauto.
    exists (blanks pre), (blanks post). rewrite <- !app_assoc. split; auto.
    split; apply blanks_Forall; reflexivity.
  - destruct (IHt H HS) as (H1 & H2 & H3 & w1 & w2 & E & H4 & H5). repeat split; auto; try apply H1.
    exists (blanks pre ++ cs "(" ++ w1), (w2 ++ cs ")" ++ blanks post). rewrite E. split.
    + rewrite <- !app_assoc. simpl. rewrite <- ?app_assoc. reflexivity.
    + split; repeat (apply Forall_app; split); auto; try (apply blanks_Forall; reflexivity); repeat constructor.
Qed.
Lemma single_none t : grammatical mcnp t -> single t = None -> bad (text mcnp t).
Proof.
  induction t; intros H HS; try discriminate.
  - replace (text mcnp (TPar pre t post)) with ((blanks pre ++ cs "(") ++ text mcnp t ++ (cs ")" ++ blanks post))
      by (simpl; rewrite <- app_assoc; reflexivity).
    apply bad_ctx. auto.
  - simpl in H |- *. destruct H as (H1 & H2 & _ & _ & H5). specialize (H5 eq_refl).
    destruct (hasdig t1 H1) as (a1 & d1 & b1 & E1 & D1).
    destruct (hasdig t2 H2) as (a2 & d2 & b2 & E2 & D2).
    assert (HH : ~ ends_num t1 \/ ~ starts_num t2).
    { assert (De : ends_num t1 \/ ~ ends_num t1).
      { clear. induction t1; simpl; auto. destruct post; auto. }
      tauto. }
    destruct HH as [HH|HH].
    + destruct (ends_nd t1 H1 HH) as (a & d & b & w & E & Hd & Hw).
      exists a, d, b, w, a2, d2, b2. rewrite E, E2, <- !app_assoc. simpl. rewrite <- !app_assoc. auto.
    + destruct (starts_nd t2 H2 HH) as (w & a & d & b & E & Hw & Hd).
      exists a1, d1, b1, w, a, d, b. rewrite E, E1, <- !app_assoc. auto.
  - simpl in H |- *. destruct H as (H1 & H2).
    destruct (hasdig t1 H1) as (a1 & d1 & b1 & E1 & D1).
    destruct (hasdig t2 H2) as (a2 & d2 & b2 & E2 & D2).
    exists a1, d1, b1, ":"%char, a2, d2, b2. rewrite E1, E2, <- !app_assoc. auto.
Qed.

Lemma numshape_ctx L s R sg ds : numshape s sg ds ->
  Forall (fun c => wch c = true) L -> Forall (fun c => wch c = true) R -> numshape (L ++ s ++ R) sg ds.
Proof.
  intros (w1 & w2 & -> & H1 & H2) HL HR. exists (L ++ w1), (w2 ++ R). split; [rewrite <- !app_assoc; reflexivity|].
  split; apply Forall_app; auto.
Qed.
Lemma numshape_strip s sg ds : numshape s sg ds -> good_num sg ds -> strip wch s = sg ++ digits ds.
Proof.
  intros (w1 & w2 & -> & H1 & H2) (S & D). unfold strip.
  rewrite drop_app by auto.
  assert (E : drop_while wch ((sg ++ digits ds) ++ w2) = (sg ++ digits ds) ++ w2).
  { destruct S as [->|[->| ->]]; try reflexivity. destruct ds; try congruence; reflexivity. }
  rewrite E, rev_app_distr, drop_app by (apply Forall_rev; auto).
  destruct (digits_last ds D) as (m & c & E2 & Hc).
  rewrite E2, app_assoc, rev_app_distr. simpl. rewrite digit_nowch by auto.
  rewrite <- (rev_involutive (sg ++ m)) at 2. simpl. reflexivity.
Qed.
Lemma num_inj sg ds sg' ds' : good_num sg ds -> good_num sg' ds' ->
  sg ++ digits ds = sg' ++ digits ds' -> num_val sg ds = num_val sg' ds'.
Proof.
  intros (S & D) (S' & D') E.
  assert (HJ : forall a b, digits a = digits b -> a = b).
  { intros a b H. apply (f_equal parse_digits) in H. rewrite !parse_digits_digits in H. congruence. }
  destruct S as [->|[->| ->]], S' as [->|[->| ->]]; simpl in E; unfold num_val; simpl;
    try (injection E as E); try (apply HJ in E; subst; reflexivity);
    exfalso; destruct ds, ds'; simpl in *; congruence.
Qed.

Lemma wl_wch L : wl L -> Forall (fun c => wch c = true) L.
Proof. apply Forall_impl. intros c [->| ->]; reflexivity. Qed.
Lemma wr_wch L : wr L -> Forall (fun c => wch c = true) L.
Proof. apply Forall_impl. intros c [->| ->]; reflexivity. Qed.

(** A piece taken for an integer is that integer. *)
Lemma as_integer_piece p z : pgood p -> as_integer (ptext p) = Some z ->
  z <> 0 /\ forall v, sem v (ptree p) = lit_val v z.
Proof.
  destruct p as [[L t] R]. intros (HL & HR & _ & HT) H. simpl in *.
  apply as_integer_shape in H. destruct H as (sg & ds & HS & HG & ->).
  destruct (single t) as [[sg' ds']|] eqn:E.
  - destruct (single_gram t sg' ds' HT E) as (A1 & A2 & A3 & A4).
    assert (EQ : num_val sg ds = num_val sg' ds').
    { apply num_inj; auto. rewrite <- (numshape_strip _ _ _ HS HG). symmetry.
      rewrite <- (numshape_strip (L ++ text mcnp t ++ R) sg' ds'); auto.
      apply numshape_ctx; auto using wl_wch, wr_wch. }
    rewrite EQ. auto.
  - exfalso. apply single_none in E; auto. apply (bad_ctx L _ R) in E. apply bad_two in E.
    rewrite (numshape_one _ _ _ HS HG) in E. discriminate.
Qed.

Lemma as_integer_num sg ds : good_num sg ds -> as_integer (sg ++ digits ds) = Some (num_val sg ds).
Proof.
  intros (S & D). unfold as_integer.
  assert (HS : forall p, (forall c, is_digit c = true -> p c = false) -> p "+"%char = false -> p "-"%char = false ->
     strip p (sg ++ digits ds) = sg ++ digits ds).
  { intros p Hd Hp Hm. unfold strip.
    assert (E1 : drop_while p (sg ++ digits ds) = sg ++ digits ds).
    { destruct S as [->|[->| ->]]; simpl; rewrite ?Hp, ?Hm; auto.
      destruct ds; try congruence; simpl; rewrite Hd; auto. }
    rewrite E1. destruct (digits_last ds D) as (m & c & E2 & Hc). rewrite E2, app_assoc, rev_app_distr. simpl.
    rewrite (Hd c Hc). simpl. rewrite rev_involutive. reflexivity. }
  rewrite (HS (fun c => Ascii.eqb c "(")), (HS (fun c => Ascii.eqb c ")")); try reflexivity;
    try (intros c Hc; digit Hc; subst; reflexivity).
  unfold int_of. rewrite (HS is_space); try reflexivity; [|apply digit_nospace].
  destruct S as [->|[->| ->]]; simpl app.
  - assert (HD : exists c q, digits ds = c :: q /\ is_digit c = true) by (destruct ds; try congruence; simpl; eauto).
    destruct HD as (c & q & E & Hc). rewrite E. 
    assert (is_sign c = false) as -> by (unfold is_sign; digit Hc; subst; reflexivity).
    rewrite <- E, parse_digits_digits. reflexivity.
  - assert (E := parse_digits_digits ds). assert (HN : digits ds <> []) by (destruct ds; simpl; congruence).
    destruct (digits ds) as [|c q]; [congruence|]. cbn -[parse_digits num_val]. rewrite E. reflexivity.
  - assert (E := parse_digits_digits ds). assert (HN : digits ds <> []) by (destruct ds; simpl; congruence).
    destruct (digits ds) as [|c q]; [congruence|]. cbn -[parse_digits num_val]. rewrite E. reflexivity.
Qed.
