(** The complement of a cell text denotes the complement. *)
From Coq Require Import Ascii String Decimal DecimalZ.
From Verif Require Import Prelude BoolSpec BoolSeq CellText ParenModel BoolProofs WritersProofs ParenProofs ParenRemove ParseTerms ParseInts LexSpec LexProofs Remh.

(* ------------------------------------------------------------------ *)
(** * The passes on texts without "#" *)
Definition nohash (l : list pc) : Prop := Forall (fun p => is_c "#" p = false) l.

Lemma first_valid_in l p : first_valid l = Some p -> In p l.
Proof. induction l as [|q l IH]; cbn; [discriminate|]. destruct (skipped q); intros H; [auto|]. injection H as <-. auto. Qed.
Lemma redundant_h_eq b i a : nohash b -> redundant_h b i a = redundant b i a.
Proof.
  intros N. unfold redundant_h. destruct (first_valid (rev b)) as [p|] eqn:E; auto.
  apply first_valid_in in E. rewrite <- in_rev in E. unfold nohash in N. rewrite Forall_forall in N. now rewrite N.
Qed.
Lemma pass_h_eq fill : (forall c, Ascii.eqb c "#" = false -> Ascii.eqb (fill c) "#" = false) ->
  forall fuel done rest, nohash (done ++ rest) -> pass_h fill fuel done rest = pass fill fuel done rest /\ nohash (fst (pass fill fuel done rest)).
Proof.
  intros HF. induction fuel as [|k IH]; intros done rest N; cbn [pass_h pass]; auto.
  destruct (find_inner rest) as [[[[[b o] i] c] a]|] eqn:E; auto.
  apply find_inner_spec in E as (-> & _ & _ & _).
  unfold nohash in N. rewrite !Forall_app in N. destruct N as (Nd & Nb & No). inversion No as [|? ? N1 N2]; subst.
  apply Forall_app in N2 as (Ni & N2). inversion N2 as [|? ? Nc Na]; subst.
  rewrite redundant_h_eq by (apply Forall_app; auto).
  set (mid := if redundant (done ++ b) i a then _ else _).
  assert (NM : nohash mid).
  { unfold mid. destruct (redundant _ _ _); constructor; try reflexivity; apply Forall_app; split; auto; try (constructor; [reflexivity|constructor]).
    rewrite Forall_map. eapply Forall_impl; [|exact Ni]. intros p P. unfold is_c, setc in *. cbn in *. auto. }
  specialize (IH (done ++ b ++ mid) a). destruct IH as (IH1 & IH2).
  { unfold nohash. rewrite !Forall_app. auto. }
  rewrite IH1. auto.
Qed.
Lemma passes_h_eq fill : (forall c, Ascii.eqb c "#" = false -> Ascii.eqb (fill c) "#" = false) ->
  forall fuel l, nohash l -> passes_h fill fuel l = passes fill fuel l.
Proof.
  intros HF. induction fuel as [|k IH]; intros l N; cbn [passes_h passes]; auto.
  destruct (pass_h_eq fill HF (S (List.length l)) [] l) as (E & N'); auto. rewrite E.
  destruct (pass fill (S (List.length l)) [] l) as [l' []]; auto.
Qed.
Lemma semi_hash c : Ascii.eqb c "#" = false -> Ascii.eqb (semi_fill c) "#" = false.
Proof. unfold semi_fill. destruct (Ascii.eqb_spec c ":"); auto. Qed.

(* ------------------------------------------------------------------ *)
(** * Characters of a text *)
Definition charset (P : ascii -> Prop) : Prop :=
  P " "%char /\ P "("%char /\ P ")"%char /\ P ":"%char /\ P "+"%char /\ P "-"%char /\ forall c, is_digit c = true -> P c.
Lemma text_Forall (P : ascii -> Prop) t : charset P -> grammatical mcnp t -> Forall P (text mcnp t).
Proof.
  intros (B & L & R & C & PL & MI & D). induction t; cbn [text grammatical]; intros H.
  - apply Forall_app; split; [apply blanks_Forall; auto|]. apply Forall_app; split; [|].
    + destruct H as ([-> | [-> | ->]] & _); repeat constructor; auto.
    + cbn [surf_prefix mcnp app]. apply Forall_app; split; [|apply blanks_Forall; auto]. apply digits_Forall; auto.
  - repeat (apply Forall_app; split); try (apply blanks_Forall; auto); cbn; auto.
  - cbn. apply Forall_app. tauto.
  - apply Forall_app; split; [tauto|]. cbn. constructor; auto. tauto.
Qed.

(* ------------------------------------------------------------------ *)
(** * Outer blanks *)
Fixpoint lp (t : tree) : nat := match t with TNum p _ _ _ | TPar p _ _ => p | TAnd a _ | TOr a _ => lp a end.
Fixpoint rp (t : tree) : nat := match t with TNum _ _ _ p | TPar _ _ p => p | TAnd _ b | TOr _ b => rp b end.
Lemma text_lp nt t : text nt t = blanks (lp t) ++ text nt (unpad_l t).
Proof. induction t; cbn [text lp unpad_l blanks repeat app]; auto; rewrite IHt1 at 1; now rewrite <- app_assoc. Qed.
Lemma text_rp nt t : text nt t = text nt (unpad_r t) ++ blanks (rp t).
Proof.
  induction t; cbn [text rp unpad_r]; rewrite <- ?app_assoc; cbn [blanks repeat app]; rewrite ?app_nil_r; auto.
  - rewrite IHt2 at 1. rewrite ?app_assoc. reflexivity.
  - rewrite IHt2 at 1. rewrite ?app_assoc. reflexivity.
Qed.
Lemma lp_unpad_r t : lp (unpad_r t) = lp t. Proof. induction t; cbn; auto. Qed.
Lemma rp_unpad_l t : rp (unpad_l t) = rp t. Proof. induction t; cbn; auto. Qed.
Lemma rp_unpad_r t : rp (unpad_r t) = 0%nat. Proof. induction t; cbn; auto. Qed.
Lemma lp_unpad_l t : lp (unpad_l t) = 0%nat. Proof. induction t; cbn; auto. Qed.

Definition startc (c : ascii) : Prop := is_digit c = true \/ is_sign c = true \/ c = "("%char.
Definition endc (c : ascii) : Prop := is_digit c = true \/ c = ")"%char.
Lemma digits_cons ds : ds <> Decimal.Nil -> exists c r, digits ds = c :: r /\ is_digit c = true.
Proof. destruct ds; cbn; intros H; try congruence; eauto. Qed.
Lemma num_start sg ds : good_num sg ds -> exists c r, sg ++ digits ds = c :: r /\ startc c.
Proof.
  intros ([-> | [-> | ->]] & D).
  - destruct (digits_cons ds D) as (c & r & E & H). exists c, r. split; auto. now constructor.
  - eexists _, _. split; [reflexivity|]. right. left. reflexivity.
  - eexists _, _. split; [reflexivity|]. right. left. reflexivity.
Qed.
Lemma core_start t : grammatical mcnp t -> lp t = 0%nat -> exists c r, text mcnp t = c :: r /\ startc c.
Proof.
  induction t; cbn [lp grammatical text]; intros H E.
  - subst. destruct (num_start sg ds) as (c & r & F & C); [split; tauto|]. cbn [blanks repeat app surf_prefix mcnp].
    rewrite app_assoc, F. exists c, (r ++ blanks post). auto.
  - subst. eexists _, _. split; [reflexivity|]. right. right. reflexivity.
  - destruct IHt1 as (c & r & F & C); try tauto. rewrite F. exists c, (r ++ and_sign mcnp ++ text mcnp t2). auto.
  - destruct IHt1 as (c & r & F & C); try tauto. rewrite F. exists c, (r ++ or_sign mcnp ++ text mcnp t2). auto.
Qed.
Lemma core_end t : grammatical mcnp t -> rp t = 0%nat -> exists c r, text mcnp t = r ++ [c] /\ endc c /\ (is_digit c = true <-> ends_num t).
Proof.
  induction t; cbn [rp grammatical text ends_num]; intros H E.
  - subst. destruct (digits_last ds) as (m & c & F & C); [tauto|]. cbn [blanks repeat app surf_prefix mcnp]. rewrite F.
    exists c, (blanks pre ++ sg ++ m). rewrite !app_nil_r, <- !app_assoc. repeat split; auto. now constructor.
  - subst. exists ")"%char, (blanks pre ++ cs "(" ++ text mcnp t). cbn [blanks repeat]. rewrite app_nil_r, <- !app_assoc. repeat split; auto; try discriminate; try tauto. now right.
  - destruct IHt2 as (c & r & F & C & D); try tauto. rewrite F. exists c, (text mcnp t1 ++ and_sign mcnp ++ r). rewrite <- !app_assoc. auto.
  - destruct IHt2 as (c & r & F & C & D); try tauto. rewrite F. exists c, (text mcnp t1 ++ or_sign mcnp ++ r). rewrite <- !app_assoc. auto.
Qed.

Lemma take_blanks (p : ascii -> bool) n r : p " "%char = true -> (match r with c :: _ => p c = false | [] => True end) ->
  take_while p (blanks n ++ r) = blanks n /\ drop_while p (blanks n ++ r) = r.
Proof.
  intros P R. unfold blanks. induction n as [|n IH]; cbn.
  - destruct r as [|c r]; cbn; auto. rewrite R. auto.
  - rewrite P. destruct IH as (-> & ->). auto.
Qed.
Lemma startc_valid c : startc c -> valid c = true.
Proof. intros [H|[H|H]]; unfold valid; rewrite H; rewrite ?orb_true_r; auto. Qed.
Lemma endc_tail c : endc c -> tail_c c = false.
Proof. intros [H|H]; [digit H; reflexivity|subst; reflexivity]. Qed.
Lemma endc_blank c : endc c -> blank c = false.
Proof. intros [H|H]; [digit H; reflexivity|subst; reflexivity]. Qed.
Lemma startc_blank c : startc c -> blank c = false.
Proof.
  intros [H|[H|H]]; [digit H; reflexivity| |subst; reflexivity].
  unfold is_sign in H. unfold blank. destruct (Ascii.eqb_spec c " "); auto. subst. discriminate.
Qed.
Lemma open_blanks n s : open_first (blanks n ++ s) = blanks n ++ open_first s.
Proof. unfold blanks. induction n; cbn; auto. now rewrite IHn. Qed.
Lemma close_blanks n s c : endc c -> close_last (s ++ [c] ++ blanks n) = s ++ [c] ++ ")"%char :: blanks n.
Proof.
  intros C. unfold close_last. rewrite !rev_app_distr, rev_blanks. cbn [rev app].
  destruct (take_blanks tail_c n (c :: rev s)) as (E1 & E2); [reflexivity|now apply endc_tail|].
  rewrite <- (app_assoc (blanks n)). cbn [app]. rewrite E1, E2. cbn [rev]. rewrite rev_involutive, rev_blanks, <- !app_assoc. reflexivity.
Qed.
Definition unp (t : tree) : tree := unpad_l (unpad_r t).
Lemma unp_gram t : grammatical mcnp t -> grammatical mcnp (unp t).
Proof. intros H. now apply unpad_l_gram, unpad_r_gram. Qed.
Lemma unp_sem v t : sem v (unp t) = sem v t.
Proof. unfold unp. now rewrite unpad_l_sem, unpad_r_sem. Qed.
Lemma text_unp t : text mcnp t = blanks (lp t) ++ text mcnp (unp t) ++ blanks (rp t).
Proof. rewrite (text_rp mcnp t), (text_lp mcnp (unpad_r t)), lp_unpad_r, <- app_assoc. reflexivity. Qed.
Lemma unp_ends t : grammatical mcnp t -> exists c r d q, text mcnp (unp t) = c :: r /\ startc c /\ text mcnp (unp t) = q ++ [d] /\ endc d.
Proof.
  intros H. apply unp_gram in H.
  destruct (core_start (unp t) H) as (c & r & E & C); [apply lp_unpad_l|].
  destruct (core_end (unp t) H) as (d & q & E' & D & _); [unfold unp; rewrite rp_unpad_l; apply rp_unpad_r|].
  exists c, r, d, q. auto.
Qed.
Lemma wrap_text t : grammatical mcnp t ->
  close_last (open_first (text mcnp t)) = text mcnp (TPar (lp t) (unp t) (rp t)).
Proof.
  intros H. destruct (unp_ends t H) as (c & r & d & q & E & C & E' & D).
  rewrite (text_unp t), open_blanks, E. cbn [open_first app]. rewrite (startc_valid _ C).
  change (c :: r ++ blanks (rp t)) with ((c :: r) ++ blanks (rp t)). rewrite <- E, E'.
  replace (blanks (lp t) ++ "("%char :: (q ++ [d]) ++ blanks (rp t)) with ((blanks (lp t) ++ "("%char :: q) ++ [d] ++ blanks (rp t))
    by (rewrite <- !app_assoc; reflexivity).
  rewrite close_blanks by auto. cbn [text]. rewrite E'. rewrite <- ?app_assoc. cbn. rewrite <- ?app_assoc. reflexivity.
Qed.
Lemma start_end_text t : grammatical mcnp t -> has "(" (text mcnp t) = false ->has ")" (text mcnp t) = false ->
  end_geom (start_geom (text mcnp t)) = text mcnp (TPar (lp t) (unp t) (rp t)).
Proof.
  intros H N1 N2. destruct (unp_ends t H) as (c & r & d & q & E & C & E' & D).
  assert (C' : is_digit c || is_sign c = true).
  { destruct C as [C|[C|C]]; [now rewrite C|rewrite C; apply orb_true_r|]. subst. rewrite (text_unp t), E in N1. unfold has in N1.
    rewrite !existsb_app in N1. cbn in N1. rewrite orb_true_r in N1. discriminate. }
  assert (D' : is_digit d = true).
  { destruct D as [D|D]; auto. subst. rewrite (text_unp t), E' in N2. unfold has in N2.
    rewrite !existsb_app in N2. cbn in N2. rewrite !orb_true_r in N2. discriminate. }
  rewrite (text_unp t), E. unfold start_geom.
  destruct (take_blanks blank (lp t) (c :: r ++ blanks (rp t))) as (T1 & T2); [reflexivity|now apply startc_blank|].
  cbn [app]. rewrite T1, T2, C'. change (c :: r ++ blanks (rp t)) with ((c :: r) ++ blanks (rp t)). rewrite <- E, E'.
  unfold end_geom.
  replace (rev (blanks (lp t) ++ "("%char :: (q ++ [d]) ++ blanks (rp t))) with (blanks (rp t) ++ d :: rev (blanks (lp t) ++ "("%char :: q)).
  2:{ rewrite !rev_app_distr. cbn [rev]. rewrite !rev_app_distr, !rev_blanks. cbn. rewrite <- ?app_assoc. reflexivity. }
  destruct (take_blanks blank (rp t) (d :: rev (blanks (lp t) ++ "("%char :: q))) as (T3 & T4); [reflexivity|now apply endc_blank|].
  rewrite T3, T4, D'. cbn [text]. rewrite E', rev_app_distr. cbn [rev]. rewrite rev_involutive, rev_blanks, <- ?app_assoc. cbn. rewrite <- ?app_assoc. reflexivity.
Qed.

(* ------------------------------------------------------------------ *)
(** * Insertion of "&" *)
Fixpoint ins (g : ascii -> chars -> bool) (s : chars) : chars :=
  match s with
  | [] => []
  | c :: r => c :: (if g c r then ["&"%char] else []) ++ ins g r
  end.
Definition is_some {A} (o : option A) : bool := match o with Some _ => true | None => false end.

(** what follows: a number after at least n blanks; an open parenthesis *)
Fixpoint lookn (n : nat) (s : chars) : bool :=
  match s with
  | [] => false
  | c :: r => if blank c then lookn (Nat.pred n) r
              else Nat.eqb n 0 && (is_digit c || is_sign c && match r with d :: _ => is_digit d | [] => false end)
  end.
Fixpoint looko (s : chars) : bool :=
  match s with
  | [] => false
  | c :: r => if blank c then looko r else Ascii.eqb c "("
  end.
Lemma blank_digit c : blank c = true -> is_digit c = false.
Proof. unfold blank. intros H. apply Ascii.eqb_eq in H. now subst. Qed.
Lemma sign_digit c : is_sign c = true -> is_digit c = false.
Proof. unfold is_sign. intros H. apply orb_true_iff in H as [H|H]; apply Ascii.eqb_eq in H; now subst. Qed.
Lemma nxt_num_cons n c r : blank c = true -> is_some (nxt_num n (c :: r)) = is_some (nxt_num (Nat.pred n) r).
Proof.
  intros B. unfold nxt_num. cbn [take_while drop_while]. rewrite B. cbn [List.length].
  replace (Nat.ltb (S (List.length (take_while blank r))) n) with (Nat.ltb (List.length (take_while blank r)) (Nat.pred n)).
  2:{ apply eq_true_iff_eq. rewrite !Nat.ltb_lt. lia. }
  destruct (Nat.ltb _ _); auto. destruct (drop_while blank r) as [|x r']; auto. destruct (is_digit x); auto. destruct (is_sign x); auto.
  destruct r' as [|y r']; auto. destruct (is_digit y); auto.
Qed.
Lemma nxt_num_look n s : is_some (nxt_num n s) = lookn n s.
Proof.
  revert n. induction s as [|c r IH]; intros n; cbn [lookn].
  - unfold nxt_num. cbn. destruct n; auto.
  - destruct (blank c) eqn:B; [rewrite nxt_num_cons by auto; apply IH|].
    unfold nxt_num. cbn [take_while drop_while]. rewrite B. cbn [List.length]. destruct n as [|n]; cbn [Nat.ltb Nat.leb Nat.eqb]; auto.
    cbn [andb]. destruct (is_digit c); auto. destruct (is_sign c); auto. destruct r as [|y r]; auto. destruct (is_digit y); auto.
Qed.
Lemma nxt_open_look s : is_some (nxt_open s) = looko s.
Proof.
  induction s as [|c r IH]; auto. cbn [looko]. unfold nxt_open in *. cbn [drop_while take_while]. destruct (blank c).
  - rewrite <- IH. destruct (drop_while blank r) as [|x r']; auto. destruct (Ascii.eqb x "("); auto.
  - destruct (Ascii.eqb c "("); auto.
Qed.
Lemma take_drop p s : s = take_while p s ++ drop_while p s.
Proof. induction s as [|c r IH]; auto. cbn. destruct (p c); cbn; congruence. Qed.
Lemma take_all p s : Forall (fun c => p c = true) (take_while p s).
Proof. induction s as [|c r IH]; cbn; auto. destruct (p c) eqn:E; auto. Qed.
Lemma nxt_num_split n s m r : nxt_num n s = Some (m, r) ->
  exists m0 d, m = m0 ++ [d] /\ s = m ++ r /\ is_digit d = true /\ Forall (fun c => blank c = true \/ is_sign c = true) m0.
Proof.
  unfold nxt_num. destruct (Nat.ltb _ _); [discriminate|]. pose proof (take_drop blank s) as S.
  assert (B : Forall (fun c => blank c = true \/ is_sign c = true) (take_while blank s)).
  { eapply Forall_impl; [|apply take_all]. auto. }
  destruct (drop_while blank s) as [|c r']; [discriminate|]. destruct (is_digit c) eqn:D.
  - intros H. injection H as <- <-. exists (take_while blank s), c. split; auto. split; [rewrite S at 1; now rewrite <- app_assoc|]. auto.
  - destruct (is_sign c) eqn:G; [|discriminate]. destruct r' as [|d r']; [discriminate|]. destruct (is_digit d) eqn:D'; [|discriminate].
    intros H. injection H as <- <-. exists (take_while blank s ++ [c]), d. split; [now rewrite <- app_assoc|]. split; [rewrite S at 1; now rewrite <- app_assoc|].
    split; auto. apply Forall_app. auto.
Qed.
Lemma nxt_open_split s m r : nxt_open s = Some (m, r) ->
  s = m ++ r /\ Forall (fun c => blank c = true \/ c = "("%char) m.
Proof.
  unfold nxt_open. pose proof (take_drop blank s) as S. destruct (drop_while blank s) as [|c r']; [discriminate|].
  destruct (Ascii.eqb_spec c "("); [|discriminate]. intros H. injection H as <- <-. split; [rewrite S at 1; now rewrite <- app_assoc|].
  apply Forall_app. split; [eapply Forall_impl; [|apply take_all]; auto|auto].
Qed.

Lemma ins_skip g m r : Forall (fun c => forall s, g c s = false) m -> ins g (m ++ r) = m ++ ins g r.
Proof. induction m as [|c m IH]; intros F; auto. inversion F; subst. cbn. rewrite H1. cbn. now rewrite IH. Qed.
(** a substitution that never eats a starting character *)
Lemma amp_sub_ins ok nxt g : (forall c r, g c r = ok c && is_some (nxt r)) ->
  (forall s m r, nxt s = Some (m, r) -> s = m ++ r /\ Forall (fun c => ok c = false) m) ->
  forall fuel s, (List.length s <= fuel)%nat -> amp_sub ok nxt fuel s = ins g s.
Proof.
  intros G N. induction fuel as [|k IH]; intros s L; [destruct s; [reflexivity|cbn in L; lia]|].
  destruct s as [|c r]; auto. cbn [amp_sub ins List.length] in *. rewrite G. destruct (ok c); [|cbn; rewrite IH by lia; auto].
  destruct (nxt r) as [[m r']|] eqn:E; cbn; [|rewrite IH by lia; auto].
  destruct (N _ _ _ E) as (-> & F). rewrite app_length in L. rewrite IH by lia. rewrite ins_skip; auto.
  eapply Forall_impl; [|exact F]. intros x X s. now rewrite G, X.
Qed.

(** the digit substitution, which eats the first digit of the next number *)
Fixpoint insf (pend : bool) (s : chars) : chars :=
  match s with
  | [] => []
  | c :: r =>
      if is_digit c then
        if pend then c :: insf false r
        else if lookn 1 r then c :: "&"%char :: insf true r else c :: insf false r
      else c :: insf pend r
  end.
Lemma insf_skip p m r : Forall (fun c => is_digit c = false) m -> insf p (m ++ r) = m ++ insf p r.
Proof. induction m as [|c m IH]; intros F; auto. inversion F; subst. cbn. rewrite H1. now rewrite IH. Qed.
Lemma amp_sub_insf : forall fuel s, (List.length s <= fuel)%nat -> amp_sub is_digit (nxt_num 1) fuel s = insf false s.
Proof.
  induction fuel as [|k IH]; intros s L; [destruct s; [reflexivity|cbn in L; lia]|].
  destruct s as [|c r]; auto. cbn [amp_sub insf List.length] in *. destruct (is_digit c); [|rewrite IH by lia; auto].
  rewrite <- nxt_num_look. destruct (nxt_num 1 r) as [[m r']|] eqn:E; cbn [is_some]; [|rewrite IH by lia; auto].
  destruct (nxt_num_split _ _ _ _ E) as (m0 & d & -> & -> & D & F). rewrite !app_length in L. rewrite IH by (cbn in L; lia). do 2 f_equal.
  rewrite <- !app_assoc, insf_skip.
  - cbn [app insf]. now rewrite D.
  - eapply Forall_impl; [|exact F]. intros x [X|X]; [now apply blank_digit|now apply sign_digit].
Qed.

Lemma insf_hd p s : match insf p s with c :: _ => is_digit c | [] => false end = match s with c :: _ => is_digit c | [] => false end.
Proof. destruct s as [|c r]; auto. cbn. destruct (is_digit c) eqn:D; [|now rewrite D]. destruct p; [auto|]. destruct (lookn 1 r); auto. Qed.
Lemma lookn_insf p : forall s n, lookn n (insf p s) = lookn n s.
Proof.
  induction s as [|c r IH]; intros n; auto. cbn [insf].
  destruct (is_digit c) eqn:D.
  - assert (B : blank c = false) by (destruct (blank c) eqn:B; auto; apply blank_digit in B; congruence).
    destruct p; [|destruct (lookn 1 r)]; cbn [lookn]; rewrite B, D; auto.
  - cbn [lookn]. destruct (blank c) eqn:B; [apply IH|]. rewrite D, insf_hd. reflexivity.
Qed.
Definition gblk (c : ascii) (r : chars) : bool := is_digit c && lookn 1 r.
Lemma insf_twice : forall s p1 p2, p1 && p2 = false -> insf p2 (insf p1 s) = ins gblk s.
Proof.
  induction s as [|c r IH]; intros p1 p2 P; auto. cbn [insf ins]. unfold gblk at 1.
  destruct (is_digit c) eqn:D; cbn [andb app].
  - destruct p1.
    + cbn [andb] in P. subst p2. cbn [insf]. rewrite D, lookn_insf. destruct (lookn 1 r); cbn [app]; rewrite IH; auto.
    + destruct (lookn 1 r) eqn:L; cbn [insf app]; rewrite D.
      * destruct p2; [|replace (lookn 1 ("&"%char :: insf true r)) with false by reflexivity]; cbn [insf]; change (is_digit "&") with false; cbn iota; rewrite IH; auto.
      * destruct p2; [|rewrite lookn_insf, L]; rewrite IH; auto.
  - cbn [insf]. rewrite D, IH; auto.
Qed.

(** insertions after the end of an item *)
Definition after_item (g : ascii -> chars -> bool) : Prop := forall c r, g c r = true -> endc c.
Lemma ins_hd g s : match ins g s with c :: _ => is_digit c | [] => false end = match s with c :: _ => is_digit c | [] => false end.
Proof. destruct s; auto. Qed.
Lemma endc_sign c : endc c -> is_sign c = false.
Proof. intros [H|H]; [digit H; reflexivity|subst; reflexivity]. Qed.
Lemma lookn_ins g : after_item g -> forall s n, lookn n (ins g s) = lookn n s.
Proof.
  intros A. induction s as [|c r IH]; intros n; auto. cbn [ins lookn].
  destruct (g c r) eqn:G; cbn [app].
  - pose proof (A _ _ G) as C. rewrite (endc_blank _ C), (endc_sign _ C). reflexivity.
  - destruct (blank c); [apply IH|]. now rewrite ins_hd.
Qed.
Lemma looko_ins g : after_item g -> forall s, looko (ins g s) = looko s.
Proof.
  intros A. induction s as [|c r IH]; auto. cbn [ins looko].
  destruct (g c r) eqn:G; cbn [app].
  - pose proof (A _ _ G) as C. now rewrite (endc_blank _ C).
  - destruct (blank c); auto.
Qed.
(** [g] looks at what follows only *)
Definition stable (g : ascii -> chars -> bool) : Prop :=
  (forall g' c r, after_item g' -> g c (ins g' r) = g c r) /\ (forall c r, g c ("&"%char :: r) = false) /\ (forall r, g "&"%char r = false).
Lemma ins_ins g1 g2 : after_item g1 -> stable g2 -> forall s, ins g2 (ins g1 s) = ins (fun c r => g1 c r || g2 c r) s.
Proof.
  intros A (S1 & S2 & S3). induction s as [|c r IH]; auto. cbn [ins]. destruct (g1 c r); cbn [app ins orb].
  - rewrite S2, S3. cbn. now rewrite IH.
  - rewrite S1 by auto. now rewrite IH.
Qed.
Definition gcls (c : ascii) (r : chars) : bool := closing c && lookn 0 r.
Definition gopn (c : ascii) (r : chars) : bool := is_digit c && looko r.
Definition gcop (c : ascii) (r : chars) : bool := closing c && looko r.
Definition gall (c : ascii) (r : chars) : bool := gblk c r || gcls c r || gopn c r || gcop c r.
Lemma stable_gcls : stable gcls.
Proof. repeat split; intros; unfold gcls; rewrite ?lookn_ins by auto; auto. apply andb_false_r. Qed.
Lemma stable_gopn : stable gopn.
Proof. repeat split; intros; unfold gopn; rewrite ?looko_ins by auto; auto. apply andb_false_r. Qed.
Lemma stable_gcop : stable gcop.
Proof. repeat split; intros; unfold gcop; rewrite ?looko_ins by auto; auto. apply andb_false_r. Qed.
Lemma after_gall1 : after_item gblk. Proof. intros c r H. apply andb_true_iff in H as [H _]. now constructor. Qed.
Lemma closing_endc c : closing c = true -> endc c.
Proof. unfold closing. intros H. apply Ascii.eqb_eq in H. now right. Qed.

Lemma amp_text s : intercop (interopn (intercls (interblk (interblk s)))) = ins gall s.
Proof.
  unfold interblk, sub_all. rewrite (amp_sub_insf _ s) by auto. rewrite amp_sub_insf by auto. rewrite insf_twice by auto.
  unfold intercls, sub_all. rewrite (amp_sub_ins closing (nxt_num 0) gcls); auto.
  2:{ intros. unfold gcls. now rewrite nxt_num_look. }
  2:{ intros x m r H. destruct (nxt_num_split _ _ _ _ H) as (m0 & d & -> & -> & D & F). split; auto. apply Forall_app. split.
      - eapply Forall_impl; [|exact F]. intros y Y. unfold closing. destruct (Ascii.eqb_spec y ")"); auto. subst. destruct Y; discriminate.
      - repeat constructor. unfold closing. destruct (Ascii.eqb_spec d ")"); auto. subst. discriminate. }
  unfold interopn, sub_all. rewrite (amp_sub_ins is_digit nxt_open gopn); auto.
  2:{ intros. unfold gopn. now rewrite nxt_open_look. }
  2:{ intros x m r H. destruct (nxt_open_split _ _ _ H) as (-> & F). split; auto. eapply Forall_impl; [|exact F]. intros y [Y|Y]; [now apply blank_digit|subst; auto]. }
  unfold intercop, sub_all. rewrite (amp_sub_ins closing nxt_open gcop); auto.
  2:{ intros. unfold gcop. now rewrite nxt_open_look. }
  2:{ intros x m r H. destruct (nxt_open_split _ _ _ H) as (-> & F). split; auto. eapply Forall_impl; [|exact F]. intros y [Y|Y]; unfold closing; destruct (Ascii.eqb_spec y ")"); subst; auto; discriminate. }
  assert (A2 : after_item (fun c r => gblk c r || gcls c r)).
  { intros c r H. apply orb_true_iff in H as [H|H]; [now apply after_gall1 in H|]. apply andb_true_iff in H as [H _]. now apply closing_endc. }
  assert (A3 : after_item (fun c r => gblk c r || gcls c r || gopn c r)).
  { intros c r H. apply orb_true_iff in H as [H|H]; [now apply A2 in H|]. apply andb_true_iff in H as [H _]. now constructor. }
  rewrite (ins_ins gblk gcls after_gall1 stable_gcls), (ins_ins _ gopn A2 stable_gopn), (ins_ins _ gcop A3 stable_gcop).
  reflexivity.
Qed.

(* ------------------------------------------------------------------ *)
(** * The text with "&" *)
Definition amp : notation := {| and_sign := cs "&"; or_sign := cs ":"; surf_prefix := [] |}.
(** blanks before an intersection sign go behind it *)
Fixpoint norm (t : tree) : tree :=
  match t with
  | TNum _ _ _ _ => t
  | TPar p t q => TPar p (norm t) q
  | TAnd a b => TAnd (unpad_r (norm a)) (pad_l (rp (norm a)) (norm b))
  | TOr a b => TOr (norm a) (norm b)
  end.
Fixpoint nrm (t : tree) : Prop :=
  match t with
  | TNum _ _ _ _ => True
  | TPar _ t _ => nrm t
  | TAnd a b => rp a = 0%nat /\ nrm a /\ nrm b
  | TOr a b => nrm a /\ nrm b
  end.
Lemma rp_pad_l k t : rp (pad_l k t) = rp t. Proof. induction t; cbn; auto. Qed.
Lemma lp_pad_l k t : lp (pad_l k t) = (k + lp t)%nat. Proof. induction t; cbn; auto. Qed.
Lemma nrm_unpad_r t : nrm t -> nrm (unpad_r t). Proof. induction t; cbn; tauto. Qed.
Lemma nrm_pad_l k t : nrm t -> nrm (pad_l k t).
Proof. induction t; cbn; auto; intros H; repeat split; try tauto. rewrite rp_pad_l. tauto. Qed.
Lemma nrm_norm t : nrm (norm t).
Proof. induction t; cbn; auto. repeat split; [apply rp_unpad_r|apply nrm_unpad_r; auto|apply nrm_pad_l; auto]. Qed.
Lemma text_norm t : text mcnp (norm t) = text mcnp t.
Proof.
  induction t; cbn [norm text]; auto; try congruence.
  rewrite text_pad_l. cbn [and_sign mcnp app]. rewrite app_assoc, <- text_rp. congruence.
Qed.
Lemma sem_norm v t : sem v (norm t) = sem v t.
Proof. induction t; cbn [norm sem]; auto; try congruence. now rewrite unpad_r_sem, sem_pad_l, IHt1, IHt2. Qed.
Lemma is_or_norm t : is_or (norm t) <-> is_or t. Proof. destruct t; cbn; tauto. Qed.
Lemma unpad_r_id t : rp t = 0%nat -> unpad_r t = t.
Proof. induction t; cbn; intros H; subst; auto; rewrite IHt2; auto. Qed.
Lemma ends_norm t : ends_num (norm t) <-> ends_num t.
Proof. induction t; cbn; try tauto. rewrite <- IHt2. clear. induction (norm t2); cbn; tauto. Qed.
Lemma starts_norm t : starts_num (norm t) <-> starts_num t.
Proof. induction t; cbn; try tauto. now rewrite unpad_r_starts. Qed.
Lemma gram_norm t : grammatical mcnp t -> grammatical mcnp (norm t).
Proof.
  induction t; cbn [norm grammatical]; auto; try tauto.
  intros (A & B & C & D & E). repeat split.
  - apply unpad_r_gram; auto.
  - apply gram_pad_l; auto.
  - now rewrite unpad_r_isor, is_or_norm.
  - now rewrite is_or_pad_l, is_or_norm.
  - intros H (F & G). apply (E H). pose proof (starts_pad_l0 _ _ G) as Z. rewrite unpad_r_id in F by auto. split.
    + now apply ends_norm.
    + apply starts_pad_l in G. now apply starts_norm.
Qed.

(** what the last and first items are *)
Fixpoint enum (t : tree) : bool := match t with TNum _ _ _ _ => true | TPar _ _ _ => false | TAnd _ b | TOr _ b => enum b end.
Fixpoint snum (t : tree) : bool := match t with TNum _ _ _ _ => true | TPar _ _ _ => false | TAnd a _ | TOr a _ => snum a end.
Definition gl (d : bool) (R : chars) : bool := lookn (if d then 1 else 0) R || looko R.
Lemma gall_end c R : endc c -> gall c R = gl (is_digit c) R.
Proof.
  unfold gall, gblk, gcls, gopn, gcop, gl. intros [H|H].
  - rewrite H. replace (closing c) with false; [cbn; now rewrite !orb_false_r|]. unfold closing. destruct (Ascii.eqb_spec c ")"); auto. subst. discriminate.
  - subst. change (is_digit ")") with false. change (closing ")") with true. cbn [andb orb]. now rewrite orb_false_r.
Qed.
Lemma gall_noend c R : ~ endc c -> gall c R = false.
Proof.
  intros H. unfold gall, gblk, gcls, gopn, gcop. destruct (is_digit c) eqn:D; [destruct H; now left|].
  destruct (closing c) eqn:E; [destruct H; now apply closing_endc|]. reflexivity.
Qed.
Lemma lookn_blanks k s : forall n, lookn n (blanks k ++ s) = lookn (n - k) s.
Proof.
  unfold blanks. induction k as [|k IH]; intros n; cbn [repeat app lookn]; [now rewrite Nat.sub_0_r|].
  change (blank " ") with true. cbn iota. rewrite IH. f_equal. lia.
Qed.
Lemma looko_blanks k s : looko (blanks k ++ s) = looko s.
Proof. unfold blanks. induction k; cbn; auto. Qed.
Lemma text_look b : grammatical mcnp b -> forall R,
  if snum b then (forall n, lookn n (text mcnp b ++ R) = Nat.leb n (lp b)) else looko (text mcnp b ++ R) = true.
Proof.
  induction b; intros H R; cbn [snum lp]; cbn [grammatical] in H.
  - intros n. cbn [text]. rewrite <- app_assoc, lookn_blanks. destruct H as (S & D & _).
    destruct (digits_cons ds D) as (c & r & E & C). cbn [surf_prefix mcnp app].
    assert (BC : blank c = false) by (digit C; reflexivity).
    assert (L : forall x, Nat.eqb (n - pre) 0 && (is_digit c || x) = Nat.leb n pre).
    { intros x. rewrite C. cbn [orb]. rewrite andb_true_r. apply eq_true_iff_eq. rewrite Nat.eqb_eq, Nat.leb_le. lia. }
    destruct S as [-> | [-> | ->]]; rewrite E; cbn.
    + rewrite BC. apply L.
    + rewrite C. apply eq_true_iff_eq. rewrite andb_true_r, Nat.eqb_eq, Nat.leb_le. lia.
    + rewrite C. apply eq_true_iff_eq. rewrite andb_true_r, Nat.eqb_eq, Nat.leb_le. lia.
  - cbn [text]. rewrite <- app_assoc, looko_blanks. reflexivity.
  - cbn [text]. rewrite <- app_assoc. apply IHb1. tauto.
  - cbn [text]. rewrite <- app_assoc. apply IHb1. tauto.
Qed.
Lemma enum_ends t : rp t = 0%nat -> enum t = true -> ends_num t.
Proof. induction t; cbn; auto; try discriminate. Qed.
Lemma snum_starts t : lp t = 0%nat -> snum t = true -> starts_num t.
Proof. induction t; cbn; auto; try discriminate. Qed.
Lemma gap_and a b R : grammatical mcnp (TAnd a b) -> rp a = 0%nat -> gl (enum a) (text mcnp b ++ R) = true.
Proof.
  cbn [grammatical]. intros (A & B & _ & _ & S) Z. unfold gl. pose proof (text_look b B R) as L. destruct (snum b) eqn:E.
  - rewrite L. destruct (enum a) eqn:F; [|reflexivity]. destruct (lp b) eqn:P; [|reflexivity].
    destruct (S eq_refl). split; [now apply enum_ends|now apply snum_starts].
  - rewrite L. apply orb_true_r.
Qed.

Lemma noend_blank : ~ endc " ". Proof. intros [H|H]; discriminate. Qed.
Lemma ins_blanks k s : ins gall (blanks k ++ s) = blanks k ++ ins gall s.
Proof. apply ins_skip. apply blanks_Forall. intros r. apply gall_noend. apply noend_blank. Qed.
Lemma ins_digits ds R : ds <> Decimal.Nil -> ins gall (digits ds ++ R) = digits ds ++ (if gl true R then ["&"%char] else []) ++ ins gall R.
Proof.
  assert (G : forall l c, Forall (fun c => is_digit c = true) (c :: l) -> ins gall ((c :: l) ++ R) = (c :: l) ++ (if gl true R then ["&"%char] else []) ++ ins gall R).
  { induction l as [|d l IH]; intros c F; inversion F as [|? ? C F']; subst.
    - cbn [app ins]. rewrite gall_end by now left. now rewrite C.
    - change ((c :: d :: l) ++ R) with (c :: (d :: l) ++ R). cbn [ins]. rewrite IH by auto.
      rewrite gall_end by now left. inversion F' as [|? ? D F'']; subst. rewrite C. unfold gl at 1. cbn [app lookn looko].
      replace (blank d) with false by (symmetry; digit D; reflexivity). cbn [Nat.eqb andb orb].
      replace (Ascii.eqb d "(") with false by (symmetry; digit D; reflexivity). reflexivity. }
  intros D. pose proof (digits_digit ds) as F. destruct (digits ds) as [|c l] eqn:E; [destruct ds; cbn in E; congruence|]. apply G; auto.
Qed.
Lemma ins_text t : grammatical mcnp t -> nrm t -> forall R,
  (rp t = 0%nat \/ gl (enum t) (blanks (rp t) ++ R) = false) ->
  ins gall (text mcnp t ++ R) = text amp t ++ (if Nat.eqb (rp t) 0 && gl (enum t) R then ["&"%char] else []) ++ ins gall R.
Proof.
  assert (FB : forall d k R, (k = 0%nat \/ gl d (blanks k ++ R) = false) ->
     (if gl d (blanks k ++ R) then ["&"%char] else []) ++ blanks k ++ ins gall R = blanks k ++ (if Nat.eqb k 0 && gl d R then ["&"%char] else []) ++ ins gall R).
  { intros d k R [-> | H]; [reflexivity|]. rewrite H. destruct k; [change (blanks 0 ++ R) with R in H; rewrite H|]; reflexivity. }
  induction t; cbn [grammatical nrm rp enum text]; intros H N R C.
  - destruct H as (S & D & _). cbn [surf_prefix mcnp amp app]. rewrite <- !app_assoc, ins_blanks. f_equal.
    rewrite ins_skip.
    2:{ destruct S as [-> | [-> | ->]]; repeat constructor; intros; apply gall_noend; intros [X|X]; discriminate. }
    f_equal. rewrite ins_digits by auto. f_equal. rewrite ins_blanks. now apply FB.
  - rewrite <- !app_assoc, ins_blanks. f_equal. cbn [cs list_ascii_of_string app ins]. rewrite gall_noend by (intros [X|X]; discriminate). cbn [app].
    f_equal. rewrite IHt; auto.
    2:{ right. unfold gl. rewrite lookn_blanks, looko_blanks. cbn. destruct (enum t); cbn; rewrite ?andb_false_r; auto. }
    replace (gl (enum t) (")"%char :: blanks post ++ R)) with false by (unfold gl; cbn; destruct (enum t); reflexivity).
    rewrite andb_false_r. cbn [app ins]. f_equal. f_equal. rewrite gall_end by now right. change (is_digit ")") with false.
    rewrite ins_blanks. now apply FB.
  - destruct N as (Z & N1 & N2). pose proof H as H'. destruct H as (H1 & H2 & _). cbn [and_sign mcnp amp app]. rewrite <- app_assoc.
    rewrite IHt1 by auto. rewrite Z, Nat.eqb_refl. rewrite gap_and; auto. cbn [andb]. rewrite IHt2 by auto. rewrite <- !app_assoc. reflexivity.
  - destruct N as (N1 & N2), H as (H1 & H2). cbn [or_sign mcnp amp]. rewrite <- !app_assoc. rewrite IHt1; auto.
    2:{ right. unfold gl. rewrite lookn_blanks, looko_blanks. cbn. destruct (enum t1); cbn; rewrite ?andb_false_r; auto. }
    replace (gl (enum t1) (cs ":" ++ text mcnp t2 ++ R)) with false by (unfold gl; cbn; destruct (enum t1); reflexivity).
    rewrite andb_false_r. f_equal. cbn [cs list_ascii_of_string app ins]. rewrite gall_noend by (intros [X|X]; discriminate). cbn [app]. f_equal. auto.
Qed.

Lemma amp_tree t : grammatical mcnp t -> ins gall (text mcnp t) = text amp (norm t).
Proof.
  intros H. rewrite <- text_norm. pose proof (ins_text (norm t) (gram_norm t H) (nrm_norm t) []) as E. rewrite !app_nil_r in E.
  assert (B : forall d k, gl d (blanks k) = false).
  { intros d k. unfold gl. rewrite <- (app_nil_r (blanks k)), lookn_blanks, looko_blanks. reflexivity. }
  rewrite E by (right; apply B). replace (gl (enum (norm t)) []) with false by (symmetry; apply (B _ 0%nat)). rewrite andb_false_r. cbn. now rewrite app_nil_r.
Qed.

(* ------------------------------------------------------------------ *)
(** * Exchange of the operators *)
(** (df t, dq t): the trees of the exchanged text, without and with parentheses *)
Fixpoint dual (t : tree) : tree * tree :=
  match t with
  | TNum _ _ _ _ => (t, TPar 0 t 0)
  | TPar p u q => let f := pad_l p (pad_r q (snd (dual u))) in (f, TPar 0 f 0)
  | TAnd a b => let f := TOr (fst (dual a)) (fst (dual b)) in (f, TPar 0 f 0)
  | TOr a b => let f := TAnd (snd (dual a)) (snd (dual b)) in (f, f)
  end.
Lemma swap_app a b : swap_ops (a ++ b) = swap_ops a ++ swap_ops b.
Proof. apply flat_map_app. Qed.
Lemma swap_id s : Forall (fun c => c <> ":"%char /\ c <> "&"%char) s -> swap_ops s = s.
Proof.
  unfold swap_ops. induction s as [|c s IH]; intros F; auto. inversion F as [|? ? (A & B) F']; subst. cbn [flat_map].
  destruct (Ascii.eqb_spec c ":"); [congruence|]. destruct (Ascii.eqb_spec c "&"); [congruence|]. rewrite IH by auto. reflexivity.
Qed.
Lemma swap_blanks k : swap_ops (blanks k) = blanks k.
Proof. apply swap_id. apply blanks_Forall. split; discriminate. Qed.
Lemma dual_text t : grammatical mcnp t ->
  text mcnp (snd (dual t)) = cs "(" ++ swap_ops (text amp t) ++ cs ")" /\
  (~ is_or t -> text mcnp (fst (dual t)) = swap_ops (text amp t)).
Proof.
  assert (Q : forall f s (P : Prop), text mcnp f = s -> text mcnp (TPar 0 f 0) = cs "(" ++ s ++ cs ")" /\ (P -> text mcnp f = s)).
  { intros f s P <-. split; auto. }
  induction t; cbn [grammatical dual fst snd]; intros H.
  - apply Q. destruct H as (S & _). cbn [text surf_prefix mcnp amp app]. rewrite !swap_app, !swap_blanks. do 2 f_equal; [|f_equal]; symmetry; apply swap_id.
    + destruct S as [-> | [-> | ->]]; repeat constructor; discriminate.
    + eapply Forall_impl; [|apply digits_digit]. intros c C. split; intros ->; discriminate.
  - apply Q. rewrite text_pad_l, text_pad_r. rewrite (proj1 (IHt H)). cbn [text]. rewrite !swap_app, !swap_blanks. rewrite <- ?app_assoc. reflexivity.
  - destruct H as (H1 & H2 & N1 & N2 & _). apply Q. cbn [text]. rewrite (proj2 (IHt1 H1) N1), (proj2 (IHt2 H2) N2), !swap_app. reflexivity.
  - destruct H as (H1 & H2). split; [|cbn; tauto]. cbn [text and_sign mcnp]. rewrite (proj1 (IHt1 H1)), (proj1 (IHt2 H2)).
    rewrite !swap_app. rewrite <- ?app_assoc. reflexivity.
Qed.
Lemma dual_snd_shape t : ~ is_or (snd (dual t)) /\ ~ ends_num (snd (dual t)) /\ ~ starts_num (snd (dual t)).
Proof. induction t; cbn; tauto. Qed.
Lemma ends_pad_r_iff k t : ends_num (pad_r k t) -> ends_num t. Proof. intros H. now apply ends_pad_r in H. Qed.
Lemma dual_gram t : grammatical mcnp t -> grammatical mcnp (snd (dual t)) /\ grammatical mcnp (fst (dual t)).
Proof.
  induction t; cbn [grammatical dual fst snd]; intros H; auto.
  - assert (G : grammatical mcnp (pad_l pre (pad_r post (snd (dual t))))) by (apply gram_pad_l, gram_pad_r; tauto). auto.
  - destruct H as (H1 & H2 & _). tauto.
  - destruct H as (H1 & H2). destruct (dual_snd_shape t1) as (A & B & _), (dual_snd_shape t2) as (C & D & E).
    assert (G : grammatical mcnp (TAnd (snd (dual t1)) (snd (dual t2)))) by (cbn; repeat split; try tauto). auto.
Qed.
Definition neg (v : point) : point := fun s => negb (v s).
Lemma lit_neg v z : z <> 0 -> lit_val (neg v) z = negb (lit_val v z).
Proof. intros H. unfold lit_val, neg. destruct (z <? 0); auto. Qed.
Lemma dual_sem v t : grammatical mcnp t -> sem v (snd (dual t)) = negb (sem (neg v) t) /\ sem v (fst (dual t)) = negb (sem (neg v) t).
Proof.
  induction t; cbn [grammatical dual fst snd sem]; intros H.
  - destruct H as (_ & _ & H). rewrite lit_neg by auto. rewrite negb_involutive. auto.
  - rewrite sem_pad_l, sem_pad_r. destruct (IHt H) as (-> & _). auto.
  - destruct H as (H1 & H2 & _). destruct (IHt1 H1) as (_ & ->), (IHt2 H2) as (_ & ->). rewrite negb_andb. auto.
  - destruct H as (H1 & H2). destruct (IHt1 H1) as (-> & _), (IHt2 H2) as (-> & _). rewrite negb_orb. auto.
Qed.

(* ------------------------------------------------------------------ *)
(** * Signs *)
Definition flip_sg (sg : chars) : chars := match sg with c :: _ => if Ascii.eqb c "-" then [] else ["-"%char] | [] => ["-"%char] end.
Fixpoint flip (t : tree) : tree :=
  match t with
  | TNum p sg ds q => TNum p (flip_sg sg) ds q
  | TPar p t q => TPar p (flip t) q
  | TAnd a b => TAnd (flip a) (flip b)
  | TOr a b => TOr (flip a) (flip b)
  end.
Lemma flip_val sg ds : sg = [] \/ sg = cs "+" \/ sg = cs "-" -> num_val (flip_sg sg) ds = - num_val sg ds.
Proof. intros [-> | [-> | ->]]; unfold num_val; cbn; lia. Qed.
Lemma flip_or t : is_or (flip t) <-> is_or t. Proof. destruct t; cbn; tauto. Qed.
Lemma flip_ends t : ends_num (flip t) <-> ends_num t. Proof. induction t; cbn; tauto. Qed.
Lemma flip_starts t : starts_num (flip t) <-> starts_num t. Proof. induction t; cbn; tauto. Qed.
Lemma flip_gram t : grammatical mcnp t -> grammatical mcnp (flip t).
Proof.
  induction t; cbn [grammatical flip]; auto.
  - intros (S & D & Z). rewrite flip_val by auto. repeat split; auto; [|lia]. destruct S as [-> | [-> | ->]]; cbn; auto.
  - intros (A & B & C & D & E). rewrite !flip_or, flip_ends, flip_starts. tauto.
  - tauto.
Qed.
Lemma flip_sem v t : grammatical mcnp t -> sem v (flip t) = sem (neg v) t.
Proof.
  induction t; cbn [grammatical flip sem]; auto.
  - intros (S & D & Z). rewrite flip_val by auto. rewrite lit_neg by auto. now apply lit_val_opp.
  - intros (A & B & _). now rewrite IHt1, IHt2.
  - intros (A & B). now rewrite IHt1, IHt2.
Qed.
Lemma chg_skip b s R : Forall (fun c => is_digit c = false /\ is_sign c = false) s -> s <> [] -> chg_signs b (s ++ R) = s ++ chg_signs false R.
Proof.
  revert b. induction s as [|c s IH]; intros b F N; [congruence|]. inversion F as [|? ? (D & S) F']; subst. cbn [app chg_signs]. rewrite D, S. cbn [andb].
  f_equal. destruct s; auto. apply IH; auto. discriminate.
Qed.
Lemma chg_digits s R : Forall (fun c => is_digit c = true) s -> chg_signs true (s ++ R) = s ++ chg_signs true R.
Proof. induction s as [|c s IH]; intros F; auto. inversion F as [|? ? D F']; subst. cbn [app chg_signs]. rewrite D. cbn [app]. now rewrite IH. Qed.
Lemma chg_blanks b k R : (k <> 0)%nat -> chg_signs b (blanks k ++ R) = blanks k ++ chg_signs false R.
Proof. intros K. apply chg_skip; [apply blanks_Forall; auto|]. destruct k; [congruence|discriminate]. Qed.
Lemma chg_any b k c R : is_digit c = false -> is_sign c = false -> chg_signs b (blanks k ++ c :: R) = blanks k ++ c :: chg_signs false R.
Proof.
  intros D S. change (c :: R) with ([c] ++ R). rewrite app_assoc. rewrite chg_skip; [now rewrite <- app_assoc| |destruct k; discriminate].
  apply Forall_app. split; [apply blanks_Forall; auto|auto].
Qed.
Lemma chg_num sg ds R : good_num sg ds -> chg_signs false (sg ++ digits ds ++ R) = flip_sg sg ++ digits ds ++ chg_signs true R.
Proof.
  intros (S & N). destruct (digits_cons ds N) as (c & r & E & C). pose proof (digits_digit ds) as F. rewrite E in *. inversion F as [|? ? _ F']; subst.
  destruct S as [-> | [-> | ->]]; cbn; rewrite ?C; cbn; rewrite ?C; cbn; rewrite chg_digits; auto.
Qed.
(** the flag after the text *)
Fixpoint flag (t : tree) : bool := match t with TNum _ _ _ q => Nat.eqb q 0 | TPar _ _ _ => false | TAnd _ b | TOr _ b => flag b end.
Lemma flag_ends t : flag t = true -> ends_num t.
Proof. induction t; cbn; auto; try discriminate. apply Nat.eqb_eq. Qed.
Lemma chg_text t : grammatical mcnp t -> forall b R, (b = true -> ~ starts_num t) ->
  chg_signs b (text mcnp t ++ R) = text mcnp (flip t) ++ chg_signs (flag t) R.
Proof.
  induction t; cbn [grammatical text flip flag starts_num]; intros H b R B.
  - assert (GN : good_num sg ds) by (split; tauto). cbn [surf_prefix mcnp app]. rewrite <- !app_assoc.
    assert (E : chg_signs false (sg ++ digits ds ++ blanks post ++ R) = flip_sg sg ++ digits ds ++ blanks post ++ chg_signs (Nat.eqb post 0) R).
    { rewrite chg_num by auto. do 2 f_equal. destruct post as [|p]; [reflexivity|]. apply chg_blanks. discriminate. }
    destruct pre as [|p]; [destruct b; [destruct B; auto|]; cbn [blanks repeat app]; auto|]. rewrite chg_blanks by discriminate. f_equal. auto.
  - rewrite <- !app_assoc. cbn [cs list_ascii_of_string app]. rewrite chg_any by reflexivity. do 2 f_equal. rewrite IHt by (auto; discriminate). f_equal.
    destruct post as [|p]; [reflexivity|]. cbn [chg_signs app]. change (is_digit ")") with false. change (is_sign ")") with false. cbn [andb]. f_equal.
    apply chg_blanks. discriminate.
  - destruct H as (H1 & H2 & _ & _ & S). cbn [and_sign mcnp app]. rewrite <- !app_assoc, IHt1 by auto. f_equal. apply IHt2; auto.
    intros F ST. apply S; auto. split; auto. now apply flag_ends.
  - destruct H as (H1 & H2). cbn [or_sign mcnp]. rewrite <- !app_assoc, IHt1 by auto. f_equal. cbn [cs list_ascii_of_string app chg_signs].
    change (is_digit ":") with false. change (is_sign ":") with false. cbn [andb]. f_equal. apply IHt2; auto. discriminate.
Qed.

(* ------------------------------------------------------------------ *)
(** * Redundant parentheses; complementary *)
Fixpoint colon (t : tree) : bool := match t with TNum _ _ _ _ => false | TPar _ t _ => colon t | TAnd a b => colon a || colon b | TOr _ _ => true end.
Fixpoint pars (t : tree) : bool := match t with TNum _ _ _ _ => false | TPar _ _ _ => true | TAnd a b | TOr a b => pars a || pars b end.
Lemma has_app c a b : has c (a ++ b) = has c a || has c b. Proof. apply existsb_app. Qed.
Lemma has_none c s : Forall (fun x => x <> c) s -> has c s = false.
Proof. unfold has. induction 1 as [|x s X F IH]; auto. cbn. rewrite IH, orb_false_r. apply Ascii.eqb_neq. auto. Qed.
Lemma has_num c sg ds : good_num sg ds -> is_digit c = false -> is_sign c = false -> has c (sg ++ digits ds) = false.
Proof.
  intros G D S. apply has_none. apply num_Forall; auto; intros; intro; subst; try discriminate; congruence.
Qed.
Lemma has_blanks c k : c <> " "%char -> has c (blanks k) = false.
Proof. intros H. apply has_none. apply blanks_Forall. auto. Qed.
Lemma has_colon t : grammatical mcnp t -> has ":" (text mcnp t) = colon t.
Proof.
  induction t; cbn [grammatical text colon]; intros H.
  - cbn [surf_prefix mcnp app]. rewrite (app_assoc sg). rewrite (has_app _ (blanks pre)), (has_app _ (sg ++ digits ds)), !has_blanks by discriminate. rewrite orb_false_r. cbn [orb]. apply has_num; [split; tauto|reflexivity..].
  - rewrite !has_app, !has_blanks by discriminate. rewrite IHt by auto. cbn. now rewrite orb_false_r.
  - rewrite !has_app. cbn [has mcnp and_sign existsb]. rewrite IHt1, IHt2 by tauto. reflexivity.
  - rewrite !has_app. cbn. rewrite orb_true_r. reflexivity.
Qed.
Lemma has_open t : grammatical mcnp t -> has "(" (text mcnp t) = pars t /\ has ")" (text mcnp t) = pars t.
Proof.
  induction t; cbn [grammatical text pars]; intros H.
  - cbn [surf_prefix mcnp app]. rewrite (app_assoc sg). rewrite !(has_app _ (blanks pre)), !(has_app _ (sg ++ digits ds)), !has_blanks by discriminate. rewrite !orb_false_r. cbn [orb]. split; apply has_num; try reflexivity; split; tauto.
  - rewrite !has_app. cbn. rewrite !orb_true_r. auto.
  - rewrite !has_app. destruct H as (H1 & H2 & _). destruct (IHt1 H1) as (-> & ->), (IHt2 H2) as (-> & ->). auto.
  - rewrite !has_app. destruct H as (H1 & H2). destruct (IHt1 H1) as (-> & ->), (IHt2 H2) as (-> & ->). auto.
Qed.
Lemma has_hash t : grammatical mcnp t -> has "#" (text mcnp t) = false.
Proof.
  intros H. apply has_none. apply text_Forall; auto. repeat split; try discriminate. intros c C ->. discriminate.
Qed.
(** parentheses that are left have a union inside *)
Fixpoint parso (t : tree) : Prop := match t with TNum _ _ _ _ => True | TPar _ t _ => colon t = true /\ parso t | TAnd a b | TOr a b => parso a /\ parso b end.
Lemma parso_pars t : parso t -> colon t = false -> pars t = false.
Proof.
  induction t; cbn; auto; try discriminate.
  - intros (A & _) B. congruence.
  - intros (A & B) C. apply orb_false_iff in C as (C & D). rewrite IHt1, IHt2; auto.
Qed.
Lemma colon_pad_l k t : colon (pad_l k t) = colon t. Proof. induction t; cbn; congruence. Qed.
Lemma colon_pad_r k t : colon (pad_r k t) = colon t. Proof. induction t; cbn; congruence. Qed.
Lemma parso_pad_l k t : parso t -> parso (pad_l k t). Proof. induction t; cbn; tauto. Qed.
Lemma parso_pad_r k t : parso t -> parso (pad_r k t). Proof. induction t; cbn; tauto. Qed.
Lemma vis_colon x : vis x = true -> colon (stript x) = true.
Proof.
  induction x; cbn; auto; try discriminate.
  - intros H. rewrite colon_pad_l, colon_pad_r. auto.
  - intros H. apply orb_true_iff in H as [H|H]; [rewrite IHx1|rewrite IHx2]; auto. apply orb_true_r.
Qed.
Lemma parso_stript x : forall b, closed x -> G b x -> parso (stript x).
Proof.
  induction x; cbn; intros b C H; auto; try tauto.
  - destruct H as (_ & V & _ & H). split; [now apply vis_colon|eauto].
  - destruct H as (_ & H & _). apply parso_pad_l, parso_pad_r. eauto.
  - destruct H as (H1 & H2 & _), C. eauto.
  - destruct H as (_ & H1 & H2), C. eauto.
Qed.
Lemma remove_redundant_h_text t : grammatical mcnp t -> pars t = true ->
  exists t', remove_redundant_h (text mcnp t) = Ok (text mcnp t') /\ grammatical mcnp t' /\ forall v, sem v t' = sem v t.
Proof.
  intros H P. unfold remove_redundant_h. rewrite (proj2 (has_open t H)), P. cbn [negb].
  rewrite passes_h_eq; [|apply semi_hash|].
  2:{ unfold nohash, twice. apply Forall_map. apply text_Forall; auto. repeat split; try reflexivity. intros c C. unfold is_c. cbn. destruct (Ascii.eqb_spec c "#"); auto. subst. discriminate. }
  destruct (passes_text semi_fill semi_open semi_close semi_caret semi_colon [] [] t) as (x & E & I1 & I2 & I3 & I4);
    try constructor; auto; try constructor.
  simpl app in E. rewrite ?app_nil_r in E. simpl twice in E. rewrite ?app_nil_r in E. simpl app in E. rewrite E. cbn [bind].
  change (map (fun p : ascii * ascii => restore (snd p)) (render semi_fill x)) with (map rst (render semi_fill x)).
  rewrite rst_render by auto. pose proof H as H'. rewrite <- I1 in H'. pose proof (gram_stript x false I4 I3 H') as GS. rewrite has_colon, has_hash, orb_false_r by auto.
  destruct (colon (stript x)) eqn:C.
  - exists (stript x). repeat split; auto. intros v. rewrite sem_stript, I1. auto.
  - pose proof (parso_pars _ (parso_stript x false I4 I3) C) as NP. destruct (has_open _ GS) as (O1 & O2). rewrite NP in *.
    exists (TPar (lp (stript x)) (unp (stript x)) (rp (stript x))). split; [now rewrite start_end_text|]. split; [cbn; now apply unp_gram|].
    intros v. cbn [sem]. rewrite unp_sem, sem_stript, I1. auto.
Qed.
Lemma pars_pad_l k t : pars (pad_l k t) = pars t. Proof. induction t; cbn; congruence. Qed.
Lemma pars_pad_r k t : pars (pad_r k t) = pars t. Proof. induction t; cbn; congruence. Qed.
Lemma pars_dual t : pars (snd (dual t)) = true. Proof. induction t; cbn; auto. now rewrite IHt1. Qed.

(** The complement of the text of [t] is a text in parentheses, of the complement. *)
Lemma complementary_text t : grammatical mcnp t ->
  exists p u q, complementary (text mcnp t) = Ok (text mcnp (TPar p u q)) /\ grammatical mcnp u /\ forall v, sem v u = negb (sem v t).
Proof.
  intros H. unfold complementary. pose proof (text_nonempty t H) as NE. destruct (text mcnp t) as [|c0 s0] eqn:E; [congruence|]. rewrite <- E. clear c0 s0 E NE.
  rewrite wrap_text by auto. set (w := TPar (lp t) (unp t) (rp t)). assert (GW : grammatical mcnp w) by (cbn; now apply unp_gram).
  rewrite amp_text, amp_tree by auto.
  destruct (dual_text (norm w) (gram_norm w GW)) as (_ & D). rewrite <- D by (cbn; tauto). clear D.
  destruct (dual_gram (norm w) (gram_norm w GW)) as (_ & GD).
  destruct (remove_redundant_h_text (fst (dual (norm w))) GD) as (t' & -> & GT & ST).
  { cbn [w norm dual fst]. rewrite pars_pad_l, pars_pad_r. apply pars_dual. }
  cbn [bind]. pose proof (chg_text t' GT false []) as CT. rewrite !app_nil_r in CT. rewrite CT by discriminate. cbn [chg_signs]. clear CT.
  assert (GF := flip_gram _ GT). rewrite wrap_text by auto. exists (lp (flip t')), (unp (flip t')), (rp (flip t')). split; auto. split; [now apply unp_gram|].
  intros v. rewrite unp_sem, flip_sem, ST by auto. rewrite (proj2 (dual_sem _ _ (gram_norm w GW))), sem_norm. cbn [w sem]. rewrite unp_sem. f_equal.
  assert (X : forall u, grammatical mcnp u -> sem (neg (neg v)) u = sem v u).
  { clear. induction u; cbn [grammatical sem]; intros; auto.
    - rewrite !lit_neg by tauto. apply negb_involutive.
    - rewrite IHu1, IHu2; tauto.
    - rewrite IHu1, IHu2; tauto. }
  apply X; auto.
Qed.
