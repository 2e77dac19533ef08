(** Removal of the complement operators. *)
From Coq Require Import Ascii String Decimal DecimalZ.
From Verif Require Import Prelude BoolSpec BoolSeq CellText ParenModel BoolProofs WritersProofs ParenProofs ParenRemove ParseTerms ParseInts LexSpec LexProofs Remh RemhProofs RemhSpec.

(** the operators of a text *)
Fixpoint hs (off : nat) (t : htree) : list (nat * option (Z * nat)) :=
  match t with
  | HNum _ _ _ _ => []
  | HPar pre t _ => hs (off + pre + 1) t
  | HAnd a b => hs off a ++ hs (off + List.length (htext a)) b
  | HOr a b => hs off a ++ hs (off + List.length (htext a) + 1) b
  | HCell pre k ds _ => [((off + pre)%nat, Some (Z.of_uint ds, (off + pre + 1 + k + List.length (digits ds))%nat))]
  | HNot pre k t _ => ((off + pre)%nat, None) :: hs (off + pre + 1 + k + 1) t
  end.
Lemma hashes_skip s : forall off R, Forall (fun c => c <> "#"%char) s -> hashes off (s ++ R) = hashes (off + List.length s) R.
Proof.
  induction s as [|c s IH]; intros off R F; cbn [app hashes List.length]; [now rewrite Nat.add_0_r|].
  inversion F as [|? ? C F']; subst. apply Ascii.eqb_neq in C. rewrite C, IH by auto. f_equal. lia.
Qed.
Lemma blanks_length k : List.length (blanks k) = k. Proof. apply repeat_length. Qed.
Lemma blanks_nohash k : Forall (fun c => c <> "#"%char) (blanks k). Proof. apply blanks_Forall. discriminate. Qed.
Lemma digits_nohash ds : Forall (fun c => c <> "#"%char) (digits ds).
Proof. eapply Forall_impl; [|apply digits_digit]. intros c C ->. discriminate. Qed.
Lemma take_digits ds R : (match R with c :: _ => is_digit c = false | [] => True end) -> take_while is_digit (digits ds ++ R) = digits ds.
Proof.
  intros H. pose proof (digits_digit ds) as F. induction F as [|c l C F IH]; cbn.
  - destruct R; auto. cbn. now rewrite H.
  - now rewrite C, IH.
Qed.
Lemma digit_noblank c : is_digit c = true -> blank c = false. Proof. intros H. digit H; reflexivity. Qed.

Lemma hashes_text t : hgrammatical t -> forall off R, (hends_num t -> match R with c :: _ => is_digit c = false | [] => True end) ->
  hashes off (htext t ++ R) = hs off t ++ hashes (off + List.length (htext t)) R.
Proof.
  induction t; cbn [hgrammatical htext hs hends_num]; intros H off R E.
  - rewrite hashes_skip; auto. repeat (apply Forall_app; split); auto using blanks_nohash, digits_nohash.
    destruct H as ([-> | [-> | ->]] & _); repeat constructor; discriminate.
  - rewrite <- !app_assoc. cbn [cs list_ascii_of_string app]. rewrite hashes_skip by apply blanks_nohash. cbn [hashes]. change (Ascii.eqb "(" "#") with false. cbn iota.
    rewrite blanks_length. replace (S (off + pre)) with (off + pre + 1)%nat by lia. rewrite IHt; auto. f_equal. cbn [hashes]. change (Ascii.eqb ")" "#") with false. cbn iota.
    rewrite hashes_skip by apply blanks_nohash. f_equal. rewrite !app_length. cbn [List.length]. rewrite app_length. cbn [List.length]. rewrite !blanks_length. lia.
  - destruct H as (H1 & H2 & N1 & N2 & S). rewrite <- app_assoc, IHt1; auto.
    + rewrite IHt2 by auto. rewrite app_assoc, app_length, Nat.add_assoc. reflexivity.
    + intros HE. assert (NS : ~ hstarts_num t2) by tauto. clear -NS H2.
      assert (X : forall t R, hgrammatical t -> ~ hstarts_num t -> match htext t ++ R with c :: _ => is_digit c = false | [] => True end).
      { clear. induction t; cbn [hgrammatical hstarts_num htext]; intros R H N; rewrite <- ?app_assoc.
        - destruct pre; [congruence|reflexivity].
        - destruct pre; reflexivity.
        - apply IHt1; tauto.
        - apply IHt1; tauto.
        - destruct pre; reflexivity.
        - destruct pre; reflexivity. }
      apply X; auto.
  - destruct H as (H1 & H2). rewrite <- !app_assoc. cbn [cs list_ascii_of_string app]. rewrite IHt1 by auto. rewrite <- ?app_assoc. f_equal. cbn [hashes]. change (Ascii.eqb ":" "#") with false. cbn iota.
    replace (S (off + List.length (htext t1))) with (off + List.length (htext t1) + 1)%nat by lia. rewrite IHt2 by auto. f_equal. f_equal. rewrite app_length. cbn. lia.
  - rewrite <- !app_assoc. cbn [cs list_ascii_of_string app]. rewrite hashes_skip by apply blanks_nohash. cbn [hashes]. change (Ascii.eqb "#" "#") with true. cbn iota.
    rewrite blanks_length. unfold hash_at. destruct (digits_cons ds H) as (c & r & F & C).
    destruct (take_blanks blank k (digits ds ++ blanks post ++ R)) as (T1 & T2); [reflexivity|rewrite F; cbn; now apply digit_noblank|].
    rewrite T1, T2. rewrite F at 1. cbn [app]. replace (Ascii.eqb c "(") with false by (symmetry; digit C; reflexivity).
    replace (c :: r ++ blanks post ++ R) with (digits ds ++ blanks post ++ R) by (now rewrite F).
    rewrite take_digits. 2:{ destruct post; [apply E; reflexivity|reflexivity]. }
    rewrite F at 1. cbn iota. rewrite <- F at 1. rewrite parse_digits_digits. rewrite blanks_length. f_equal; [now rewrite <- F|].
    rewrite hashes_skip by apply blanks_nohash. rewrite hashes_skip by apply digits_nohash. rewrite hashes_skip by apply blanks_nohash.
    f_equal. rewrite !app_length. cbn [List.length]. rewrite !app_length, !blanks_length. lia.
  - rewrite <- !app_assoc. cbn [cs list_ascii_of_string app]. rewrite hashes_skip by apply blanks_nohash. cbn [hashes]. change (Ascii.eqb "#" "#") with true. cbn iota.
    rewrite blanks_length. unfold hash_at.
    destruct (take_blanks blank k ("("%char :: htext t ++ ")"%char :: blanks post ++ R)) as (T1 & T2); [reflexivity|reflexivity|].
    rewrite T2. change (Ascii.eqb "(" "(") with true. cbn iota. f_equal.
    rewrite hashes_skip by apply blanks_nohash. cbn [hashes]. change (Ascii.eqb "(" "#") with false. cbn iota. rewrite blanks_length.
    replace (S (S (off + pre) + k)) with (off + pre + 1 + k + 1)%nat by lia. rewrite IHt; auto. f_equal. cbn [hashes]. change (Ascii.eqb ")" "#") with false. cbn iota.
    rewrite hashes_skip by apply blanks_nohash. f_equal. rewrite !app_length. cbn [List.length]. rewrite !app_length. cbn [List.length]. rewrite app_length. cbn [List.length]. rewrite !blanks_length. lia.
Qed.

(** finding the closing parenthesis *)
Lemma to_close_skip s : forall n acc R, Forall (fun c => c <> "("%char /\ c <> ")"%char) s -> to_close n acc (s ++ R) = to_close n (acc ++ s) R.
Proof.
  induction s as [|c s IH]; intros n acc R F; cbn [app to_close]; [now rewrite app_nil_r|].
  inversion F as [|? ? (A & B) F']; subst. apply Ascii.eqb_neq in A, B. rewrite A, B, IH by auto. now rewrite <- app_assoc.
Qed.
Lemma to_close_text t : grammatical mcnp t -> forall n acc R, to_close (S n) acc (text mcnp t ++ R) = to_close (S n) (acc ++ text mcnp t) R.
Proof.
  induction t; cbn [grammatical text]; intros H n acc R.
  - apply to_close_skip. assert (B : forall k, Forall (fun c => c <> "("%char /\ c <> ")"%char) (blanks k)) by (intros; apply blanks_Forall; split; discriminate).
    cbn [surf_prefix mcnp app]. repeat (apply Forall_app; split); auto.
    + destruct H as ([-> | [-> | ->]] & _); repeat constructor; discriminate.
    + eapply Forall_impl; [|apply digits_digit]. intros c C. split; intros ->; discriminate.
  - assert (B : forall k, Forall (fun c => c <> "("%char /\ c <> ")"%char) (blanks k)) by (intros; apply blanks_Forall; split; discriminate).
    rewrite <- !app_assoc. rewrite to_close_skip by auto. cbn [cs list_ascii_of_string app to_close]. change (Ascii.eqb "(" "(") with true. cbn iota.
    rewrite IHt by auto. cbn [to_close]. change (Ascii.eqb ")" "(") with false. change (Ascii.eqb ")" ")") with true. cbn iota. rewrite to_close_skip by auto. rewrite <- !app_assoc. reflexivity.
  - cbn [and_sign mcnp app]. rewrite <- app_assoc, IHt1, IHt2 by tauto. now rewrite <- app_assoc.
  - cbn [or_sign mcnp cs list_ascii_of_string app]. rewrite <- app_assoc, IHt1 by tauto. cbn [app to_close].
    change (Ascii.eqb ":" "(") with false. change (Ascii.eqb ":" ")") with false. cbn iota. rewrite IHt2 by tauto. now rewrite <- !app_assoc.
Qed.

Lemma firstn_len {A} (l r : list A) n : n = List.length l -> firstn n (l ++ r) = l.
Proof. intros ->. rewrite firstn_app, Nat.sub_diag, firstn_all. cbn. apply app_nil_r. Qed.
Lemma skipn_len {A} (l r : list A) n : n = List.length l -> skipn n (l ++ r) = r.
Proof. intros ->. rewrite skipn_app, Nat.sub_diag, skipn_all. reflexivity. Qed.
Lemma blanks_app a b : blanks (a + b) = blanks a ++ blanks b. Proof. apply repeat_app. Qed.

Section S.
Variable rec : Z -> res chars.
Variable cell : Z -> point -> bool.
Lemma subst_tree t : hgrammatical t ->
  (forall n, In n (refs t) -> exists u, rec n = Ok (text mcnp u) /\ grammatical mcnp u /\ forall v, sem v u = cell n v) ->
  exists u, grammatical mcnp u /\ (forall v, sem v u = hsem cell v t) /\ (ends_num u -> hends_num t) /\ (starts_num u -> hstarts_num t) /\ (is_or u -> h_is_or t) /\
    forall L R ms, subst_hashes rec (rev (hs (List.length L) t) ++ ms) (L ++ htext t ++ R) = subst_hashes rec ms (L ++ text mcnp u ++ R).
Proof.
  induction t; cbn [hgrammatical refs]; intros H RF.
  - exists (TNum pre sg ds post). cbn. repeat split; auto; try tauto.
  - destruct (IHt H RF) as (u & G & S & _ & _ & _ & E). exists (TPar pre u post). cbn [grammatical sem hsem ends_num starts_num is_or htext hs text]. repeat split; auto; try tauto.
    intros L R ms. specialize (E (L ++ blanks pre ++ cs "(") (cs ")" ++ blanks post ++ R) ms).
    rewrite !app_length, blanks_length in E. cbn [cs list_ascii_of_string List.length] in E. rewrite <- !app_assoc in *. rewrite Nat.add_assoc in E. exact E.
  - destruct H as (H1 & H2 & N1 & N2 & SP). destruct IHt1 as (u1 & G1 & S1 & A1 & B1 & C1 & E1); auto; [intros; apply RF, in_or_app; auto|].
    destruct IHt2 as (u2 & G2 & S2 & A2 & B2 & C2 & E2); auto; [intros; apply RF, in_or_app; auto|].
    exists (TAnd u1 u2). cbn [grammatical sem hsem ends_num starts_num is_or htext hs text and_sign mcnp app]. repeat split; auto; try tauto.
    + intros v. now rewrite S1, S2.
    + intros L R ms. rewrite rev_app_distr, <- !app_assoc. specialize (E2 (L ++ htext t1) R (rev (hs (List.length L) t1) ++ ms)).
      rewrite app_length, <- !app_assoc in E2. rewrite E2. specialize (E1 L (text mcnp u2 ++ R) ms). exact E1.
  - destruct H as (H1 & H2). destruct IHt1 as (u1 & G1 & S1 & A1 & B1 & C1 & E1); auto; [intros; apply RF, in_or_app; auto|].
    destruct IHt2 as (u2 & G2 & S2 & A2 & B2 & C2 & E2); auto; [intros; apply RF, in_or_app; auto|].
    exists (TOr u1 u2). cbn [grammatical sem hsem ends_num starts_num is_or h_is_or hends_num hstarts_num htext hs text or_sign mcnp]. repeat split; auto; try tauto.
    + intros v. now rewrite S1, S2.
    + intros L R ms. rewrite rev_app_distr, <- !app_assoc. specialize (E2 (L ++ htext t1 ++ cs ":") R (rev (hs (List.length L) t1) ++ ms)).
      rewrite !app_length, <- !app_assoc in E2. cbn [cs list_ascii_of_string List.length] in E2. rewrite Nat.add_assoc in E2. cbn [cs list_ascii_of_string]. rewrite E2. specialize (E1 L (cs ":" ++ text mcnp u2 ++ R) ms). exact E1.
  - destruct (RF _ (or_introl eq_refl)) as (g & RG & GG & SG). destruct (complementary_text g GG) as (p & w & q & CW & GW & SW).
    exists (TPar (pre + 6 + p) w (q + 1 + post)). cbn [grammatical sem hsem ends_num starts_num is_or htext hs text]. repeat split; auto; try tauto.
    + intros v. rewrite SW, SG. reflexivity.
    + intros L R ms. cbn [rev app subst_hashes]. rewrite RG. cbn [bind]. rewrite CW. cbn [bind]. f_equal. cbn [text].
      assert (F1 : firstn (List.length L + pre) (L ++ (blanks pre ++ cs "#" ++ blanks k ++ digits ds ++ blanks post) ++ R) = L ++ blanks pre).
      { rewrite <- !app_assoc, app_assoc. apply firstn_len. rewrite app_length, blanks_length. reflexivity. }
      assert (F2 : skipn (List.length L + pre + 1 + k + List.length (digits ds)) (L ++ (blanks pre ++ cs "#" ++ blanks k ++ digits ds ++ blanks post) ++ R) = blanks post ++ R).
      { replace (L ++ (blanks pre ++ cs "#" ++ blanks k ++ digits ds ++ blanks post) ++ R) with ((L ++ blanks pre ++ cs "#" ++ blanks k ++ digits ds) ++ blanks post ++ R)
          by (rewrite <- !app_assoc; reflexivity).
        apply skipn_len. rewrite !app_length, !blanks_length. cbn. lia. }
      rewrite F1, F2.
      rewrite !blanks_app. cbn [cs list_ascii_of_string]. rewrite <- !app_assoc. reflexivity.
  - destruct (IHt H RF) as (u & G & S & _ & _ & _ & E). destruct (complementary_text (TPar k u 0) G) as (p & w & q & CW & GW & SW).
    exists (TPar (pre + p) w (q + post)). cbn [grammatical sem hsem ends_num starts_num is_or htext hs text]. repeat split; auto; try tauto.
    + intros v. rewrite SW. cbn [sem]. rewrite S. reflexivity.
    + intros L R ms. cbn [rev]. rewrite <- (app_assoc (rev _)). specialize (E (L ++ blanks pre ++ cs "#" ++ blanks k ++ cs "(") (cs ")" ++ blanks post ++ R) ([((List.length L + pre)%nat, None)] ++ ms)).
      rewrite !app_length, !blanks_length in E. cbn [cs list_ascii_of_string List.length] in E.
      replace (List.length L + (pre + (1 + (k + 1))))%nat with (List.length L + pre + 1 + k + 1)%nat in E by lia. rewrite <- !app_assoc in *. cbn [cs list_ascii_of_string app] in *. rewrite E. clear E.
      cbn [subst_hashes].
      replace (L ++ blanks pre ++ "#"%char :: blanks k ++ "("%char :: text mcnp u ++ ")"%char :: blanks post ++ R)
        with ((L ++ blanks pre ++ cs "#") ++ blanks k ++ "("%char :: text mcnp u ++ ")"%char :: blanks post ++ R) by (rewrite <- !app_assoc; reflexivity).
      rewrite skipn_len by (rewrite !app_length, blanks_length; cbn; lia).
      rewrite to_close_skip by (apply blanks_Forall; split; discriminate). cbn [to_close app]. change (Ascii.eqb "(" "(") with true. cbn iota.
      rewrite to_close_text by auto. cbn [to_close]. change (Ascii.eqb ")" "(") with false. change (Ascii.eqb ")" ")") with true. cbn iota.
      replace (((blanks k ++ ["("%char]) ++ text mcnp u) ++ [")"%char]) with (text mcnp (TPar k u 0)) by (cbn [text blanks repeat]; rewrite <- !app_assoc; reflexivity).
      rewrite CW. cbn [bind]. f_equal.
      replace ((L ++ blanks pre ++ cs "#") ++ blanks k ++ "("%char :: text mcnp u ++ ")"%char :: blanks post ++ R)
         with ((L ++ blanks pre) ++ (cs "#" ++ blanks k ++ "("%char :: text mcnp u ++ ")"%char :: blanks post ++ R)) by (rewrite <- !app_assoc; reflexivity).
      rewrite firstn_len by (rewrite app_length, blanks_length; lia). cbn [text]. rewrite !blanks_app, <- !app_assoc. cbn [cs list_ascii_of_string app]. rewrite <- ?app_assoc. reflexivity.
Qed.
End S.

Definition geometry_of (cards : dict) (n : Z) : option chars := match card_of n cards with Ok c => Some (geom c) | _ => None end.

Lemma no_ops s : forall off, has "#" s = false -> hashes off s = [].
Proof.
  induction s as [|c s IH]; intros off H; unfold has in *; cbn [hashes existsb] in *; auto. apply orb_false_iff in H. destruct H as (H & H'). rewrite Ascii.eqb_sym in H. rewrite H. auto.
Qed.

Lemma uniform (P : Z -> nat -> Prop) : (forall m k k', P m k -> (k <= k')%nat -> P m k') ->
  forall l, (forall m, In m l -> exists k, P m k) -> exists k, forall m, In m l -> P m k.
Proof.
  intros M. induction l as [|x l IH]; intros H; [exists 0%nat; intros m []|].
  destruct (IH (fun m Hm => H m (or_intror Hm))) as (k & K). destruct (H x (or_introl eq_refl)) as (k' & K').
  exists (Nat.max k k'). intros m [<- | Hm]; [eapply M; [apply K'|lia]|eapply M; [apply K; auto|lia]].
Qed.

Lemma remove_hash_spec cards cell n : defined (geometry_of cards) cell n ->
  (forall m c, card_of m cards = Ok c -> hproc c = true \/ has "#" (geom c) = false) ->
  exists k, forall fuel, (k <= fuel)%nat -> exists u, remove_hash fuel cards n = Ok (text mcnp u) /\ grammatical mcnp u /\ forall v, sem v u = cell n v.
Proof.
  intros M A. induction M as [n s t G HG HT R IH E].
  destruct (uniform (fun m k => forall fuel, (k <= fuel)%nat -> exists u, remove_hash fuel cards m = Ok (text mcnp u) /\ grammatical mcnp u /\ forall v, sem v u = cell m v)) with (l := refs t) as (K & HK).
  { intros m k k' P L fuel Hf. apply P. lia. }
  { exact IH. }
  exists (S K). intros fuel Hf. destruct fuel as [|fuel]; [lia|]. cbn [remove_hash]. unfold geometry_of in G. destruct (card_of n cards) as [c|e|] eqn:EC; try discriminate. injection G as G. cbn [bind].
  destruct (subst_tree (remove_hash fuel cards) cell t HG) as (u & GU & SU & _ & _ & _ & SS).
  { intros m Hm. apply HK; auto. lia. }
  specialize (SS [] [] []). cbn [List.length] in SS. rewrite !app_nil_r in SS. cbn [app subst_hashes] in SS.
  pose proof (hashes_text t HG 0 []) as HH. rewrite app_nil_r in HH. cbn [hashes] in HH. rewrite app_nil_r in HH. specialize (HH (fun _ => Logic.I)).
  exists u. split; [|split; auto; intros v; now rewrite SU, E].
  assert (X : subst_hashes (remove_hash fuel cards) (rev (hashes 0 (geom c))) (geom c) = Ok (text mcnp u)) by (rewrite G, <- HT, HH; exact SS).
  destruct (A _ _ EC) as [P | P].
  - rewrite P. cbn [negb orb]. destruct (has "#" (geom c)) eqn:Q; auto. cbn. rewrite (no_ops _ _ Q) in X. exact X.
  - rewrite P. rewrite orb_true_r. rewrite (no_ops _ _ P) in X. exact X.
Qed.

(** the texts made are without operators, and read as themselves *)
Fixpoint emb (t : tree) : htree :=
  match t with
  | TNum pre sg ds post => HNum pre sg ds post
  | TPar pre t post => HPar pre (emb t) post
  | TAnd a b => HAnd (emb a) (emb b)
  | TOr a b => HOr (emb a) (emb b)
  end.
Lemma emb_spec cell t : grammatical mcnp t -> htext (emb t) = text mcnp t /\ hgrammatical (emb t) /\ refs (emb t) = [] /\ (forall v, hsem cell v (emb t) = sem v t) /\
  (hends_num (emb t) <-> ends_num t) /\ (hstarts_num (emb t) <-> starts_num t) /\ (h_is_or (emb t) <-> is_or t).
Proof.
  induction t; cbn [grammatical emb htext text hgrammatical refs hsem sem hends_num ends_num hstarts_num starts_num h_is_or is_or mcnp surf_prefix and_sign or_sign app]; intros H.
  - repeat split; auto; try tauto.
  - destruct (IHt H) as (-> & ? & -> & ? & _). repeat split; auto; tauto.
  - destruct H as (H1 & H2 & N1 & N2 & SP). destruct (IHt1 H1) as (-> & G1 & -> & S1 & A1 & B1 & C1). destruct (IHt2 H2) as (-> & G2 & -> & S2 & A2 & B2 & C2).
    repeat split; auto; try tauto; try (intros v; now rewrite S1, S2).
  - destruct H as (H1 & H2). destruct (IHt1 H1) as (-> & G1 & -> & S1 & A1 & B1 & C1). destruct (IHt2 H2) as (-> & G2 & -> & S2 & A2 & B2 & C2).
    repeat split; auto; try tauto; try (intros v; now rewrite S1, S2).
Qed.
Lemma text_nohash t : grammatical mcnp t -> has "#" (text mcnp t) = false.
Proof.
  intros H. assert (F : Forall (fun c => c <> "#"%char) (text mcnp t)).
  { induction t; cbn [grammatical text mcnp surf_prefix and_sign or_sign cs list_ascii_of_string app] in *.
    - repeat (apply Forall_app; split); auto using blanks_nohash, digits_nohash. destruct H as ([-> | [-> | ->]] & _); repeat constructor; discriminate.
    - apply Forall_app; split; [apply blanks_nohash|]. constructor; [discriminate|]. apply Forall_app; split; auto. constructor; [discriminate|apply blanks_nohash].
    - apply Forall_app; split; tauto.
    - apply Forall_app; split; [tauto|]. constructor; [discriminate|tauto]. }
  unfold has. induction F as [|c l C F IH]; cbn [existsb]; auto. rewrite IH, orb_false_r. apply Ascii.eqb_neq. congruence.
Qed.

Lemma set_geom_of n g m cards : card_of m (set_geom n g cards) =
  match card_of m cards with Ok c => if m =? n then Ok (Card (hproc c) g) else Ok c | Err e => Err e | Fuel => Fuel end.
Proof.
  induction cards as [|(k, c) r IH]; cbn [set_geom card_of]; auto.
  destruct (Z.eqb_spec k n) as [-> | N]; cbn [card_of].
  - destruct (Z.eqb_spec n m) as [-> | N]; [now rewrite Z.eqb_refl|]. destruct (card_of m r) as [c'|?|]; auto. now rewrite (proj2 (Z.eqb_neq m n)) by congruence.
  - destruct (Z.eqb_spec k m) as [-> | N']; [now rewrite (proj2 (Z.eqb_neq m n)) by congruence|auto].
Qed.

Lemma subst_mono (r1 r2 : Z -> res chars) : (forall n s, r1 n = Ok s -> r2 n = Ok s) ->
  forall ms s x, subst_hashes r1 ms s = Ok x -> subst_hashes r2 ms s = Ok x.
Proof.
  intros M. induction ms as [|(st, [(n, e)|]) ms IH]; intros s x H; cbn [subst_hashes] in *; auto.
  - destruct (r1 n) as [g|?|] eqn:RN; try discriminate. rewrite (M _ _ RN). cbn [bind] in *. destruct (complementary _); try discriminate. cbn [bind] in *. auto.
  - destruct (to_close _ _ _) as [(h, a)|]; try discriminate. destruct (complementary h); try discriminate. cbn [bind] in *. auto.
Qed.
Lemma remove_hash_mono cards : forall k k', (k <= k')%nat -> forall n s, remove_hash k cards n = Ok s -> remove_hash k' cards n = Ok s.
Proof.
  induction k as [|k IH]; intros k' L n s H; [discriminate|]. destruct k' as [|k']; [lia|]. cbn [remove_hash] in *.
  destruct (card_of n cards) as [c|?|]; try discriminate. cbn [bind] in *. destruct (_ || _); auto.
  eapply subst_mono; [|exact H]. apply IH. lia.
Qed.
Lemma remove_hash_spec' cards cell n : defined (geometry_of cards) cell n ->
  (forall m c, card_of m cards = Ok c -> hproc c = true \/ has "#" (geom c) = false) ->
  exists k u, grammatical mcnp u /\ (forall v, sem v u = cell n v) /\ forall fuel, (k <= fuel)%nat -> remove_hash fuel cards n = Ok (text mcnp u).
Proof.
  intros D A. destruct (remove_hash_spec cards cell n D A) as (k & H). destruct (H k (le_n k)) as (u & R & G & S). exists k, u. repeat split; auto.
  intros fuel L. eapply remove_hash_mono; eauto.
Qed.

Lemma expand_all_spec cell names : forall cards,
  (forall n, In n names -> exists c, card_of n cards = Ok c) ->
  (forall n c, card_of n cards = Ok c -> hproc c = true \/ has "#" (geom c) = false) ->
  (forall n c, card_of n cards = Ok c -> defined (geometry_of cards) cell n) ->
  exists k cards', (forall fuel, (k <= fuel)%nat -> expand_all fuel names cards = Ok cards') /\ map fst cards' = map fst cards /\
    (forall n c, In n names -> card_of n cards' = Ok c -> has "#" (geom c) = false /\ denotes mcnp (geom c) (cell n)) /\
    (forall n, ~ In n names -> card_of n cards' = card_of n cards).
Proof.
  induction names as [|n names IH]; intros cards D A W.
  { exists 0%nat, cards. repeat split; auto; intros; contradiction. }
  destruct (D n (or_introl eq_refl)) as (c & C). destruct (remove_hash_spec' cards cell n (W _ _ C) A) as (k0 & u & G & S & H0).
  set (cards1 := set_geom n (text mcnp u) cards).
  assert (W1 : forall m, defined (geometry_of cards) cell m -> defined (geometry_of cards1) cell m).
  { intros m M. induction M as [m s t Gm HG HT R IHm E]. destruct (Z.eqb_spec m n) as [-> | N].
    - destruct (emb_spec cell u G) as (E1 & E2 & E3 & E4 & _). apply (defined_cell _ _ n (text mcnp u) (emb u)); auto.
      + unfold geometry_of, cards1. rewrite set_geom_of, C, Z.eqb_refl. reflexivity.
      + rewrite E3. intros m [].
      + intros v. now rewrite E4, S.
    - apply (defined_cell _ _ m s t); auto. unfold geometry_of, cards1 in *. rewrite set_geom_of. destruct (card_of m cards); auto. now rewrite (proj2 (Z.eqb_neq m n) N). }
  destruct (IH cards1) as (k1 & cards' & X & K & P & Q).
  { intros m Hm. destruct (D m (or_intror Hm)) as (c' & C'). unfold cards1. rewrite set_geom_of, C'. destruct (m =? n); eauto. }
  { intros m c'. unfold cards1. rewrite set_geom_of. destruct (card_of m cards) as [c0|?|] eqn:C0; try discriminate. destruct (m =? n).
    - intros E. injection E as <-. right. cbn. now apply text_nohash.
    - intros E. injection E as <-. eauto. }
  { intros m c' E. apply W1. unfold cards1 in E. rewrite set_geom_of in E. destruct (card_of m cards) as [c0|?|] eqn:C0; try discriminate. eauto. }
  exists (Nat.max k0 k1), cards'. repeat split.
  - intros fuel L. cbn [expand_all]. rewrite H0 by lia. cbn [bind]. apply X. lia.
  - rewrite K. unfold cards1. clear. induction cards as [|(k, c) r IH]; cbn; auto. destruct (k =? n); cbn; congruence.
  - destruct (in_dec Z.eq_dec n0 names) as [I|NI]; [eapply (P n0); eauto|]. destruct H as [<- | H]; [|contradiction].
    rewrite (Q _ NI) in H1. unfold cards1 in H1. rewrite set_geom_of, C, Z.eqb_refl in H1. injection H1 as <-. cbn. now apply text_nohash.
  - destruct (in_dec Z.eq_dec n0 names) as [I|NI]; [eapply (P n0); eauto|]. destruct H as [<- | H]; [|contradiction].
    rewrite (Q _ NI) in H1. unfold cards1 in H1. rewrite set_geom_of, C, Z.eqb_refl in H1. injection H1 as <-. cbn. exists u. auto.
  - intros m NI. rewrite Q by (intros I; apply NI; now right). unfold cards1. rewrite set_geom_of. destruct (card_of m cards); auto.
    rewrite (proj2 (Z.eqb_neq m n)); auto. intros ->. apply NI. now left.
Qed.
