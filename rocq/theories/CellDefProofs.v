(** Proofs for C51, first part: texts, and the surface dictionary during a run. *)
From Coq Require Import Ascii String Permutation.
From Verif Require Import Prelude BoolSpec BoolSeq BoolProofs CellText Writers WritersProofs ParenModel PropsText
  SurfDict SurfDictProofs CellDef CellDefSpec.

(** * Texts *)
Definition ok_tree (t : tree) : Prop := ~ is_or t /\ grammatical mcnp t.
Definition ok_str (s : chars) : Prop := exists t, ok_tree t /\ text mcnp t = s.
Definition means (v : point) (s : chars) (b : bool) : Prop :=
  exists t, ok_tree t /\ text mcnp t = s /\ sem v t = b.
Definition conj (v : point) (pc : list chars) : Prop := forall s, In s pc -> means v s true.

Lemma means_uniq v s b b' : means v s b -> means v s b' -> b = b'.
Proof.
  intros (t & (_ & T) & E & <-) (t' & (_ & T') & E' & <-).
  destruct (C07_parse (fun l => l) s (fun v => sem v t)) as (n & P & _ & _ & V); [intros; apply Permutation_refl|exists t; auto|].
  destruct (C07_parse (fun l => l) s (fun v => sem v t')) as (n' & P' & _ & _ & V'); [intros; apply Permutation_refl|exists t'; auto|].
  rewrite P in P'. injection P' as <-. rewrite <- V, <- V'. reflexivity.
Qed.
Lemma means_ok v s b : means v s b -> ok_str s.
Proof. intros (t & A & B & _). exists t. auto. Qed.
Lemma means_true v s b : means v s b -> (means v s true <-> b = true).
Proof.
  intros M. split; intros H; [symmetry; eapply means_uniq; eauto|]. subst. auto.
Qed.

Lemma lit_tree z : z <> 0 -> exists sg ds, ok_tree (TNum 0 sg ds 0) /\ text mcnp (TNum 0 sg ds 0) = str_int z /\
  num_val sg ds = z.
Proof.
  intros H. destruct (num_tree z H) as (sg & ds & E & S & N & V). exists sg, ds. split; [split; [simpl; auto|]|split; auto].
  - cbn [grammatical]. split; [destruct S; auto|]. split; auto. congruence.
  - cbn [text mcnp surf_prefix blanks repeat app]. rewrite app_nil_r. symmetry. exact E.
Qed.
Lemma means_lit v z : z <> 0 -> means v (str_int z) (lit_val v z).
Proof.
  intros H. destruct (lit_tree z H) as (sg & ds & T & E & V). exists (TNum 0 sg ds 0).
  split; auto. split; auto. cbn [sem]. rewrite V. reflexivity.
Qed.

(** Two texts with a blank between. *)
Lemma and_tree t u : ok_tree t -> ok_tree u -> ok_tree (TAnd (pad_r 1 t) u).
Proof.
  intros (A & B) (D & E). split; [simpl; auto|]. cbn [grammatical]. rewrite is_or_pad_r.
  split; [apply gram_pad_r; auto|]. split; auto. split; auto. split; auto.
  intros _ (F & _). apply ends_pad_r in F. lia.
Qed.
Lemma text_and t u : text mcnp (TAnd (pad_r 1 t) u) = text mcnp t ++ cs " " ++ text mcnp u.
Proof. cbn [text and_sign mcnp]. rewrite text_pad_r. cbn [app]. rewrite <- app_assoc. reflexivity. Qed.
Lemma means_and v s s' b b' : means v s b -> means v s' b' -> means v (s ++ cs " " ++ s') (b && b').
Proof.
  intros (t & A & <- & <-) (u & B & <- & <-). exists (TAnd (pad_r 1 t) u). split; [apply and_tree; auto|].
  split; [apply text_and|]. cbn [sem]. rewrite sem_pad_r. reflexivity.
Qed.
Lemma means_or v k1 k2 s s' b b' : means v s b -> means v s' b' ->
  means v (cs "(" ++ s ++ blanks k1 ++ cs ":" ++ blanks k2 ++ s' ++ cs ")") (b || b').
Proof.
  intros (t & (A & A') & <- & <-) (u & (B & B') & <- & <-). exists (TPar 0 (TOr (pad_r k1 t) (pad_l k2 u)) 0).
  split; [split; [simpl; auto|]|split].
  - cbn [grammatical]. split; [apply gram_pad_r; auto|apply gram_pad_l; auto].
  - cbn [text or_sign mcnp blanks repeat app]. rewrite text_pad_r, text_pad_l, app_nil_r, <- !app_assoc. reflexivity.
  - cbn [sem]. rewrite sem_pad_r, sem_pad_l. reflexivity.
Qed.

Lemma join_text pc : pc <> [] -> (forall s, In s pc -> ok_str s) ->
  exists t, ok_tree t /\ text mcnp t = join_str (cs " ") pc /\ forall v, sem v t = true <-> conj v pc.
Proof.
  induction pc as [|s pc IH]; intros NE OK; [congruence|].
  destruct (OK s (or_introl eq_refl)) as (t & T & E).
  assert (M : forall v, means v s true <-> sem v t = true).
  { intros v. apply means_true. exists t. auto. }
  destruct pc as [|s2 pc].
  - exists t. split; auto. split; auto. intros v. rewrite <- M. unfold conj. split; [|intros; apply H; left; auto].
    intros H x [<-|[]]. auto.
  - destruct IH as (u & U & EU & V); [congruence|intros; apply OK; right; auto|].
    exists (TAnd (pad_r 1 t) u). split; [apply and_tree; auto|]. split; [rewrite text_and, E, EU; reflexivity|].
    intros v. cbn [sem]. rewrite sem_pad_r, andb_true_iff, <- M, V. unfold conj. split.
    + intros (A & B) x [<-|Hx]; auto.
    + intros H. split; [apply H; left; auto|intros x Hx; apply H; right; auto].
Qed.

Lemma join_or_text es : es <> [] -> (forall s, In s es -> ok_str s) ->
  exists t, grammatical mcnp t /\ text mcnp t = join_str (cs ":") es /\
    forall v, sem v t = true <-> exists s, In s es /\ means v s true.
Proof.
  induction es as [|s pc IH]; intros NE OK; [congruence|].
  destruct (OK s (or_introl eq_refl)) as (t & T & E).
  assert (M : forall v, means v s true <-> sem v t = true).
  { intros v. apply means_true. exists t. auto. }
  destruct pc as [|s2 pc].
  - exists t. split; [apply T|]. split; auto. intros v. rewrite <- M. split; [intros; exists s; simpl; auto|].
    intros (x & [<-|[]] & H). auto.
  - destruct IH as (u & U & EU & V); [congruence|intros; apply OK; right; auto|].
    exists (TOr t u). split; [cbn [grammatical]; split; auto; apply T|]. split; [cbn [text or_sign mcnp]; rewrite E, EU; reflexivity|].
    intros v. cbn [sem]. rewrite orb_true_iff, <- M, V. split.
    + intros [A|(x & A & B)]; [exists s; simpl; auto|exists x; simpl in *; auto].
    + intros (x & [<-|A] & B); [auto|right; eauto].
Qed.
Lemma paren_or es : es <> [] -> (forall s, In s es -> ok_str s) ->
  exists t, ok_tree t /\ text mcnp t = cs "(" ++ join_str (cs ":") es ++ cs ")" /\
    forall v, sem v t = true <-> exists s, In s es /\ means v s true.
Proof.
  intros NE OK. destruct (join_or_text es NE OK) as (t & T & E & V). exists (TPar 0 t 0).
  split; [split; simpl; auto|]. split; [|exact V]. cbn [text blanks repeat app]. rewrite E, app_nil_r. reflexivity.
Qed.

Lemma in_strs_In s l : in_strs s l = true <-> In s l.
Proof.
  unfold in_strs. rewrite existsb_exists. split.
  - intros (x & H & E). destruct (list_eq_dec ascii_dec s x); [subst; auto|discriminate].
  - intros H. exists s. split; auto. destruct (list_eq_dec ascii_dec s s); congruence.
Qed.
Lemma add_str_In s x l : In x (add_str s l) <-> x = s \/ In x l.
Proof.
  unfold add_str. destruct (in_strs s l) eqn:E.
  - apply in_strs_In in E. split; auto. intros [->|]; auto.
  - rewrite in_app_iff. simpl. intuition.
Qed.
Lemma add_str_ne s l : add_str s l <> [].
Proof. intros E. assert (H : In s (add_str s l)) by (apply add_str_In; auto). rewrite E in H. destruct H. Qed.
Lemma conj_add v s l : conj v (add_str s l) <-> conj v l /\ means v s true.
Proof.
  unfold conj. split.
  - intros H. split; [intros x Hx|]; apply H, add_str_In; auto.
  - intros (A & B) x Hx. apply add_str_In in Hx. destruct Hx as [->|]; auto.
Qed.

(** * The dictionary *)
Section Dict.
  Variable G : Type.
  Variable cls : G -> key.
  Variable same : G -> G -> bool.
  Variable opp opp_x : G -> G -> bool.
  Variable P : G -> Prop.
  Variable side : G -> bool.
  Hypothesis FA : faithful cls same opp opp_x P side.
  Variable o : Z.
  Hypothesis HO : 0 <= o.

  Definition dok (d : sdict G) : Prop :=
    Good G o d /\ last_ok G d /\
    (forall s, registered_in d s -> P (geo s)) /\
    (forall k s, In s (group d k) -> cls (geo s) = k).
  Definition grow (d d' : sdict G) : Prop := forall k, exists l, group d' k = group d k ++ l.
  Definition consistent (v : point) (d : sdict G) : Prop :=
    forall s, registered_in d s -> v (index s) = side (geo s).

  Lemma grow_refl d : grow d d.
  Proof. intros k. exists []. rewrite app_nil_r. auto. Qed.
  Lemma grow_trans a b c : grow a b -> grow b c -> grow a c.
  Proof. intros H K k. destruct (H k) as (l & E), (K k) as (l' & E'). exists (l ++ l'). rewrite E', E, app_assoc. auto. Qed.
  Lemma grow_reg a b s : grow a b -> registered_in a s -> registered_in b s.
  Proof. intros H (k & K). exists k. destruct (H k) as (l & ->). apply in_or_app. auto. Qed.
  Lemma grow_cons v a b : grow a b -> consistent v b -> consistent v a.
  Proof. intros H K s R. apply K. eapply grow_reg; eauto. Qed.
  Lemma grow_group a b : group a = group b -> grow a b.
  Proof. intros E k. exists []. rewrite E, app_nil_r. auto. Qed.

  Lemma reg_pos d s : dok d -> registered_in d s -> 0 < index s.
  Proof.
    intros ((OO & N & I) & _) (k & K). pose proof (index_in _ _ _ _ _ _ I K) as J. apply (inv_range _ _ _ _ I) in J. lia.
  Qed.
  Lemma reg_uniq d s s' : dok d -> registered_in d s -> registered_in d s' -> index s = index s' -> s = s'.
  Proof. intros ((OO & N & I) & _) (k & K) (k' & K') E. exact (proj2 (surf_uniq _ _ _ _ _ _ _ _ I K K' E)). Qed.

  Lemma dok_content d d' : dok d -> same_content G d d' -> last_ok G d' -> dok d'.
  Proof.
    intros ((OO & N & I) & L & A & B) SC L'. pose proof (same_content_inv _ _ _ _ _ SC I) as I'.
    destruct SC as (E1 & E2 & E3 & E4). split; [split; [congruence|split; [lia|]]|].
    - replace (number d') with (number d) by auto. auto.
    - split; auto. split.
      + intros s (k & K). apply A. exists k. rewrite E2. auto.
      + intros k s K. apply B. rewrite E2. auto.
  Qed.

  Lemma get_reg d s : dok d -> registered_in d s ->
    exists d', get_surface (index s) d = Ok (d', Some s) /\ dok d' /\ grow d d' /\ grow d' d.
  Proof.
    intros D R. pose proof D as ((OO & N & I) & L & _). destruct (get_ok _ _ _ (index s) d I L) as (d' & r & E & SC & L' & H).
    assert (r = Some s) as ->. { apply H. destruct R as (k & K). eauto. }
    exists d'. split; auto. split; [eapply dok_content; eauto|].
    destruct SC as (_ & E2 & _). split; apply grow_group; auto.
  Qed.

  Lemma add_ok g d : dok d -> P g ->
    exists d' s b, add G cls same g d = (d', (index s, b)) /\ dok d' /\ grow d d' /\
      In s (group d' (cls g)) /\ (b = false -> geo s = g) /\ (geo s = g \/ same g (geo s) = true) /\ 0 < index s /\
      (b = true -> grow d' d).
  Proof.
    intros D PG. pose proof D as ((OO & N & I) & L & A & B).
    destruct (add_inv G cls same o g d) as (I' & O' & N' & L' & _); auto; try lia; [rewrite OO; auto|].
    assert (IX : exists d' s b, add G cls same g d = (d', (index s, b)) /\ grow d d' /\ In s (group d' (cls g)) /\
      (b = false -> geo s = g) /\ (geo s = g \/ same g (geo s) = true) /\
      (forall k t, In t (group d' k) -> In t (group d k) \/ k = cls g /\ t = s /\ geo s = g) /\ (b = true -> grow d' d)).
    { unfold add. pose proof (find_same_spec G cls same g (group d (cls g)) 0) as F.
      destruct (find_same G same g 0 (group d (cls g))) as [[i ix]|].
      - destruct F as (l1 & t & l2 & E & <- & S & _). eexists _, t, true. split; [reflexivity|].
        split; [apply grow_group; reflexivity|]. split; [cbn [group]; rewrite E; apply in_or_app; right; left; auto|].
        split; [discriminate|]. split; auto. split; [cbn [group]; auto|]. intros _. apply grow_group; reflexivity.
      - eexists _, (Surf (number d + 1 + offset d) g), false. split; [reflexivity|]. cbn [group geo].
        split; [|split; [rewrite upd_same; apply in_or_app; right; left; auto|split; [auto|split; [auto|split; [|discriminate]]]]].
        + intros k. cbn [group]. destruct (key_eqb_spec k (cls g)) as [->|NE].
          * eexists. rewrite upd_same. reflexivity.
          * exists []. rewrite upd_other, app_nil_r; auto.
        + intros k t. destruct (key_eqb_spec k (cls g)) as [->|NE].
          * rewrite upd_same, in_app_iff. intros [?|[<-|[]]]; auto.
          * rewrite upd_other; auto. }
    destruct IX as (d' & s & b & E & GR & IN & NB & SM & BK & BT). rewrite E in I', O', N', L'. cbn [fst] in *.
    assert (D' : dok d').
    { split; [split; [congruence|split; [lia|]]|].
      - replace o with (offset d') at 2 by congruence. auto.
      - split; [auto|split].
        + intros t (k & K). destruct (BK _ _ K) as [?|(_ & -> & ->)]; auto. apply A. exists k. auto.
        + intros k t K. destruct (BK _ _ K) as [?|(-> & -> & ->)]; auto. }
    exists d', s, b. split; auto. split; auto. split; auto. split; auto. split; auto. split; auto. split; auto.
    eapply reg_pos; eauto. exists (cls g). auto.
  Qed.

  Lemma lit_pos v z : 0 < z -> lit_val v z = v z.
  Proof. intros H. unfold lit_val. destruct (Z.ltb_spec z 0), (Z.ltb_spec 0 z); try lia; auto. Qed.
  Lemma lit_neg v z : 0 < z -> lit_val v (- z) = negb (v z).
  Proof. intros H. rewrite lit_val_opp by lia. rewrite lit_pos; auto. Qed.

  Lemma add_signed_ok op g d : op = opp \/ op = opp_x -> dok d -> P g -> plane cls g ->
    exists d' z, add_signed G cls same op g d = Ok (d', z) /\ dok d' /\ grow d d' /\ z <> 0 /\
      forall v, consistent v d' -> lit_val v z = side g.
  Proof.
    intros OP D PG PL. destruct (add_ok g d D PG) as (d1 & s & b & E & D1 & GR & IN & NB & SM & POS & _).
    unfold add_signed. rewrite E. assert (R : registered_in d1 s) by (exists (cls g); auto). destruct b.
    - destruct (get_reg _ _ D1 R) as (d2 & EG & D2 & G12 & G21). rewrite EG. cbn [bind].
      assert (C : cls g = cls (geo s)). { pose proof D1 as (_ & _ & _ & B). symmetry. apply B; auto. }
      assert (PS : P (geo s)). { destruct D1 as (_ & _ & A & _). auto. }
      assert (F : side g = if op g (geo s) then negb (side (geo s)) else side (geo s)).
      { destruct (FA g (geo s)) as (_ & F); auto; [destruct SM; auto|]. destruct (F PL) as (F1 & F2).
        destruct OP as [->| ->]; auto. }
      eexists d2, _. split; [reflexivity|]. split; auto. split; [eapply grow_trans; eauto|]. split.
      + destruct (op g (geo s)); lia.
      + intros v CV. rewrite F. assert (V : v (index s) = side (geo s)). { apply CV. eapply grow_reg; eauto. }
        destruct (op g (geo s)); [rewrite lit_neg by auto|rewrite lit_pos by auto]; rewrite V; reflexivity.
    - exists d1, (index s). split; auto. split; auto. split; auto. split; [lia|].
      intros v CV. rewrite lit_pos by auto. rewrite (CV s R). rewrite NB; auto.
  Qed.

  Lemma get_id_number d g n : number_in cls same d g n -> get_id G cls same g d = n.
  Proof.
    intros (l1 & s & l2 & E & S & <- & F). unfold get_id. pose proof (find_same_spec G cls same g (group d (cls g)) 0) as K.
    destruct (find_same G same g 0 (group d (cls g))) as [[i ix]|].
    - destruct K as (m1 & t & m2 & E' & <- & S' & F' & _). rewrite E in E'.
      assert (s = t); [|congruence]. clear - E' S S' F F'. revert m1 E' F'. induction l1 as [|a l1 IH]; intros [|b m1] E' F'; simpl in E'.
      + congruence.
      + injection E' as -> _. rewrite F' in S by (left; auto). discriminate.
      + injection E' as <- _. rewrite F in S' by (left; auto). discriminate.
      + injection E' as <- E'. apply (IH (fun t H => F t (or_intror H)) m1); auto. intros u H. apply F'. right; auto.
    - rewrite K in S; [discriminate|]. rewrite E. apply in_or_app. right; left; auto.
  Qed.
  Lemma get_id_spec d g : dok d -> (exists n, number_in cls same d g n) \/ get_id G cls same g d = 0.
  Proof.
    intros D. unfold get_id, number_in. pose proof (find_same_spec G cls same g (group d (cls g)) 0) as K.
    destruct (find_same G same g 0 (group d (cls g))) as [[i ix]|]; auto.
    destruct K as (m1 & t & m2 & E' & <- & S' & F' & _). left. exists (index t), m1, t, m2. auto.
  Qed.
  Lemma number_grow d d' g n : grow d d' -> number_in cls same d g n -> number_in cls same d' g n.
  Proof.
    intros H (l1 & s & l2 & E & R). destruct (H (cls g)) as (l & E'). exists l1, s, (l2 ++ l). split; auto.
    rewrite E', E, <- app_assoc. reflexivity.
  Qed.
  Lemma number_uniq d g n m : number_in cls same d g n -> number_in cls same d g m -> n = m.
  Proof. intros A B. apply get_id_number in A, B. congruence. Qed.
  Lemma number_val d g n v : dok d -> P g -> ~ plane cls g -> number_in cls same d g n -> consistent v d ->
    0 < n /\ v n = side g.
  Proof.
    intros D PG NP (l1 & s & l2 & E & S & <- & _) CV.
    assert (IN : In s (group d (cls g))) by (rewrite E; apply in_or_app; right; left; auto).
    assert (R : registered_in d s) by (exists (cls g); auto). split; [eapply reg_pos; eauto|].
    rewrite (CV s R). pose proof D as (_ & _ & A & B). destruct (FA g (geo s)) as (F & _); auto.
    - symmetry. apply B; auto.
    - symmetry. auto.
  Qed.
End Dict.
