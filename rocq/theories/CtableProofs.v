(** Proofs about constraint tables (model Ctable.v, specification CtSpec.v). *)
From Verif Require Import Prelude BoolSpec BoolSeq BoolProofs BoolProofs2 BoolTotal BoolTotal2 CtSpec Ctable.

Ltac invp H := inversion H; subst; clear H.

(** What the value of s2 must be when s1 has value [p], according to [e]. *)
Definition forced (e : ctval) (p : bool) (d : dval) : Prop :=
  match d with
  | DNull => forall q, ~ possible e p q
  | DVal c => forall q, possible e p q <-> q = c
  | DNone => forall q, possible e p q
  end.

Lemma get_dependence_total e : e <> CNone -> exists p, get_dependence e = Ok p.
Proof.
  destruct e as [|d|a b c d]; intros H; try congruence; [|destruct a, b, c, d; cbn; eauto].
  cbn. destruct (d =? 0); eauto. destruct (d =? -1); eauto.
Qed.

Lemma get_dependence_spec e T F :
  small_diag e -> ~ irregular e -> get_dependence e = Ok (T, F) ->
  forced e true T /\ forced e false F.
Proof.
  intros SD NI H. unfold irregular in NI.
  destruct e as [|d|a b c d].
  - discriminate.
  - simpl in SD. destruct SD as [-> | [-> | ->]]; cbn in H; invp H;
      (split; intros q; destruct q; simpl; intuition (try lia; try discriminate; eauto)).
  - destruct a, b, c, d; cbn in H; invp H; try (exfalso; intuition congruence);
      (split; intros q; destruct q; simpl; intuition (try discriminate)).
Qed.

Lemma transpose_spec e e' p q : transpose e = Ok e' -> (possible e' q p <-> possible e p q).
Proof.
  destruct e as [|d|a b c d]; cbn; intros H; invp H.
  - simpl. intuition (subst; auto).
  - destruct p, q; simpl; reflexivity.
Qed.

(* -------------------------------------------------------------- *)
(** * dict operations *)

Lemma get_put {A} k a (l : list (Z * A)) x :
  get x (put k a l) = if k =? x then Some a else get x l.
Proof.
  induction l as [|[y b] l IH]; simpl.
  - destruct (k =? x) eqn:E; auto.
  - destruct (Z.eqb_spec y k) as [-> |Hy]; simpl.
    + destruct (k =? x); auto.
    + rewrite IH. destruct (Z.eqb_spec y x); auto.
      destruct (Z.eqb_spec k x); auto. subst; congruence.
Qed.

Lemma get_In_keys {A} k (l : list (Z * A)) : (exists a, get k l = Some a) <-> In k (map fst l).
Proof.
  induction l as [|[y b] l IH]; simpl.
  - split; [intros (a & H); discriminate|tauto].
  - destruct (Z.eqb_spec y k); [split; eauto|]. rewrite IH. intuition.
Qed.

Lemma put_keys {A} k a (l : list (Z * A)) b :
  get k l = Some b -> map fst (put k a l) = map fst l.
Proof.
  induction l as [|[y c] l IH]; simpl; [discriminate|].
  destruct (Z.eqb_spec y k); simpl; intros H; auto. f_equal; auto.
Qed.

Lemma lookup_ok {A} k (l : list (Z * A)) a : lookup k l = Ok a <-> get k l = Some a.
Proof. unfold lookup. destruct (get k l); split; intros H; invp H; auto. Qed.

Lemma elem_entry t k1 k2 e : elem t k1 k2 = Ok e <-> entry t k1 k2 = Some e.
Proof.
  unfold elem, entry. split; intros H.
  - inv_bind. apply lookup_ok in Ha. rewrite Ha. apply lookup_ok; auto.
  - destruct (get k1 t) eqn:E; [|discriminate]. apply lookup_ok in E. rewrite E. apply lookup_ok; auto.
Qed.

Lemma set_elem_entry t k1 k2 e t' x y :
  set_elem t k1 k2 e = Ok t' ->
  entry t' x y = if (k1 =? x) && (k2 =? y) then Some e else entry t x y.
Proof.
  unfold set_elem. intros H. inv_bind. invp H. apply lookup_ok in Ha. unfold entry.
  rewrite get_put. destruct (Z.eqb_spec k1 x) as [-> |]; simpl; auto.
  rewrite get_put, Ha. destruct (k2 =? y); auto.
Qed.

Lemma set_elem_keys t k1 k2 e t' : set_elem t k1 k2 e = Ok t' -> map fst t' = map fst t.
Proof.
  unfold set_elem. intros H. inv_bind. invp H. apply lookup_ok in Ha. eapply put_keys; eauto.
Qed.

Lemma set_elem_total t k1 k2 e : In k1 (map fst t) -> exists t', set_elem t k1 k2 e = Ok t'.
Proof.
  intros H. apply get_In_keys in H. destruct H as (r & H). apply lookup_ok in H.
  unfold set_elem. rewrite H. cbn. eauto.
Qed.

Lemma set_elem_in_box t k1 k2 e t' v :
  set_elem t k1 k2 e = Ok t' -> in_box t v -> possible e (v k1) (v k2) -> in_box t' v.
Proof.
  intros H B P x y e' E. rewrite (set_elem_entry _ _ _ _ _ x y H) in E.
  destruct (Z.eqb_spec k1 x), (Z.eqb_spec k2 y); subst; simpl in E; try (apply B; auto; fail).
  invp E; auto.
Qed.

Lemma add_element_entry t k1 k2 e x y :
  entry (add_element t k1 k2 e) x y = if (k1 =? x) && (k2 =? y) then Some e else entry t x y.
Proof.
  unfold add_element, entry. destruct (get k1 t) as [r|] eqn:E; rewrite get_put;
    destruct (Z.eqb_spec k1 x) as [-> |]; simpl; auto.
  - rewrite get_put, E. destruct (k2 =? y); auto.
  - rewrite E. destruct (k2 =? y); auto.
Qed.

Lemma add_element_in_box t k1 k2 e v :
  in_box t v -> possible e (v k1) (v k2) -> in_box (add_element t k1 k2 e) v.
Proof.
  intros B P x y e' E. rewrite add_element_entry in E.
  destruct (Z.eqb_spec k1 x), (Z.eqb_spec k2 y); subst; simpl in E; try (apply B; auto; fail).
  invp E; auto.
Qed.

(* -------------------------------------------------------------- *)
(** * fill_missing_elements *)

Lemma combine_diag_spec a b e p q :
  small_diag (CDiag a) -> small_diag (CDiag b) ->
  combine_diag (CDiag a) (CDiag b) = Some e ->
  (possible e p q <-> possible (CDiag a) p p /\ possible (CDiag b) q q).
Proof.
  simpl. intros [-> | [-> | ->]] [-> | [-> | ->]] H; cbn in H; invp H; destruct p, q; simpl;
    intuition (try lia; try discriminate; auto).
Qed.
Lemma combine_diag_total a b :
  small_diag (CDiag a) -> small_diag (CDiag b) -> exists e, combine_diag (CDiag a) (CDiag b) = Some e.
Proof. simpl. intros [-> | [-> | ->]] [-> | [-> | ->]]; cbn; eauto. Qed.

Lemma transpose_quad a b c d : transpose (CQuad a b c d) = Ok (CQuad a d c b).
Proof. reflexivity. Qed.

Lemma set_elem_diag_ok t k1 k2 e t' :
  set_elem t k1 k2 e = Ok t' -> k1 <> k2 -> diag_ok t -> diag_ok t'.
Proof.
  intros H N D k Hk. unfold keys in Hk. rewrite (set_elem_keys _ _ _ _ _ H) in Hk.
  destruct (D k Hk) as (d & E & S). exists d. split; auto.
  rewrite (set_elem_entry _ _ _ _ _ k k H).
  destruct (Z.eqb_spec k1 k), (Z.eqb_spec k2 k); subst; simpl; auto. congruence.
Qed.
Lemma set_elem_off_ok t k1 k2 a b c d t' :
  set_elem t k1 k2 (CQuad a b c d) = Ok t' -> off_ok t -> off_ok t'.
Proof.
  intros H O x y e N E. rewrite (set_elem_entry _ _ _ _ _ x y H) in E.
  destruct ((k1 =? x) && (k2 =? y)); [invp E; eauto 6|eauto].
Qed.

Lemma fill1_spec ps : forall t miss,
  diag_ok t -> off_ok t ->
  Forall (fun p => In (fst p) (keys t) /\ In (snd p) (keys t) /\ fst p <> snd p) ps ->
  exists t' miss', fill1 ps t miss = Ok (t', miss ++ miss') /\
    keys t' = keys t /\ diag_ok t' /\ off_ok t' /\
    (forall v, in_box t v -> in_box t' v) /\
    (forall x y, entry t x y <> None -> entry t' x y <> None) /\
    (forall p, In p miss' -> In p ps) /\
    (forall k1 k2, In (k1, k2) ps -> In (k1, k2) miss' \/ (entry t' k1 k2 <> None /\ entry t' k2 k1 <> None)).
Proof.
  induction ps as [|[k1 k2] ps IH]; intros t miss D O HP.
  - exists t, []. rewrite app_nil_r. cbn. repeat split; auto.
  - apply Forall_cons_iff in HP. destruct HP as [(I1 & I2 & N) HP]. simpl in I1, I2, N.
    cbn [fill1].
    apply get_In_keys in I1. destruct I1 as (r1 & G1).
    assert (L1 : lookup k1 t = Ok r1) by (apply lookup_ok; auto). rewrite L1. cbn [bind].
    destruct (get k2 r1) as [e|] eqn:G2.
    + assert (E : entry t k1 k2 = Some e) by (unfold entry; rewrite G1; auto).
      destruct (O _ _ _ N E) as (a & b & c & d & ->). rewrite transpose_quad. cbn [bind].
      destruct (set_elem_total t k2 k1 (CQuad a d c b) I2) as (t1 & T1). rewrite T1. cbn [bind].
      pose proof (set_elem_keys _ _ _ _ _ T1) as K1.
      destruct (IH t1 miss) as (t' & m' & F & K & D' & O' & B & Pres & Inc & Cov).
      * eapply set_elem_diag_ok; eauto.
      * eapply set_elem_off_ok; eauto.
      * unfold keys. rewrite K1. auto.
      * exists t', m'. rewrite F. split; auto. split; [unfold keys in *; congruence|].
        split; auto. split; auto. split.
        { intros v Bv. apply B. eapply set_elem_in_box; eauto.
          apply (transpose_spec (CQuad a b c d) _ (v k1) (v k2) (transpose_quad a b c d)). apply Bv. auto. }
        assert (Pres1 : forall x y, entry t x y <> None -> entry t1 x y <> None).
        { intros x y Hxy. rewrite (set_elem_entry _ _ _ _ _ x y T1).
          destruct ((k2 =? x) && (k1 =? y)); congruence. }
        split; [intros; apply Pres, Pres1; auto|]. split; [simpl; auto|].
        intros x y [H|H]; [|auto]. invp H. right. split; apply Pres.
        { apply Pres1. congruence. }
        { rewrite (set_elem_entry _ _ _ _ _ y x T1). rewrite !Z.eqb_refl. simpl. congruence. }
    + destruct (IH t (miss ++ [(k1, k2)]) D O HP) as (t' & m' & F & K & D' & O' & B & Pres & Inc & Cov).
      exists t', ((k1, k2) :: m'). rewrite F. split; [rewrite <- app_assoc; reflexivity|].
      repeat (split; auto).
      * intros p [H|H]; [left; auto|right; auto].
      * intros x y [H|H]; [invp H; left; left; auto|].
        destruct (Cov _ _ H); [left; right; auto|auto].
Qed.

Lemma fill2_spec ps : forall t,
  diag_ok t -> off_ok t ->
  Forall (fun p => In (fst p) (keys t) /\ In (snd p) (keys t) /\ fst p <> snd p) ps ->
  exists t', fill2 ps t = Ok t' /\
    keys t' = keys t /\ diag_ok t' /\ off_ok t' /\
    (forall v, in_box t v -> in_box t' v) /\
    (forall x y, entry t x y <> None -> entry t' x y <> None) /\
    (forall k1 k2, In (k1, k2) ps -> entry t' k1 k2 <> None /\ entry t' k2 k1 <> None).
Proof.
  induction ps as [|[k1 k2] ps IH]; intros t D O HP.
  - exists t. cbn. repeat split; auto; intros ? ? [].
  - apply Forall_cons_iff in HP. destruct HP as [(I1 & I2 & N) HP]. simpl in I1, I2, N.
    cbn [fill2].
    destruct (D _ I1) as (d1 & E1 & S1). destruct (D _ I2) as (d2 & E2 & S2).
    pose proof (proj2 (elem_entry _ _ _ _) E1) as X1. rewrite X1. cbn [bind].
    pose proof (proj2 (elem_entry _ _ _ _) E2) as X2. rewrite X2. cbn [bind].
    destruct (combine_diag_total _ _ S1 S2) as (e & C). rewrite C.
    pose proof (fun p q => combine_diag_spec _ _ _ p q S1 S2 C) as CS.
    assert (Q : exists a b c d, e = CQuad a b c d).
    { clear - C. unfold combine_diag in C.
      repeat (match type of C with (if ?x then _ else _) = _ => destruct x end; try (invp C; eauto 6; fail)). }
    destruct Q as (a & b & c & d & ->).
    destruct (set_elem_total t k1 k2 (CQuad a b c d) I1) as (t1 & T1). rewrite T1. cbn [bind].
    pose proof (set_elem_keys _ _ _ _ _ T1) as K1.
    rewrite transpose_quad. cbn [bind].
    destruct (set_elem_total t1 k2 k1 (CQuad a d c b)) as (t2 & T2); [rewrite K1; auto|].
    rewrite T2. cbn [bind]. pose proof (set_elem_keys _ _ _ _ _ T2) as K2.
    destruct (IH t2) as (t' & F & K & D' & O' & B & Pres & Cov).
    + eapply set_elem_diag_ok; eauto. eapply set_elem_diag_ok; eauto.
    + eapply set_elem_off_ok; eauto. eapply set_elem_off_ok; eauto.
    + unfold keys. rewrite K2, K1. auto.
    + exists t'. rewrite F. split; auto. split; [unfold keys in *; congruence|]. split; auto. split; auto.
      split.
      { intros v Bv. apply B.
        assert (P1 : possible (CQuad a b c d) (v k1) (v k2)).
        { apply CS. split; apply Bv; auto. }
        eapply set_elem_in_box; eauto; [eapply set_elem_in_box; eauto|].
        apply (transpose_spec (CQuad a b c d) _ (v k1) (v k2) (transpose_quad a b c d)). auto. }
      assert (Pres1 : forall x y, entry t x y <> None -> entry t2 x y <> None).
      { intros x y Hxy. rewrite (set_elem_entry _ _ _ _ _ x y T2), (set_elem_entry _ _ _ _ _ x y T1).
        destruct ((k2 =? x) && (k1 =? y)), ((k1 =? x) && (k2 =? y)); congruence. }
      split; [intros; apply Pres, Pres1; auto|].
      intros x y [H|H]; [|auto]. invp H. split; apply Pres.
      * rewrite (set_elem_entry _ _ _ _ _ x y T2), (set_elem_entry _ _ _ _ _ x y T1).
        rewrite !Z.eqb_refl. destruct ((y =? x) && (x =? y)); simpl; congruence.
      * rewrite (set_elem_entry _ _ _ _ _ y x T2). rewrite !Z.eqb_refl. simpl; congruence.
Qed.

Lemma pairs_of_cons k r : pairs_of (k :: r) = map (fun k2 => (k, k2)) r ++ pairs_of r.
Proof. reflexivity. Qed.
Lemma pairs_of_spec l : NoDup l -> forall p, In p (pairs_of l) -> In (fst p) l /\ In (snd p) l /\ fst p <> snd p.
Proof.
  induction l as [|k l IH]; intros ND p H; [destruct H|]. inversion ND; subst.
  rewrite pairs_of_cons in H. apply in_app_or in H. destruct H as [H|H].
  - apply in_map_iff in H. destruct H as (k2 & <- & Hk). simpl. repeat split; auto. intros ->; auto.
  - destruct (IH H3 p H) as (A & B & C). simpl; auto.
Qed.
Lemma pairs_of_cover l x y : In x l -> In y l -> x <> y -> In (x, y) (pairs_of l) \/ In (y, x) (pairs_of l).
Proof.
  induction l as [|k l IH]; intros Hx Hy N; [destruct Hx|]. rewrite pairs_of_cons.
  destruct Hx as [-> |Hx], Hy as [-> |Hy]; try congruence.
  - left. apply in_or_app. left. apply in_map_iff; eauto.
  - right. apply in_or_app. left. apply in_map_iff; eauto.
  - destruct (IH Hx Hy N); [left|right]; apply in_or_app; auto.
Qed.

Lemma fill_missing_spec t :
  NoDup (keys t) -> diag_ok t -> off_ok t ->
  exists t', fill_missing t = Ok t' /\ keys t' = keys t /\ diag_ok t' /\ off_ok t' /\
    (forall v, in_box t v -> in_box t' v) /\
    (forall x y, In x (keys t) -> In y (keys t) -> entry t' x y <> None).
Proof.
  intros ND D O. unfold fill_missing.
  assert (HP : Forall (fun p => In (fst p) (keys t) /\ In (snd p) (keys t) /\ fst p <> snd p) (pairs_of (keys t))).
  { apply Forall_forall. intros p Hp. apply (pairs_of_spec _ ND p Hp). }
  destruct (fill1_spec _ t [] D O HP) as (t1 & m & F1 & K1 & D1 & O1 & B1 & P1 & I1 & C1).
  change (map fst t) with (keys t). rewrite F1. cbn [bind app].
  destruct (fill2_spec m t1 D1 O1) as (t2 & F2 & K2 & D2 & O2 & B2 & P2 & C2).
  { apply Forall_forall. intros p Hp. rewrite K1. rewrite Forall_forall in HP. apply HP, I1; auto. }
  exists t2. split; auto. split; [congruence|]. split; auto. split; auto. split; [auto|].
  intros x y Hx Hy. destruct (Z.eq_dec x y) as [-> |N].
  - destruct (D2 y) as (d & E & _); [rewrite K2, K1; auto|]. congruence.
  - destruct (pairs_of_cover _ _ _ Hx Hy N) as [H|H]; destruct (C1 _ _ H) as [H'|(A & B)];
      try (apply C2 in H'; destruct H'; auto; fail); apply P2; auto.
Qed.

(* -------------------------------------------------------------- *)
(** * get_constraint_set *)

Lemma cset_loop_sound t v name : regular t -> in_box t v -> forall ks ts tn fs fn,
  cset_loop t name ks = Ok ((ts, tn), (fs, fn)) ->
  (v name = true -> tn = false /\ forall y b, In (y, b) ts -> v y = b) /\
  (v name = false -> fn = false /\ forall y b, In (y, b) fs -> v y = b).
Proof.
  intros R B ks. induction ks as [|k ks IH]; intros ts tn fs fn H; cbn [cset_loop] in H.
  - invp H. split; intros; split; auto; intros ? ? [].
  - inv_bind. destruct a0 as [T F]. inv_bind. destruct a0 as [[ts0 tn0] [fs0 fn0]].
    destruct (IH _ _ _ _ Ha1) as (HT & HF). apply elem_entry in Ha.
    destruct (R _ _ _ Ha) as (NI & SD).
    destruct (get_dependence_spec _ _ _ SD NI Ha0) as (FT & FF).
    pose proof (B _ _ _ Ha) as P. invp H. split; intros Hv; rewrite Hv in P.
    + destruct (HT Hv) as (-> & HT'). unfold forced in FT. destruct T as [|c|].
      * split; auto.
      * split; auto. intros y b [E|E]; auto. invp E. apply FT; auto.
      * exfalso. eapply FT; eauto.
    + destruct (HF Hv) as (-> & HF'). unfold forced in FF. destruct F as [|c|].
      * split; auto.
      * split; auto. intros y b [E|E]; auto. invp E. apply FF; auto.
      * exfalso. eapply FF; eauto.
Qed.

Lemma get_constraint_set_sound t v name ts fs :
  regular t -> in_box t v -> get_constraint_set t name = Ok (ts, fs) ->
  (v name = true -> exists s, ts = Some s /\ forall y b, In (y, b) s -> v y = b) /\
  (v name = false -> exists s, fs = Some s /\ forall y b, In (y, b) s -> v y = b).
Proof.
  intros R B H. unfold get_constraint_set in H. inv_bind.
  destruct a as [[ts0 tn0] [fs0 fn0]]. invp H.
  destruct (cset_loop_sound _ _ _ R B _ _ _ _ _ Ha) as (HT & HF).
  split; intros Hv; [destruct (HT Hv) as (-> & Q)|destruct (HF Hv) as (-> & Q)]; eauto.
Qed.

Lemma cset_loop_keys t name ks : forall ts tn fs fn,
  cset_loop t name ks = Ok ((ts, tn), (fs, fn)) ->
  forall y b, In (y, b) ts \/ In (y, b) fs -> In y ks.
Proof.
  induction ks as [|k ks IH]; intros ts tn fs fn H; cbn [cset_loop] in H.
  - invp H. intros y b [[]|[]].
  - inv_bind. destruct a0 as [T F]. inv_bind. destruct a0 as [[ts0 tn0] [fs0 fn0]]. invp H.
    pose proof (IH _ _ _ _ Ha1) as Q. intros y b HI. simpl.
    destruct HI as [HI|HI]; [destruct T|destruct F]; cbn in HI;
      try (destruct HI as [HI|HI]; [invp HI; auto|]); right; eapply Q; eauto.
Qed.

Lemma get_constraint_set_total t name : full_tab t -> In name (keys t) ->
  exists p, get_constraint_set t name = Ok p.
Proof.
  intros F Hn. unfold get_constraint_set.
  assert (Q : forall ks, (forall k, In k ks -> In k (keys t)) -> exists ts tn fs fn,
     cset_loop t name ks = Ok ((ts, tn), (fs, fn))).
  { induction ks as [|k ks IH]; intros HK; cbn [cset_loop]; [repeat eexists|].
    destruct (F name k) as (e & E & Ne); auto; [apply HK; simpl; auto|].
    pose proof (proj2 (elem_entry _ _ _ _) E) as X. rewrite X. cbn [bind].
    destruct (get_dependence_total e Ne) as ((T & FF) & ->). cbn [bind].
    destruct IH as (ts & tn & fs & fn & ->); [intros; apply HK; simpl; auto|].
    cbn [bind]. repeat eexists. }
  destruct (Q (map fst t)) as (ts & tn & fs & fn & ->); [auto|]. cbn [bind]. eauto.
Qed.

Lemma get_constraint_set_agrees t v name ts fs :
  regular t -> pos_keys t -> in_box t v -> get_constraint_set t name = Ok (ts, fs) ->
  sets_ok v name ts fs.
Proof.
  intros R PK B H.
  assert (K : forall y b s, (ts = Some s \/ fs = Some s) -> In (y, b) s -> 0 < y).
  { unfold get_constraint_set in H. inv_bind. destruct a as [[ts0 tn0] [fs0 fn0]]. invp H.
    intros y b s E I. apply PK. eapply cset_loop_keys; eauto.
    destruct tn0, fn0; destruct E as [E|E]; invp E; eauto. }
  destruct (get_constraint_set_sound _ _ _ _ _ R B H) as (HT & HF).
  split; intros Hv; [destruct (HT Hv) as (s & -> & Q)|destruct (HF Hv) as (s & -> & Q)];
    apply Forall_forall; intros [y b] I; simpl; rewrite Z.abs_eq; auto;
    apply Z.lt_le_incl; eapply K; eauto.
Qed.

(* -------------------------------------------------------------- *)
(** * solid_in_box *)

Lemma bool_vals_sound d b : small_diag (CDiag d) -> bool_vals d = Ok (Some b) ->
  forall p, possible (CDiag d) p p -> p = b.
Proof. simpl. intros [-> | [-> | ->]] H p P; cbn in H; invp H; simpl in P; intuition (try lia; congruence). Qed.

Lemma as_bool_val v r b : as_bool r = Some b -> bres_val v r = b.
Proof. destruct r; simpl; intros H; invp H; auto. Qed.

Lemma mapM_in {A B} (f : A -> res B) l l' y : mapM f l = Ok l' -> In y l' -> exists x, In x l /\ f x = Ok y.
Proof.
  revert l'. induction l as [|x l IH]; intros l' H I; cbn in H.
  - invp H. destruct I.
  - inv_bind. invp H. destruct I as [<-|I]; [exists x; simpl; auto|].
    destruct (IH _ Ha0 I) as (x' & Hx & E). exists x'; simpl; auto.
Qed.

Lemma sib_diag_sound ord t v n r g :
  regular t -> in_box t v -> wf n ->
  (forall m x, wf m -> In x (ord m) -> 0 < x) ->
  solid_in_box ord true t n = Ok (r, g) ->
  (eval v g = eval v n /\ wf g) /\ (forall b, r = Some b -> eval v n = b).
Proof.
  intros R B W OP H. cbn [solid_in_box] in H. inv_bind. destruct a0 as [rr gg]. invp H.
  split; [apply (evaluate_receiver v _ _ _ _ Ha0 W)|]. intros b E.
  destruct (evaluate_sound v _ _ _ _ Ha0 W) as (E1 & _).
  - apply Forall_forall. intros [s b'] Hs. simpl.
    apply in_flat_map in Hs. destruct Hs as ([s' o] & Hs & Ho). simpl in Ho.
    destruct o as [b0|]; [|destruct Ho]. destruct Ho as [Ho|[]]. invp Ho.
    destruct (mapM_in _ _ _ _ Ha Hs) as (x & Hx & Ex).
    inv_bind. apply elem_entry in Ha1. destruct a0 as [|d|]; try discriminate. inv_bind. invp Ex.
    pose proof (OP _ _ W Hx). rewrite Z.abs_eq by lia.
    destruct (R _ _ _ Ha1) as (_ & SD). eapply bool_vals_sound; eauto.
  - apply (as_bool_val v) in E. congruence.
Qed.

Lemma agrees_of_sets v t1 : (forall y b, In (y, b) t1 -> v y = b) -> (forall y b, In (y, b) t1 -> 0 < y) ->
  agrees_all v t1.
Proof.
  intros A P. apply Forall_forall. intros [y b] I. simpl. rewrite Z.abs_eq; eauto.
  apply Z.lt_le_incl; eauto.
Qed.

Lemma sib_full_sound ord t v n r g :
  regular t -> pos_keys t -> in_box t v -> wf n ->
  solid_in_box ord false t n = Ok (r, g) ->
  (eval v g = eval v n /\ wf g) /\ (forall b, r = Some b -> eval v n = b).
Proof.
  intros R PK B W H. cbn [solid_in_box] in H. destruct (ord n) as [|s ss]; [discriminate|].
  inv_bind. destruct a as [ts fs].
  destruct (get_constraint_set_agrees _ _ _ _ _ R PK B Ha) as (HT & HF).
  destruct ts as [t1|].
  - inv_bind. destruct a as [rr gg].
    destruct (evaluate_receiver v _ _ _ _ Ha0 W) as (G1 & GW).
    assert (ET : forall b, as_bool rr = Some b -> v s = true -> eval v n = b).
    { intros b E Hv. destruct (evaluate_sound v _ _ _ _ Ha0 W (HT Hv)) as (E1 & _).
      apply (as_bool_val v) in E. congruence. }
    destruct (as_bool rr) as [tv|] eqn:EA; [|invp H; split; auto; discriminate].
    destruct fs as [f1|].
    + inv_bind. destruct a as [r2 g2].
      destruct (evaluate_receiver v _ _ _ _ Ha1 GW) as (G2 & GW2).
      assert (EF : forall b, as_bool r2 = Some b -> v s = false -> eval v n = b).
      { intros b E Hv. destruct (evaluate_sound v _ _ _ _ Ha1 GW (HF Hv)) as (E1 & _).
        apply (as_bool_val v) in E. congruence. }
      destruct (as_bool r2) as [fv|] eqn:EB.
      * destruct (eqb tv fv) eqn:EQ; invp H; (split; [split; [congruence|auto]|]); [|discriminate].
        intros b E. invp E. apply eqb_prop in EQ. subst fv.
        destruct (v s) eqn:Hv; auto.
      * invp H. split; [split; [congruence|auto]|discriminate].
    + invp H. split; auto. intros b E. invp E. destruct (v s) eqn:Hv; auto.
  - destruct fs as [f1|].
    + inv_bind. destruct a as [rr gg]. invp H.
      split; [apply (evaluate_receiver v _ _ _ _ Ha0 W)|].
      intros b E. destruct (v s) eqn:Hv; [exfalso; apply HT; auto|].
      destruct (evaluate_sound v _ _ _ _ Ha0 W (HF eq_refl)) as (E1 & _).
      apply (as_bool_val v) in E. congruence.
    + invp H. split; auto. intros b E. destruct (v s) eqn:Hv; exfalso; [apply HT|apply HF]; auto.
Qed.

Lemma sib_sound ord diag t v n r g :
  regular t -> pos_keys t -> in_box t v -> wf n ->
  (forall m x, wf m -> In x (ord m) -> 0 < x) ->
  solid_in_box ord diag t n = Ok (r, g) ->
  (eval v g = eval v n /\ wf g) /\ (forall b, r = Some b -> eval v n = b).
Proof. destruct diag; intros; [eapply sib_diag_sound|eapply sib_full_sound]; eauto. Qed.

(* -------------------------------------------------------------- *)
(** * remove_extra_surfaces *)

Lemma subst_all_sound t v : in_box t v -> forall ss n r,
  (forall s, In s ss -> 0 < s) ->
  (forall s, In s ss -> forall d, entry t s s = Some (CDiag d) -> d <> 0) ->
  subst_all t ss n = Ok r -> wf n -> eval v r = eval v n /\ wf r.
Proof.
  intros B. induction ss as [|s ss IH]; intros n r P N H W; cbn in H; [invp H; auto|].
  inv_bind. apply elem_entry in Ha. destruct a as [|d|]; try discriminate. inv_bind.
  pose proof (B _ _ _ Ha) as (_ & Q). pose proof (N s (or_introl eq_refl) d Ha) as Nd.
  assert (E : v (Z.abs s) = (0 <? d)).
  { rewrite Z.abs_eq by (specialize (P s (or_introl eq_refl)); lia).
    destruct Q as [Q|[(Q & ->) | (Q & ->)]]; lia. }
  destruct (subst_sound v _ _ _ _ Ha0 W E) as (E1 & W1).
  destruct (IH a r) as (E2 & W2); auto; try (intros; eapply N; simpl; eauto; fail); try (intros; eapply P; simpl; auto; fail).
  split; congruence || auto.
Qed.

Lemma get_out_spec t out s : get_out_surfaces t = Ok out -> In s out ->
  forall d, entry t s s = Some (CDiag d) -> d <> 0.
Proof.
  unfold get_out_surfaces. intros H I d E. inv_bind. invp H.
  apply in_map_iff in I. destruct I as ([k e] & Hk & I). simpl in Hk. subst k.
  apply filter_In in I. destruct I as (I & NZ). simpl in NZ.
  destruct (mapM_in _ _ _ _ Ha I) as (x & Hx & Ex). inv_bind. invp Ex.
  apply elem_entry in Ha0. rewrite Ha0 in E. invp E. simpl in NZ. lia.
Qed.

Lemma sib_is_seq ord diag t n r g : is_seq n -> solid_in_box ord diag t n = Ok (r, g) -> is_seq g.
Proof.
  intros S H. destruct diag; cbn [solid_in_box] in H.
  - inv_bind. destruct a0 as [rr gg]. invp H. apply (evaluate_bres_seq _ _ _ _ Ha0).
  - destruct (ord n); [discriminate|]. inv_bind. destruct a as [[t1|] [f1|]].
    + inv_bind. destruct a as [rr gg]. pose proof (evaluate_bres_seq _ _ _ _ Ha0) as (_ & Sg).
      destruct (as_bool rr); [|invp H; auto]. inv_bind. destruct a as [r2 g2].
      pose proof (evaluate_bres_seq _ _ _ _ Ha1) as (_ & Sg2).
      destruct (as_bool r2); [destruct (eqb _ _)|]; invp H; auto.
    + inv_bind. destruct a as [rr gg]. pose proof (evaluate_bres_seq _ _ _ _ Ha0) as (_ & Sg).
      destruct (as_bool rr); invp H; auto.
    + inv_bind. destruct a as [rr gg]. pose proof (evaluate_bres_seq _ _ _ _ Ha0) as (_ & Sg).
      invp H; auto.
    + invp H; auto.
Qed.
Lemma subst_is_seq x b n r : is_seq n -> subst x (VB b) n = Ok r -> is_seq r.
Proof. intros S H. destruct (subst_total x (VB b) n S) as (r' & E & S'). congruence. Qed.
Lemma subst_all_is_seq t ss : forall n r, is_seq n -> subst_all t ss n = Ok r -> is_seq r.
Proof.
  induction ss as [|s ss IH]; intros n r S H; cbn in H; [invp H; auto|].
  inv_bind. destruct a as [|d|]; try discriminate. inv_bind. eapply IH; [|eauto]. eapply subst_is_seq; eauto.
Qed.
Lemma check_is_seq n r : check n = Ok r -> is_seq r.
Proof.
  unfold check. intros H. destruct n as [z|op lev b|op lev l]; cbn [check_f] in H.
  - discriminate.
  - invp H; exact I.
  - destruct (lev =? 0).
    + invp H. unfold check0. destruct (Nat.eqb _ _); exact I.
    + inv_bind. pose proof (group_single_is_seq _ _ Ha I) as Sa.
      destruct a as [z|o lv b|o lv xs]; [destruct Sa|invp H; exact I|].
      inv_bind. invp H. unfold clean_end. destruct a as [b|[|x ys]]; exact I.
Qed.

Lemma remove_loop_sound ord diag t out v :
  regular t -> pos_keys t -> in_box t v -> get_out_surfaces t = Ok out ->
  (forall m x, wf m -> In x (ord m) -> 0 < x) ->
  forall l lev xs r, Forall wf l -> wf (Seq OR lev xs) ->
  remove_loop true ord diag t out l (Seq OR lev xs) = Ok r ->
  (match r with None => true | Some d => eval v d end) = existsb (eval v) xs || existsb (eval v) l /\
  (match r with None => True | Some d => wf d /\ exists lev' xs', d = Seq OR lev' xs' end).
Proof.
  intros R PK B GO OP. induction l as [|sub l IH]; intros lev xs r Wl Wn H; cbn [remove_loop] in H.
  - invp H. simpl. rewrite orb_false_r. split; auto. split; auto. eauto.
  - apply Forall_cons_iff in Wl. destruct Wl as [Ws Wl].
    inv_bind. rename a into sub1. destruct (check_sound v _ _ Ha Ws) as (E1 & W1).
    pose proof (check_is_seq _ _ Ha) as S1.
    destruct sub1 as [z|op1 lev1 b1|op1 lev1 l1]; [destruct S1|discriminate|].
    inv_bind. destruct a as [res sub2].
    destruct (sib_sound _ _ _ _ _ _ _ R PK B W1 OP Ha0) as ((E2 & W2) & HR).
    pose proof (sib_is_seq _ _ _ _ _ _ S1 Ha0) as S2.
    simpl existsb. destruct res as [[]|].
    + invp H. split; auto. rewrite <- E1, (HR true eq_refl). simpl. rewrite orb_true_r. auto.
    + rewrite <- E1, (HR false eq_refl). simpl. apply (IH lev); auto.
    + inv_bind. rename a into sub3.
      assert (E3 : eval v sub3 = eval v sub2 /\ wf sub3 /\ is_seq sub3).
      { destruct (level_of sub2 =? 0); [|invp Ha1; auto].
        assert (eval v sub3 = eval v sub2 /\ wf sub3) as (X & Y).
        { apply (fun p q => subst_all_sound t v B _ _ _ p q Ha1 W2).
          - intros s Hs. apply filter_In in Hs. eapply OP; [|apply Hs]. auto.
          - intros s Hs d Ed. apply filter_In in Hs. destruct Hs as (_ & Hs).
            apply existsb_In in Hs. eapply get_out_spec; eauto. }
        split; [auto|split; [auto|]]. eapply subst_all_is_seq; eauto. }
      destruct E3 as (E3 & W3 & S3).
      assert (EV : eval v sub = eval v sub3) by congruence.
      destruct sub3 as [z|op3 lev3 b3|op3 lev3 l3]; [destruct S3| |].
      * rewrite EV. destruct b3; simpl in *.
        -- invp H. rewrite orb_true_r. auto.
        -- apply (IH lev); auto.
      * cbn [append bind append_loop] in H.
        destruct (IH _ _ _ Wl (append_wf _ [AN (Seq op3 lev3 l3)] _ Wn (Forall_cons (P := wf_arg) (AN _) W3 (Forall_nil _)) eq_refl) H) as (EE & WW).
        split; auto. rewrite EE, existsb_app. cbn [existsb]. rewrite EV, orb_false_r, orb_assoc. auto.
Qed.

Lemma remove_extra_sound ord diag t op lev l r v :
  regular t -> pos_keys t -> in_box t v -> wf (Seq op lev l) ->
  (forall m x, wf m -> In x (ord m) -> 0 < x) ->
  remove_extra true ord diag t (Seq op lev l) = Ok r -> eval v r = eval v (Seq op lev l) /\ wf r /\ is_seq r.
Proof.
  intros R PK B W OP H. unfold remove_extra in H. inv_bind. rename a into out.
  assert (FIN : forall (o : option node) l, (match o with None => true | Some d => eval v d end) = existsb (eval v) l ->
     (match o with None => True | Some d => wf d /\ exists lev' xs', d = Seq OR lev' xs' end) ->
     match o with None => Ok (Cst OR (-1) true) | Some d => Ok (clean d) end = Ok r ->
     eval v r = existsb (eval v) l /\ wf r /\ is_seq r).
  { intros [d|] l0 E1 E2 E3; invp E3.
    - destruct E2 as (Wd & lv & xs & ->). split; [rewrite clean_eval; auto|].
      split; [apply clean_wf; auto|]. cbn. unfold clean_end. destruct (clean_list _ _ _) as [b|[|]]; exact I.
    - split; [auto|split; [cbn; lia|exact I]]. }
  assert (W0 : wf (Seq OR 0 [])) by (cbn; auto with zarith).
  destruct ((lev =? 0) && Nat.eqb (length l) 1); [invp H; split; [auto|split; [auto|exact I]]|].
  destruct op.
  - rewrite copy_id in H. cbn [append append_loop bind app] in H. inv_bind.
    destruct (remove_loop_sound _ _ _ _ _ R PK B Ha OP _ _ _ _ (Forall_cons _ W (Forall_nil _)) W0 Ha0) as (E1 & E2).
    destruct (FIN _ _ E1 E2 H) as (E3 & E4). split; auto. rewrite E3. simpl. rewrite orb_false_r. auto.
  - cbn [bind] in H. inv_bind.
    destruct (remove_loop_sound _ _ _ _ _ R PK B Ha OP _ _ _ _ (proj2 (proj2 (proj1 (wf_seq _ _ _) W))) W0 Ha0) as (E1 & E2).
    apply (FIN _ _ E1 E2 H).
Qed.

(* -------------------------------------------------------------- *)
(** * Strict runs are real runs *)

Lemma remove_loop_strict ord diag t out : forall l nd r,
  remove_loop true ord diag t out l nd = Ok r -> remove_loop false ord diag t out l nd = Ok r.
Proof.
  induction l as [|s l IH]; intros nd r H; cbn [remove_loop] in *; auto.
  destruct (check s) as [s1|e|]; cbn [bind] in *; try discriminate.
  assert (G : (do (res, sub2) <- solid_in_box ord diag t s1;
            match res with
            | Some true => Ok None
            | Some false => remove_loop true ord diag t out l nd
            | None =>
                do sub3 <- (if level_of sub2 =? 0
                            then subst_all t (filter (fun s => existsb (Z.eqb s) out) (ord sub2)) sub2
                            else Ok sub2);
                match sub3 with
                | Cst _ _ false => remove_loop true ord diag t out l nd
                | Cst _ _ true => Ok None
                | _ => do nd <- append nd [AN sub3]; remove_loop true ord diag t out l nd
                end
            end) = Ok r ->
       (do (res, sub2) <- solid_in_box ord diag t s1;
            match res with
            | Some true => Ok None
            | Some false => remove_loop false ord diag t out l nd
            | None =>
                do sub3 <- (if level_of sub2 =? 0
                            then subst_all t (filter (fun s => existsb (Z.eqb s) out) (ord sub2)) sub2
                            else Ok sub2);
                match sub3 with
                | Cst _ _ false => remove_loop false ord diag t out l nd
                | Cst _ _ true => Ok None
                | _ => do nd <- append nd [AN sub3]; remove_loop false ord diag t out l nd
                end
            end) = Ok r).
  { clear H. intros H. destruct (solid_in_box ord diag t s1) as [[res s2]|e|]; cbn [bind] in *; try discriminate.
    destruct res as [[]|]; auto.
    destruct (if level_of s2 =? 0 then _ else _) as [s3|e|]; cbn [bind] in *; try discriminate.
    destruct s3 as [z|o lv []|o lv xs]; auto.
    - destruct (append nd [AN (Lit z)]); cbn [bind] in *; try discriminate; auto.
    - destruct (append nd [AN (Seq o lv xs)]); cbn [bind] in *; try discriminate; auto. }
  destruct s1 as [z|o lv b|o lv xs]; [apply G; exact H|discriminate|apply G; exact H].
Qed.

Lemma remove_extra_strict ord diag t n r :
  remove_extra true ord diag t n = Ok r -> remove_extra false ord diag t n = Ok r.
Proof.
  unfold remove_extra. destruct (get_out_surfaces t) as [out|e|]; cbn [bind]; try discriminate.
  assert (G : forall (w : res node),
    (do w <- w; match w with
        | Seq _ _ l => do r <- remove_loop true ord diag t out l (Seq OR 0 []);
                          match r with None => Ok (Cst OR (-1) true) | Some d => Ok (clean d) end
        | _ => Err TypeError
        end) = Ok r ->
    (do w <- w; match w with
        | Seq _ _ l => do r <- remove_loop false ord diag t out l (Seq OR 0 []);
                          match r with None => Ok (Cst OR (-1) true) | Some d => Ok (clean d) end
        | _ => Err TypeError
        end) = Ok r).
  { intros [w|e|] H; cbn [bind] in *; try discriminate. destruct w; try discriminate. inv_bind.
    apply remove_loop_strict in Ha. rewrite Ha. cbn [bind]. exact H. }
  destruct n as [z|[] lv b|op lv l]; auto.
  - destruct (lv =? 0); auto.
  - destruct ((lv =? 0) && Nat.eqb (length l) 1); auto.
Qed.
