(** Proofs about configuration objects. *)
From Coq Require Import String QArith.
From Verif Require Import Prelude Config ConfigSpec.
Open Scope Z_scope.

(** ** lists and dictionaries *)
Lemma upd_len {A} i (x : A) l : List.length (upd i x l) = List.length l.
Proof. revert i. induction l as [|y l IH]; intros [|i]; cbn; auto. Qed.
Lemma upd_same {A} i (x : A) l : (i < List.length l)%nat -> nth_error (upd i x l) i = Some x.
Proof. revert i. induction l as [|y l IH]; intros [|i] H; cbn in *; try lia; auto. apply IH. lia. Qed.
Lemma upd_other {A} i j (x : A) l : i <> j -> nth_error (upd i x l) j = nth_error l j.
Proof. revert i j. induction l as [|y l IH]; intros [|i] [|j] H; cbn; auto; try congruence. Qed.
Lemma upd_app {A} (l : list A) x y : upd (List.length l) y (l ++ [x]) = l ++ [y].
Proof. induction l as [|z l IH]; cbn; auto. f_equal. auto. Qed.
Lemma nth_lt {A} (l : list A) i x : nth_error l i = Some x -> (i < List.length l)%nat.
Proof. intros H. apply nth_error_Some. congruence. Qed.
Lemma upd_upd {A} i (x y : A) l : upd i y (upd i x l) = upd i y l.
Proof. revert i. induction l as [|z l IH]; intros [|i]; cbn; auto. f_equal. auto. Qed.

Lemma lookup_put_same n v d : lookup n (put n v d) = Some v.
Proof. induction d as [|[k w] d IH]; cbn; rewrite ?String.eqb_refl; auto. destruct (String.eqb k n) eqn:E; cbn; rewrite E; auto. Qed.
Lemma lookup_put_other m n v d : m <> n -> lookup m (put n v d) = lookup m d.
Proof.
  intros H. induction d as [|[k w] d IH]; cbn.
  - destruct (String.eqb n m) eqn:E; auto. apply String.eqb_eq in E. congruence.
  - destruct (String.eqb k n) eqn:E; cbn; [|rewrite IH; auto].
    apply String.eqb_eq in E. subst k. destruct (String.eqb n m) eqn:E; auto. apply String.eqb_eq in E. congruence.
Qed.
Lemma lookup_in n d v : lookup n d = Some v -> In (n, v) d.
Proof. induction d as [|[k w] d IH]; cbn; [discriminate|]. destruct (String.eqb k n) eqn:E; auto. apply String.eqb_eq in E. intros [= ->]. subst. auto. Qed.
Lemma lookup_some n d v : In (n, v) d -> exists w, lookup n d = Some w.
Proof.
  induction d as [|[k w] d IH]; cbn; [contradiction|]. intros [[= -> ->]|H].
  - rewrite String.eqb_refl. eauto.
  - destruct (String.eqb k n); eauto.
Qed.
Lemma lookup_nodup n d v : NoDup (map fst d) -> In (n, v) d -> lookup n d = Some v.
Proof.
  induction d as [|[k w] d IH]; cbn; [contradiction|]. intros N [[= -> ->]|H]; [rewrite String.eqb_refl; auto|].
  inversion N; subst. destruct (String.eqb k n) eqn:E; auto. apply String.eqb_eq in E. subst. destruct H2. apply in_map with (f := fst) in H. exact H.
Qed.
Lemma priv_inj a b : priv a = priv b -> a = b.
Proof. unfold priv. cbn. congruence. Qed.
Lemma public_priv n : public (priv n) -> False.
Proof. intros H. apply (H n). reflexivity. Qed.

(** ** types *)
Definition same_lists (h h' : list obj) := forall a l, nth_error h a = Some (OList l) <-> nth_error h' a = Some (OList l).
Lemma same_lists_type h h' t v : same_lists h h' -> has_type h t v -> has_type h' t v.
Proof. intros S H. destruct H; try (constructor; auto; fail); [apply tNoMat|eapply tMat|eapply tStrs]; try apply S; eauto. Qed.
Lemma same_lists_sym h h' : same_lists h h' -> same_lists h' h.
Proof. intros S a l. symmetry. apply S. Qed.
Lemma same_lists_trans h1 h2 h3 : same_lists h1 h2 -> same_lists h2 h3 -> same_lists h1 h3.
Proof. intros S T a l. rewrite (S a l). apply T. Qed.
Lemma same_lists_refl h : same_lists h h.
Proof. intros a l. tauto. Qed.
Definition not_list o := forall l, o <> OList l.
Lemma same_lists_upd h a o o' : nth_error h a = Some o -> not_list o -> not_list o' -> same_lists h (upd a o' h).
Proof.
  intros H N N' b l. destruct (Nat.eq_dec a b) as [<- |D].
  - rewrite upd_same by (eapply nth_lt; eauto). rewrite H. split; intros [= E]; [destruct (N _ E)|destruct (N' _ E)].
  - rewrite upd_other by auto. tauto.
Qed.
Lemma same_lists_app h o : not_list o -> same_lists h (h ++ [o]).
Proof.
  intros N b l. split; intros H.
  - rewrite nth_error_app1; auto. eapply nth_lt; eauto.
  - destruct (Nat.lt_ge_cases b (List.length h)) as [L|L]; [rewrite nth_error_app1 in H; auto|].
    rewrite nth_error_app2 in H by lia. destruct (b - List.length h)%nat as [|k]; cbn in H; [destruct (N l); congruence|destruct k; discriminate].
Qed.

(** a boolean test of the documented types *)
Definition by_doc (t : doc) (n : string) : string * setter :=
  match t with
  | DBool => typed n TyBool | DInt => typed n TyInt | DFloat => typed n TyFloat | DNonNeg => non_negative n
  | DStr => typed n TyStr | DOptStr => export_solids | DVoidMat => void_mat | DStrs => void_exclude
  end.
Lemma documented_setter c n t : In (n, t) (documented c) -> find_setter n (setters c) = Some (snd (by_doc t n)) /\ fst (by_doc t n) = n.
Proof. destruct c; cbn [documented In]; intros H; repeat destruct H as [[= <- <-]|H]; try contradiction; split; reflexivity. Qed.

Lemma is_a_eq v t st : is_a v t st = (st, Ok (isinstance (heap st) v t)).
Proof. reflexivity. Qed.
Lemma store_conf a n v st c d : nth_error (heap st) a = Some (OConf c d) ->
  store a n v st = (ST (upd a (OConf c (put n v d)) (heap st)) (events st), Ok tt).
Proof. intros H. unfold store. rewrite H. reflexivity. Qed.
Lemma store_cad a n v st d : nth_error (heap st) a = Some (OCad d) ->
  store a n v st = (ST (upd a (OCad (put n v d)) (heap st)) (events st), Ok tt).
Proof. intros H. unfold store. rewrite H. reflexivity. Qed.
Lemma all_are_spec l t st : all_are l t st = (st, if forallb (fun v => isinstance (heap st) v t) l then Ok tt else Err TypeError).
Proof.
  induction l as [|e l IH]; cbn [all_are forallb]; [reflexivity|]. unfold seq_. rewrite is_a_eq.
  destruct (isinstance (heap st) e t); cbn [negb andb]; [exact IH|reflexivity].
Qed.
Lemma is_int h v : isinstance h v TyInt = true <-> int_like v.
Proof. destruct v; cbn; split; intros H; try discriminate; try constructor; inversion H. Qed.
Lemma is_float h v : isinstance h v TyFloat = true <-> exists x, v = VFloat x.
Proof. destruct v; cbn; split; intros H; try discriminate; eauto; destruct H; discriminate. Qed.
Lemma is_str h v : isinstance h v TyStr = true <-> exists x, v = VStr x.
Proof. destruct v; cbn; split; intros H; try discriminate; eauto; destruct H; discriminate. Qed.
Lemma strs_map h l : forallb (fun v => isinstance h v TyStr) l = true <-> exists ss, l = map VStr ss.
Proof.
  induction l as [|v l IH]; cbn [forallb]; [split; auto; exists []; reflexivity|]. rewrite andb_true_iff, IH, is_str. split.
  - intros [[s ->] [ss ->]]. exists (s :: ss). reflexivity.
  - intros [[|s ss] H]; [discriminate|]. injection H as -> ->. split; eauto.
Qed.
Lemma neg_q x : negb (Qle_bool 0 x) = true <-> (x < 0)%Q.
Proof.
  rewrite negb_true_iff. split; intros H.
  - apply Qnot_le_lt. intros L. apply Qle_bool_iff in L. congruence.
  - destruct (Qle_bool 0 x) eqn:E; auto. apply Qle_bool_iff in E. apply Qlt_not_le in H. contradiction.
Qed.
Lemma nonneg_spec h v : (isinstance h v TyReal = true /\ lt0 v = false) <-> has_type h DNonNeg v.
Proof.
  split.
  - intros [I L]. destruct v; cbn in *; try discriminate; try constructor; try lia.
    destruct x as [|m|x]; cbn in *; [auto|congruence|]. rewrite <- neg_q. congruence.
  - intros H. inversion H; subst; cbn; auto; split; auto; try lia.
    destruct x as [|m|x]; cbn in *; auto. { destruct m; auto. destruct H0; auto. } rewrite <- neg_q in H0. destruct (Qle_bool 0 x); auto. destruct H0; auto.
Qed.

(** the outcome of an assignment *)
Theorem setattr_doc st a c d n t v : nth_error (heap st) a = Some (OConf c d) -> In (n, t) (documented c) ->
  (has_type (heap st) t v /\ setattr a n v st = (ST (upd a (OConf c (put (priv n) v d)) (heap st)) (events st), Ok tt)) \/
  (~ has_type (heap st) t v /\ exists e, setattr a n v st = (st, Err e) /\ (e = TypeError \/ e = ValueError /\ t = DNonNeg)).
Proof.
  intros H D. destruct (documented_setter c n t D) as [F E]. unfold setattr. rewrite H, F.
  assert (T : forall ty, (snd (typed n ty)) a v st = if isinstance (heap st) v ty then (ST (upd a (OConf c (put (priv n) v d)) (heap st)) (events st), Ok tt) else (st, Err TypeError)).
  { intros ty. cbn [typed snd]. unfold seq_. rewrite is_a_eq. destruct (isinstance (heap st) v ty); cbn [negb]; [apply store_conf; auto|reflexivity]. }
  destruct t; cbn [by_doc] in *; try rewrite T.
  - destruct (isinstance (heap st) v TyBool) eqn:I; [left|right].
    + split; auto. destruct v; try discriminate. constructor.
    + split; [|eauto]. intros K. inversion K; subst; discriminate.
  - destruct (isinstance (heap st) v TyInt) eqn:I; [left|right].
    + split; auto. constructor. eapply is_int; eauto.
    + split; [|eauto]. intros K. inversion K; subst. rewrite <- (is_int (heap st)) in H0. congruence.
  - destruct (isinstance (heap st) v TyFloat) eqn:I; [left|right].
    + split; auto. destruct v; try discriminate. constructor.
    + split; [|eauto]. intros K. inversion K; subst; discriminate.
  - cbn [non_negative snd]. unfold seq_. rewrite is_a_eq. pose proof (nonneg_spec (heap st) v) as S.
    destruct (isinstance (heap st) v TyReal) eqn:I; cbn [negb]; [destruct (lt0 v) eqn:L|].
    + right. split; [intros K; apply S in K; destruct K; congruence|]. exists ValueError. auto.
    + left. split; [apply S; auto|]. apply store_conf; auto.
    + right. split; [intros K; apply S in K; destruct K; congruence|]. exists TypeError. auto.
  - destruct (isinstance (heap st) v TyStr) eqn:I; [left|right].
    + split; auto. destruct v; try discriminate. constructor.
    + split; [|eauto]. intros K. inversion K; subst; discriminate.
  - cbn [fst export_solids] in E. subst n. cbn [export_solids snd]. unfold seq_. rewrite !is_a_eq.
    destruct (isinstance (heap st) v TyNone) eqn:N.
    { left. destruct v; try discriminate. split; [constructor|]. apply store_conf; auto. }
    rewrite is_a_eq. destruct (isinstance (heap st) v TyStr) eqn:I; cbn [negb]; [left|right].
    + split; [destruct v; try discriminate; constructor|]. apply store_conf; auto.
    + split; [|exists TypeError; auto]. intros K. inversion K; subst; discriminate.
  - cbn [fst void_mat] in E. subst n. cbn [void_mat snd]. unfold seq_. rewrite is_a_eq.
    destruct (isinstance (heap st) v TyList) eqn:I; cbn [negb].
    2:{ right. split; [|exists TypeError; auto]. intros K. inversion K; subst; cbn in I; rewrite H0 in I; discriminate. }
    destruct v as [| | | | | |b|]; try discriminate. cbn in I. destruct (nth_error (heap st) b) as [[l| |]|] eqn:B; try discriminate.
    cbn [elements]. rewrite B.
    destruct l as [|e0 [|e1 [|e2 [|e3 l]]]].
    + left. split; [apply tNoMat; auto|]. apply store_conf; auto.
    + right. split; [|exists TypeError; auto]. intros K. inversion K; subst; congruence.
    + right. split; [|exists TypeError; auto]. intros K. inversion K; subst; congruence.
    + rewrite !is_a_eq.
      destruct (isinstance (heap st) e0 TyInt) eqn:I0; cbn [negb];
        [|right; split; [|exists TypeError; auto]; intros K; inversion K; subst; [congruence|]; rewrite B in H1; injection H1 as ? ? ?; subst; apply (is_int (heap st)) in H2; congruence].
      rewrite !is_a_eq.
      destruct (negb (isinstance (heap st) e1 TyInt) && negb (isinstance (heap st) e1 TyFloat)) eqn:I1.
      { right. split; [|exists TypeError; auto]. intros K. inversion K; subst; [congruence|]. rewrite B in H1. injection H1 as ? ? ?; subst.
        apply andb_true_iff in I1. destruct I1 as [A1 A2]. apply negb_true_iff in A1, A2. destruct H3 as [H3|H3]; [apply (is_int (heap st)) in H3|apply (is_float (heap st)) in H3]; congruence. }
      rewrite is_a_eq. destruct (isinstance (heap st) e2 TyStr) eqn:I2; cbn [negb].
      * left. apply is_str in I2. destruct I2 as [s ->]. split; [|apply store_conf; auto].
        apply tMat with (m := e0) (d := e1) (s := s); auto. { eapply is_int; eauto. }
        apply andb_false_iff in I1. destruct I1 as [A|A]; apply negb_false_iff in A; [left; eapply is_int; eauto|right; eapply is_float; eauto].
      * right. split; [|exists TypeError; auto]. intros K. inversion K; subst; [congruence|]. rewrite B in H1. injection H1 as ? ? ?; subst. discriminate.
    + right. split; [|exists TypeError; auto]. intros K. inversion K; subst; congruence.
  - cbn [fst void_exclude] in E. subst n. cbn [void_exclude snd]. unfold seq_. rewrite is_a_eq.
    destruct (isinstance (heap st) v TyList) eqn:I; cbn [negb].
    2:{ right. split; [|exists TypeError; auto]. intros K. inversion K; subst; cbn in I; rewrite H0 in I; discriminate. }
    destruct v as [| | | | | |b|]; try discriminate. cbn in I. destruct (nth_error (heap st) b) as [[l| |]|] eqn:B; try discriminate.
    cbn [elements]. rewrite B. rewrite all_are_spec. destruct (forallb _ l) eqn:A.
    + left. split; [|apply store_conf; auto]. apply strs_map in A. destruct A as [ss ->]. eapply tStrs; eauto.
    + right. split; [|exists TypeError; auto]. intros K. inversion K; subst. rewrite B in H1. injection H1 as ->.
      assert (forallb (fun v => isinstance (heap st) v TyStr) (map VStr l0) = true) by (apply strs_map; eauto). congruence.
Qed.

(** ** any assignment *)
Lemma setter_documented c n s : find_setter n (setters c) = Some s -> exists t, In (n, t) (documented c).
Proof.
  destruct c; cbn [setters find_setter typed non_negative export_solids void_mat void_exclude];
  repeat (match goal with |- context [String.eqb ?k n] => destruct (String.eqb k n) eqn:?E; [apply String.eqb_eq in E; subst n; intros _; eexists; cbn; tauto|clear E] end); intros K; discriminate K.
Qed.
Definition cad_docs : list (string * cls) :=
  [("options", COptions); ("tolerances", CTolerances); ("numeric_format", CNumericFormat); ("settings", CSettings)]%string.
Lemma cad_setter n s : find_setter n cad_setters = Some s -> exists c, In (n, c) cad_docs.
Proof.
  cbn [cad_setters find_setter typed];
  repeat (match goal with |- context [String.eqb ?k n] => destruct (String.eqb k n) eqn:?E; [apply String.eqb_eq in E; subst n; intros _; eexists; cbn; tauto|clear E] end); intros K; discriminate K.
Qed.
Lemma cad_documented n c : In (n, c) cad_docs -> find_setter n cad_setters = Some (snd (typed n (TyConf c))).
Proof. cbn [cad_docs In]. intros H. repeat destruct H as [[= <- <-]|H]; try contradiction; reflexivity. Qed.
Definition conf_at (h : list obj) (v : val) (c : cls) : Prop := exists b d, v = VRef b /\ nth_error h b = Some (OConf c d).
Lemma is_conf h v c : isinstance h v (TyConf c) = true <-> conf_at h v c.
Proof.
  unfold conf_at. split.
  - destruct v as [| | | | | |b|]; cbn; try discriminate. destruct (nth_error h b) as [[l|c' d|d]|] eqn:E; try discriminate.
    intros C. exists b, d. split; auto. rewrite E. destruct c, c'; cbn in C; try discriminate; auto.
  - intros (b & d & -> & E). cbn. rewrite E. destruct c; reflexivity.
Qed.
Lemma setattr_cad st a d n c v : nth_error (heap st) a = Some (OCad d) -> In (n, c) cad_docs ->
  (conf_at (heap st) v c /\ setattr a n v st = (ST (upd a (OCad (put (priv n) v d)) (heap st)) (events st), Ok tt)) \/
  (~ conf_at (heap st) v c /\ setattr a n v st = (st, Err TypeError)).
Proof.
  intros H D. unfold setattr. rewrite H, (cad_documented n c D). cbn [typed snd]. unfold seq_. rewrite is_a_eq.
  pose proof (is_conf (heap st) v c) as I. destruct (isinstance (heap st) v (TyConf c)); cbn [negb].
  - left. split; [apply I; auto|]. apply store_cad; auto.
  - right. split; [intros K; apply I in K; discriminate|reflexivity].
Qed.
Lemma setattr_cases st a n v :
  (exists e, setattr a n v st = (st, Err e)) \/
  (exists c d m, nth_error (heap st) a = Some (OConf c d) /\
     setattr a n v st = (ST (upd a (OConf c (put m v d)) (heap st)) (events st), Ok tt) /\
     ((exists t, In (n, t) (documented c) /\ m = priv n /\ has_type (heap st) t v) \/ m = n)) \/
  (exists d m, nth_error (heap st) a = Some (OCad d) /\
     setattr a n v st = (ST (upd a (OCad (put m v d)) (heap st)) (events st), Ok tt) /\
     ((exists c, In (n, c) cad_docs /\ m = priv n /\ conf_at (heap st) v c) \/ m = n)).
Proof.
  destruct (nth_error (heap st) a) as [[l|c d|d]|] eqn:E.
  - left. unfold setattr. rewrite E. eauto.
  - destruct (find_setter n (setters c)) as [s|] eqn:F.
    + destruct (setter_documented c n s F) as [t D]. destruct (setattr_doc st a c d n t v E D) as [[T H]|[T [e [H _]]]]; [|left; eauto].
      right. left. exists c, d, (priv n). split; auto. split; auto. left. eauto.
    + right. left. exists c, d, n. split; auto. split; auto. unfold setattr. rewrite E, F. apply store_conf; auto.
  - destruct (find_setter n cad_setters) as [s|] eqn:F.
    + destruct (cad_setter n s F) as [c D]. destruct (setattr_cad st a d n c v E D) as [[T H]|[T H]]; [|left; eauto].
      right. right. exists d, (priv n). split; auto. split; auto. left. eauto.
    + right. right. exists d, n. split; auto. split; auto. unfold setattr. rewrite E, F. apply store_cad; auto.
  - left. unfold setattr. rewrite E. eauto.
Qed.

(** ** constructors *)
Fixpoint puts (l : dict) (d : dict) : dict := match l with [] => d | (n, v) :: r => puts r (put (priv n) v d) end.
Lemma upd_id {A} (l : list A) i x : nth_error l i = Some x -> upd i x l = l.
Proof. revert i. induction l as [|y l IH]; intros [|i] H; cbn in *; try discriminate; [congruence|]. f_equal. auto. Qed.
Lemma set_all_doc a c l : (forall n v, In (n, v) l -> exists t, In (n, t) (documented c)) ->
  forall st d, nth_error (heap st) a = Some (OConf c d) ->
  ((forall n v t, In (n, v) l -> In (n, t) (documented c) -> has_type (heap st) t v) /\
     set_all a l st = (ST (upd a (OConf c (puts l d)) (heap st)) (events st), Ok tt)) \/
  ((exists n v t, In (n, v) l /\ In (n, t) (documented c) /\ ~ has_type (heap st) t v) /\
     exists e, snd (set_all a l st) = Err e /\ (e = TypeError \/ e = ValueError)).
Proof.
  induction l as [|[n v] l IH]; intros D st d H.
  - left. split; [intros n v t []|]. cbn [set_all puts]. rewrite upd_id by auto. destruct st; reflexivity.
  - destruct (D n v (or_introl eq_refl)) as [t Dt]. cbn [set_all]. unfold seq_.
    destruct (setattr_doc st a c d n t v H Dt) as [[T E]|[T [e [E K]]]]; rewrite E.
    + set (st1 := ST _ _). assert (H1 : nth_error (heap st1) a = Some (OConf c (put (priv n) v d))) by (cbn; apply upd_same; eapply nth_lt; eauto).
      assert (S : same_lists (heap st) (heap st1)) by (cbn; eapply same_lists_upd; eauto; congruence).
      destruct (IH (fun m w I => D m w (or_intror I)) st1 _ H1) as [[T1 E1]|[(m & w & u & I1 & I2 & I3) E1]]; [left|right].
      * split; [|rewrite E1; cbn; rewrite upd_upd; reflexivity]. intros m w u [[= <- <-]|I] Du; [|eapply same_lists_type; [apply same_lists_sym; exact S|eauto]].
        assert (u = t); [|congruence]. clear -Dt Du. destruct c; cbn [documented In] in Dt, Du; repeat destruct Dt as [[= <- <-]|Dt]; try contradiction; repeat destruct Du as [[= <-]|Du]; try contradiction; try discriminate; reflexivity.
      * split; auto. exists m, w, u. split; [right; auto|]. split; auto. intros K. apply I3. eapply same_lists_type; eauto.
    + right. split; [exists n, v, t; split; [left|]; auto|]. exists e. split; auto. tauto.
Qed.
Lemma puts_app l : forall d, NoDup (map fst l) -> (forall n v, In (n, v) l -> lookup (priv n) d = None) ->
  puts l d = d ++ map (fun p => (priv (fst p), snd p)) l.
Proof.
  induction l as [|[n v] l IH]; intros d N F; cbn [puts map app]; [rewrite app_nil_r; reflexivity|].
  assert (P : put (priv n) v d = d ++ [(priv n, v)]).
  { specialize (F n v (or_introl eq_refl)). clear -F. induction d as [|[k w] d IH]; cbn [put lookup app] in *; auto.
    destruct (String.eqb k (priv n)); [discriminate|]. f_equal. auto. }
  inversion N; subst. rewrite IH; auto.
  - rewrite P, <- app_assoc. reflexivity.
  - intros m w I. rewrite lookup_put_other; [apply (F m w); right; auto|]. intros E. apply priv_inj in E. subst m. apply H1. apply in_map with (f := fst) in I. exact I.
Qed.
Lemma params_names c : map fst (params c) = map fst (params c) /\ NoDup (map fst (params c)) /\ (forall n v, In (n, v) (params c) -> exists t, In (n, t) (documented c)) /\ (forall n t, In (n, t) (documented c) -> exists v, In (n, v) (params c)).
Proof.
  split; auto. split; [|split].
  - destruct c; cbn; repeat constructor; cbn; intuition discriminate.
  - intros n v H. destruct c; cbn [params In] in H; repeat destruct H as [[= <- <-]|H]; try contradiction; eexists; cbn; tauto.
  - intros n t H. destruct c; cbn [documented In] in H; repeat destruct H as [[= <- <-]|H]; try contradiction; eexists; cbn; tauto.
Qed.
Definition given (kw : dict) (n : string) (dflt : val) : val := match lookup n kw with Some v => v | None => dflt end.
Definition args_of (ps kw : dict) : dict := map (fun p => (fst p, given kw (fst p) (snd p))) ps.
Lemma bind_args_spec ps kw : (forall n v, In (n, v) kw -> In n (map fst ps)) /\ bind_args ps kw = Ok (args_of ps kw) \/
  (exists n v, In (n, v) kw /\ ~ In n (map fst ps)) /\ bind_args ps kw = Err TypeError.
Proof.
  unfold bind_args. destruct (forallb _ kw) eqn:F; [left|right]; (split; [|reflexivity]).
  - intros n v I. rewrite forallb_forall in F. specialize (F _ I). cbn [fst] in F. destruct (lookup n ps) eqn:L; [|discriminate]. apply lookup_in in L. apply in_map with (f := fst) in L. exact L.
  - assert (E : existsb (fun e => negb (match lookup (fst e) ps with Some _ => true | None => false end)) kw = true).
    { clear -F. induction kw as [|x kw IH]; cbn in *; [discriminate|]. destruct (lookup (fst x) ps); cbn in *; auto. }
    apply existsb_exists in E. destruct E as [[n v] [I K]]. exists n, v. split; auto. cbn [fst] in K. intros Q. apply in_map_iff in Q. destruct Q as [[k w] [<- Q]]. apply lookup_some in Q. destruct Q as [w' Q]. cbn [fst] in K. rewrite Q in K. discriminate.
Qed.
Definition conf_dict (c : cls) (kw : dict) : dict := map (fun p => (priv (fst p), snd p)) (args_of (params c) kw).
Lemma args_names ps kw : map fst (args_of ps kw) = map fst ps.
Proof. unfold args_of. rewrite map_map. apply map_ext. reflexivity. Qed.
Lemma new_conf_spec c kw st :
  ((forall n v, In (n, v) kw -> exists t, In (n, t) (documented c)) /\
   (forall n v t, In (n, v) (args_of (params c) kw) -> In (n, t) (documented c) -> has_type (heap st) t v) /\
   new_conf c kw st = (ST (heap st ++ [OConf c (conf_dict c kw)]) (events st), Ok (VRef (List.length (heap st))))) \/
  (~ ((forall n v, In (n, v) kw -> exists t, In (n, t) (documented c)) /\
      (forall n v t, In (n, v) (args_of (params c) kw) -> In (n, t) (documented c) -> has_type (heap st) t v)) /\
   exists e, new_conf c kw st = (st, Err e) /\ (e = TypeError \/ e = ValueError)).
Proof.
  destruct (params_names c) as (_ & ND & P1 & P2). unfold new_conf. unfold seq_ at 1. unfold lift at 1.
  destruct (bind_args_spec (params c) kw) as [[B ->]|[(n & v & I & B) ->]].
  2:{ right. split; [|exists TypeError; auto]. intros [Q _]. destruct (Q n v I) as [t Q1]. destruct (P2 n t Q1) as [w Q2]. apply B. apply in_map with (f := fst) in Q2. exact Q2. }
  unfold or_lost, seq_, alloc, lift. set (st1 := ST _ _). set (a := List.length (heap st)).
  assert (H1 : nth_error (heap st1) a = Some (OConf c [])) by (cbn; unfold a; rewrite nth_error_app2, Nat.sub_diag by lia; reflexivity).
  assert (DA : forall n v, In (n, v) (args_of (params c) kw) -> exists t, In (n, t) (documented c)).
  { intros n v I. unfold args_of in I. apply in_map_iff in I. destruct I as [[k w] [[= <- <-] I]]. eauto. }
  assert (S : same_lists (heap st) (heap st1)) by (apply same_lists_app; intros l; discriminate).
  assert (DK : forall n v, In (n, v) kw -> exists t, In (n, t) (documented c)).
  { intros n v I. specialize (B n v I). apply in_map_iff in B. destruct B as [[k w] [<- B]]. eauto. }
  destruct (set_all_doc a c _ DA st1 [] H1) as [[T E]|[(n & v & t & I1 & I2 & I3) [e [E K]]]].
  - left. split; auto. split; [intros n v t I1 I2; eapply same_lists_type; [apply same_lists_sym; exact S|eauto]|].
    rewrite E. unfold ret. f_equal. f_equal. cbn [heap st1]. rewrite puts_app; [|rewrite args_names; auto|intros; reflexivity].
    unfold a. rewrite upd_app. reflexivity.
  - right. split.
    + intros [_ Q]. apply I3. eapply same_lists_type; eauto.
    + fold a. destruct (set_all a (args_of (params c) kw) st1) as [st2 r]. cbn [snd] in E. subst r. exists e. auto.
Qed.

(** CadToCsg() *)
Lemma nth_mid {A} (h : list A) x r : nth_error (h ++ x :: r) (List.length h) = Some x.
Proof. rewrite nth_error_app2, Nat.sub_diag by lia. reflexivity. Qed.
Lemma upd_mid {A} (h : list A) x y r : upd (List.length h) y (h ++ x :: r) = h ++ y :: r.
Proof. induction h as [|z h IH]; cbn; auto. f_equal. auto. Qed.
Lemma conf_at_app h d v c : conf_at (h ++ [OCad d]) v c <-> conf_at h v c.
Proof.
  unfold conf_at. split; intros (b & d' & -> & H); exists b, d'; (split; [reflexivity|]).
  - destruct (Nat.lt_ge_cases b (List.length h)) as [L|L]; [rewrite nth_error_app1 in H; auto|].
    rewrite nth_error_app2 in H by lia. destruct (b - List.length h)%nat as [|k]; cbn in H; [discriminate|destruct k; discriminate].
  - rewrite nth_error_app1; auto. eapply nth_lt; eauto.
Qed.
Lemma cad_set_doc h d ev n c v : In (n, c) cad_docs ->
  (conf_at h v c /\ setattr (List.length h) n v (ST (h ++ [OCad d]) ev) = (ST (h ++ [OCad (put (priv n) v d)]) ev, Ok tt)) \/
  (~ conf_at h v c /\ setattr (List.length h) n v (ST (h ++ [OCad d]) ev) = (ST (h ++ [OCad d]) ev, Err TypeError)).
Proof.
  intros D. destruct (setattr_cad (ST (h ++ [OCad d]) ev) (List.length h) d n c v (nth_mid h _ _) D) as [[C E]|[C E]]; cbn [heap] in C; rewrite conf_at_app in C; [left|right]; (split; [auto|]); rewrite E; auto.
  cbn [heap events]. rewrite upd_mid. reflexivity.
Qed.
Lemma cad_set_other h d r ev n v : find_setter n cad_setters = None ->
  setattr (List.length h) n v (ST (h ++ OCad d :: r) ev) = (ST (h ++ OCad (put n v d) :: r) ev, Ok tt).
Proof. intros F. unfold setattr. cbn [heap]. rewrite nth_mid, F. rewrite (store_cad _ _ _ _ d) by apply nth_mid. cbn [heap events]. rewrite upd_mid. reflexivity. Qed.
Definition cad_dict (kw : dict) (a : nat) : dict :=
  map (fun p => (priv (fst p), snd p)) (args_of cad_params kw) ++
  [("geometry_bounding_box", VNone); ("filename", VNone); ("skip_solids", VRef (S a))]%string.
Definition cad_args_ok (h : list obj) (kw : dict) : Prop :=
  (forall n v, In (n, v) kw -> In n (map fst cad_docs)) /\
  forall n c v, In (n, c) cad_docs -> In (n, v) (args_of cad_params kw) -> conf_at h v c.
Lemma new_cad_spec kw st :
  (forall b d, nth_error (heap st) b = Some (OConf CSettings d) -> exists p, lookup (priv "outPath") d = Some p) ->
  (cad_args_ok (heap st) kw /\
   exists b d p, given kw "settings" (VRef 6) = VRef b /\ nth_error (heap st) b = Some (OConf CSettings d) /\ lookup (priv "outPath") d = Some p /\
   new_cad kw st = (ST (heap st ++ [OCad (cad_dict kw (List.length (heap st))); OList []]) (events st ++ [EDir p]), Ok (VRef (List.length (heap st))))) \/
  (~ cad_args_ok (heap st) kw /\ new_cad kw st = (st, Err TypeError)).
Proof.
  intros W. remember (new_cad kw st) as r eqn:Q. unfold new_cad in Q. unfold seq_ at 1 in Q. unfold lift at 1 in Q.
  destruct (bind_args_spec cad_params kw) as [[B BE]|[(n & v & I & B) BE]]; rewrite BE in Q; clear BE.
  2:{ right. split; auto. intros [QQ _]. apply B. exact (QQ n v I). }
  set (a := List.length (heap st)) in *. destruct st as [h ev]. cbn [heap events] in *.
  cbn [args_of cad_params map fst snd] in Q. set (v1 := given kw "options" _) in *. set (v2 := given kw "tolerances" _) in *. set (v3 := given kw "numeric_format" _) in *. set (v4 := given kw "settings" _) in *.
  assert (BAD : forall n c v, In (n, c) cad_docs -> In (n, v) (args_of cad_params kw) -> ~ conf_at h v c -> ~ cad_args_ok h kw).
  { intros n c v D I K [_ QQ]. exact (K (QQ n c v D I)). }
  unfold or_lost in Q. unfold seq_ at 1 in Q. unfold alloc at 1 in Q. cbn [heap events] in Q. fold a in Q. cbn [set_all] in Q.
  do 2 unfold seq_ at 1 in Q.
  destruct (cad_set_doc h [] ev "options" COptions v1 ltac:(cbn; tauto)) as [[C1 E]|[C1 E]]; fold a in E; rewrite E in Q; clear E; [|right; split; [eapply BAD; [| |exact C1]; cbn; auto|exact Q]].
  unfold seq_ at 1 in Q. match type of Q with context [ST (h ++ [OCad ?d]) ev] => destruct (cad_set_doc h d ev "tolerances" CTolerances v2 ltac:(cbn; tauto)) as [[C2 E]|[C2 E]] end; fold a in E; rewrite E in Q; clear E; [|right; split; [eapply BAD; [| |exact C2]; cbn; auto|exact Q]].
  unfold seq_ at 1 in Q. match type of Q with context [ST (h ++ [OCad ?d]) ev] => destruct (cad_set_doc h d ev "numeric_format" CNumericFormat v3 ltac:(cbn; tauto)) as [[C3 E]|[C3 E]] end; fold a in E; rewrite E in Q; clear E; [|right; split; [eapply BAD; [| |exact C3]; cbn; auto|exact Q]].
  unfold seq_ at 1 in Q. match type of Q with context [ST (h ++ [OCad ?d]) ev] => destruct (cad_set_doc h d ev "settings" CSettings v4 ltac:(cbn; tauto)) as [[C4 E]|[C4 E]] end; fold a in E; rewrite E in Q; clear E; [|right; split; [eapply BAD; [| |exact C4]; cbn; auto 10|exact Q]].
  left. unfold ret at 1 in Q.
  assert (OKA : cad_args_ok h kw).
  { split; [intros n v I; exact (B n v I)|]. intros n c v D I. cbn [cad_docs In] in D. cbn [args_of cad_params map fst snd In] in I.
    fold v1 v2 v3 v4 in I. destruct D as [[= <- <-]|[[= <- <-]|[[= <- <-]|[[= <- <-]|[]]]]]; repeat destruct I as [[= <-]|I]; try contradiction; try discriminate; auto. }
  split; auto. destruct C4 as (b & d & E4 & N4). destruct (W b d N4) as [p P]. exists b, d, p. split; [exact E4|]. split; auto. split; auto. subst r.
  unfold seq_ at 1. match goal with |- context [ST (h ++ [OCad ?d]) ev] => pose proof (cad_set_other h d [] ev "geometry_bounding_box" VNone eq_refl) as E end; fold a in E; rewrite E; clear E.
  unfold seq_ at 1. match goal with |- context [ST (h ++ [OCad ?d]) ev] => pose proof (cad_set_other h d [] ev "filename" VNone eq_refl) as E end; fold a in E; rewrite E; clear E.
  unfold seq_ at 1. unfold alloc at 1. cbn [heap events]. rewrite <- app_assoc. cbn [app]. rewrite app_length. cbn [List.length]. replace (List.length h + 1)%nat with (S a) by (unfold a; lia).
  unfold seq_ at 1. match goal with |- context [ST (h ++ OCad ?d :: ?r) ev] => pose proof (cad_set_other h d r ev "skip_solids" (VRef (S a)) eq_refl) as E end; fold a in E; rewrite E; clear E.
  unfold seq_ at 1. unfold getattr at 1. cbn [heap]. match goal with |- context [OCad ?d :: ?r] => pose proof (nth_mid h (OCad d) r) as G end. fold a in G. rewrite G. clear G.
  cbn [find_setter cad_setters typed fst snd String.eqb Ascii.eqb Bool.eqb]. cbn [lookup put priv append String.eqb Ascii.eqb Bool.eqb]. rewrite E4.
  unfold seq_ at 1. unfold getattr at 1. cbn [heap]. rewrite nth_error_app1 by (eapply nth_lt; eauto). rewrite N4.
  change (find_setter "outPath" (setters CSettings)) with (Some (snd (typed "outPath" TyStr))). cbv iota beta. rewrite P.
  unfold seq_, emit, ret. cbn [heap events]. f_equal. f_equal. f_equal. f_equal. f_equal. unfold cad_dict. cbn [args_of cad_params map fst snd app]. fold v1 v2 v3 v4. rewrite <- E4. reflexivity.
Qed.
