(** C36, C37: the Boolean sequences of GEOReverse. *)
From Coq Require Import Permutation.
From Verif Require Import Prelude BoolSpec BoolSeq BoolProofs BoolProofs2 BoolTotal RBool RBoolSpec RBoolProofs.

(** The point lies on the given sides of the surfaces. *)
Definition on_sides (v : point) (vs : vset) : Prop := forall x b, In (x, b) vs -> v (Z.abs x) = b.
Lemma on_sides_agrees v vs : on_sides v vs -> agrees_all v vs.
Proof. intros H. apply Forall_forall. intros (x, b) I. apply H. exact I. Qed.

(** * C36: evaluation with some surfaces known *)
(** True or False is returned only when it is the value at every point on the given
    sides. *)
Theorem C36_evaluate_sound : forall vs n b n', revaluate vs n = Ok (Some b, n') -> forall v, on_sides v vs -> eval v n = b.
Proof. intros vs n b n' H v A. eapply reval_f_sound; eauto using on_sides_agrees. Qed.
(** "Unknown" is returned only when a surface of the definition is not known. *)
Theorem C36_evaluate_complete : forall vs n n', revaluate vs n = Ok (None, n') ->
  exists x, In x (surfs n) /\ ~ exists b, In (x, b) vs.
Proof.
  intros vs n n' H. apply reval_none in H. destruct H as (z & Hz & V). exists (Z.abs z). split; [apply nodup_In, in_map; auto|].
  intros (b & I). clear -V I. induction vs as [|(k, c) vs IH]; [destruct I|]. cbn in V. destruct (Z.eqb_spec k (Z.abs z)); [discriminate|]. destruct I as [E|I]; [congruence|auto].
Qed.
(** It always returns on well formed definitions, and leaves their meaning. *)
Theorem C36_evaluate_total : forall vs n, wf n -> no_const n -> is_seq n ->
  exists r n', revaluate vs n = Ok (r, n') /\ forall v, eval v n' = eval v n.
Proof.
  intros vs n W C S. destruct (reval_total vs (Datatypes.S (height n)) n) as (r & n' & E); auto. exists r, n'. split; auto. intros v. eapply (reval_f_recv v); eauto. now apply wf_nz.
Qed.
(** Exactly: the answer is the value of strong three-valued logic, an unknown surface
    being "unknown", a conjunction with a False part False, a disjunction with a True
    part True. *)
Theorem C36_evaluate_kleene : forall vs n r n', revaluate vs n = Ok (r, n') -> r = kleene vs n.
Proof. intros vs n r n' H. eapply reval_kleene; eauto. Qed.
Definition sample := Seq OR 1 [Seq AND 0 [Lit 1; Lit (-2)]; Seq OR 0 [Lit 3]].
Example C36_example : wf sample /\ no_const sample /\ is_seq sample /\
  (exists n', revaluate [(3, true)] sample = Ok (Some true, n')) /\
  (exists n', revaluate [(3, false); (2, true)] sample = Ok (Some false, n')) /\
  (exists n', revaluate [(3, false); (2, false)] sample = Ok (None, n')).
Proof.
  split; [cbn; repeat split; try lia; try discriminate; repeat constructor|]. split; [cbn; tauto|]. split; [exact Logic.I|]. repeat split; eexists; reflexivity.
Qed.

(** * C37: simplification *)
Theorem C37_substitute : forall x b n r, rsubst x (VB b) n = Ok r -> nonzero n -> wf n ->
  forall v, v (Z.abs x) = b -> eval v r = eval v n.
Proof. intros x b n r H _ W v A. eapply (rsubst_sound v); eauto. now apply wf_nz. Qed.
Theorem C37_clean : forall n v, eval v (rclean n) = eval v n.
Proof. intros. apply rclean_eval. Qed.
Theorem C37_join_operators : forall fuel n r, rjoin fuel n = Ok r -> wf n -> forall v, eval v r = eval v n.
Proof. intros fuel n r H W v. eapply (rjoin_sound v); eauto. destruct n; auto using wf_nz. Qed.
(** Factorizing keeps the region, for points that satisfy the constraints between the
    surfaces (all the points when there is no table). *)
Theorem C37_factorize : forall ct x n b r, rfactorize ct x n = Ok (b, r) -> wf n -> 0 < x ->
  forall v, compatible v ct -> eval v r = eval v n.
Proof. intros ct x n b r H W HX v C. eapply (rfactorize_sound v); eauto. now apply wf_nz. Qed.
(** check: a constant is reported only for a constant definition. *)
Theorem C37_check : forall fuel n b n', rcheck fuel n = Ok (Some b, n') -> wf n -> forall v, eval v n = b.
Proof. intros fuel n b n' H W v. eapply (rcheck_sound v); eauto. Qed.
(** The complement (same code as GEOUNED's). *)
Theorem C37_complement : forall n c n', get_complementary n = Ok (c, n') -> wf n -> forall v, eval v c = negb (eval v n).
Proof. intros n c n' H W v. destruct (compl_f_sound v _ _ _ _ H W) as (A & _). exact A. Qed.

(** simplify never loses a point ... *)
Theorem C37_simplify_superset : forall fuel ord ct n r, rsimplify fuel false ord ct true n = Ok r -> wf n ->
  forall v, compatible v ct -> eval v n = true -> eval v r = true.
Proof. intros fuel ord ct n r H W v C. apply (rsimplify_sound v ord ct C false fuel true n r H). now apply wf_nz. Qed.
(** ... but may add some: an empty region becomes a non empty one. *)
Fixpoint insert (x : Z) (l : list Z) : list Z := match l with [] => [x] | y :: r => if x <=? y then x :: l else y :: insert x r end.
Definition ascending (n : node) : list Z := fold_right insert [] (surfs n).
Lemma insert_perm x l : Permutation (insert x l) (x :: l).
Proof. induction l as [|y l IH]; cbn; auto. destruct (x <=? y); auto. rewrite IH. apply perm_swap. Qed.
Theorem C37_simplify_refuted : exists ord fuel n r, (forall m, Permutation (ord m) (surfs m)) /\ wf n /\
  rsimplify fuel false ord None true n = Ok r /\ (forall v, eval v n = false) /\ exists v, eval v r = true.
Proof.
  exists ascending, 20%nat, (Seq AND 2 [Seq OR 1 [Seq AND 0 [Lit 1; Lit (-1)]; Seq AND 0 [Lit 2; Lit (-2)]]; Seq AND 0 [Lit 3; Lit 4]]), (Seq AND 0 [Lit 3; Lit 4]).
  split; [|split; [|split; [|split]]].
  - intros m. unfold ascending. induction (surfs m) as [|x l IH]; cbn; auto. rewrite insert_perm. auto.
  - cbn. repeat split; try lia; try discriminate; repeat constructor.
  - vm_compute. reflexivity.
  - intros v. cbn. destruct (v 1), (v 2); reflexivity.
  - exists (fun _ => true). reflexivity.
Qed.
(** ... or fail: 'bool' object has no attribute 'append'. *)
Theorem C37_simplify_fails_refuted : exists ord fuel n, (forall m, Permutation (ord m) (surfs m)) /\ wf n /\ no_const n /\
  rsimplify fuel false ord None true n = Err AttributeError.
Proof.
  exists ascending, 20%nat, (Seq OR 2 [Seq AND 1 [Seq OR 0 [Lit 1; Lit (-1)]; Seq OR 0 [Lit 2; Lit (-2)]]; Seq OR 0 [Lit 3; Lit 4]]).
  split; [|split; [|split]].
  - intros m. unfold ascending. induction (surfs m) as [|x l IH]; cbn; auto. rewrite insert_perm. auto.
  - cbn. repeat split; try lia; try discriminate; repeat constructor.
  - cbn. tauto.
  - vm_compute. reflexivity.
Qed.
(** The region is kept when no part of an intersection is found empty on the way
    (strict run: same result as the code). *)
Theorem C37_simplify_partial : forall fuel ord ct n r, rsimplify fuel true ord ct true n = Ok r -> wf n ->
  rsimplify fuel false ord ct true n = Ok r /\ forall v, compatible v ct -> eval v r = eval v n.
Proof.
  intros fuel ord ct n r H W. split; [now apply rsimplify_strict|]. intros v C. symmetry. apply (rsimplify_sound v ord ct C true fuel true n r H). now apply wf_nz.
Qed.
Definition sample2 := Seq AND 2 [Seq OR 1 [Seq AND 0 [Lit 1; Lit 2]; Seq AND 0 [Lit 1; Lit (-3)]]; Seq AND 0 [Lit 1; Lit 4]].
Example C37_example : wf sample2 /\ rsimplify 20 true ascending None true sample2 = Ok (Seq AND 1 [Seq AND 0 [Lit 1; Lit 4]; Seq OR 0 [Lit 2; Lit (-3)]]).
Proof. split; [cbn; repeat split; try lia; try discriminate; repeat constructor|].
 vm_compute. reflexivity. Qed.
Example C37_example2 : rsubst 1 (VB true) sample2 = Ok (Seq AND 2 [Seq OR 1 [Seq AND 0 [Lit 2]; Seq AND 0 [Lit (-3)]]; Seq AND 0 [Lit 4]]) /\
  (exists r, rjoin 5 sample2 = Ok r) /\ (exists r, rfactorize None 1 sample2 = Ok (true, r)) /\
  (exists n', rcheck 4 (Seq OR 1 [Seq AND 0 [Lit 1; Lit (-1)]; Seq AND 0 [Lit 2; Lit (-2)]]) = Ok (Some false, n')) /\
  (exists c n', get_complementary sample2 = Ok (c, n')).
Proof. repeat split; repeat eexists; vm_compute; reflexivity. Qed.

Print Assumptions C36_evaluate_sound.
Print Assumptions C36_evaluate_complete.
Print Assumptions C36_evaluate_total.
Print Assumptions C36_evaluate_kleene.
Print Assumptions C37_substitute.
Print Assumptions C37_join_operators.
Print Assumptions C37_factorize.
Print Assumptions C37_check.
Print Assumptions C37_simplify_superset.
Print Assumptions C37_simplify_partial.
Print Assumptions C37_simplify_refuted.
Print Assumptions C37_simplify_fails_refuted.
