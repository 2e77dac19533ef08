(** Properties C01-C06, C08, C09: Boolean cell definitions.
    Specification vocabulary: BoolSpec.v ([eval], [wf], [gr], [no_const], ...).
    Each theorem is followed by a concrete case that meets its hypotheses. *)
From Verif Require Import Prelude BoolSpec BoolSeq BoolEdit BoolProofs BoolProofs2
  BoolTotal BoolTotal2 BoolTotal3 BoolStrict BoolEditProofs.

(** Running example: the definition  1 -2 (3:(4 -5))  as stored by the code. *)
Definition ex1 : node :=
  Seq AND 2 [Seq AND 0 [Lit 1; Lit (-2)];
             Seq OR 1 [Seq OR 0 [Lit 3]; Seq AND 0 [Lit 4; Lit (-5)]]].
Lemma ex1_ok : wf ex1 /\ gr ex1 /\ is_seq ex1 /\ no_const ex1 /\ level_ok ex1.
Proof. cbn. repeat (split || constructor || intros || discriminate || lia). Qed.

(** Definitions whose stored levels are up to date, with non zero surface
    numbers and no constants, are well formed. *)
Theorem C01_level_ok_wf : forall n, level_ok n -> nonzero n -> no_const n -> wf n.
Proof. exact level_ok_wf. Qed.

(* ------------------------------------------------------------------ *)
(** * C01 complement *)

Theorem C01_complement : forall n,
  is_seq n -> no_const n -> wf n ->
  exists c n', get_complementary n = Ok (c, n') /\
    forall v, eval v c = negb (eval v n) /\ eval v n' = eval v n.
Proof.
  intros n S C W. destruct (get_complementary_total n S C W) as (c & g & E).
  exists c, g. split; auto. intros v. destruct (compl_f_sound v _ _ _ _ E W) as (A & B & _). auto.
Qed.
Example C01_ex : exists c n', get_complementary ex1 = Ok (c, n') /\ c <> ex1.
Proof. eexists; eexists; split; [vm_compute; reflexivity|discriminate]. Qed.

(** A constant definition has no complement: the call raises. *)
Theorem C01_constant_refuted : exists n, is_seq n /\ wf n /\ get_complementary n = Err TypeError.
Proof. exists (Cst AND (-1) true). repeat split; cbn; lia. Qed.

(* ------------------------------------------------------------------ *)
(** * C02 structural rewrites *)

Theorem C02_copy : forall n, copy n = n.
Proof. exact copy_id. Qed.

Theorem C02_group_single : forall v n m, group_single n = Ok m -> eval v m = eval v n.
Proof. exact group_single_eval. Qed.

(** group_single never raises unless a constant child has level 0. *)
Theorem C02_group_single_total : forall op lev l,
  (forall o b, ~ In (Cst o 0 b) l) -> exists m, group_single (Seq op lev l) = Ok m.
Proof.
  intros op lev l H. destruct (group_single_total op lev l) as (l' & E & _); eauto.
  left. apply Forall_forall. intros [z|o lv b|o lv xs] Hx; simpl; auto. intros ->. eapply H; eauto.
Qed.

Theorem C02_clean : forall v n, eval v (clean n) = eval v n /\ eval v (clean_self n) = eval v n.
Proof. intros; split; [apply clean_eval|apply clean_self_eval]. Qed.

Theorem C02_level_update : forall v n, eval v (level_update n) = eval v n.
Proof. exact level_update_eval. Qed.

Theorem C02_check : forall v n r, wf n -> check n = Ok r -> eval v r = eval v n.
Proof. intros v n r W H. apply (check_sound v n r H W). Qed.

Theorem C02_check_total : forall n, is_seq n -> no_const n -> exists r, check n = Ok r.
Proof.
  intros n S C. apply check_f_total; auto. clear S.
  induction n as [z|op lev b|op lev l IH] using node_ind'; auto.
  - simpl in C; tauto.
  - apply (no_const_seq op lev) in C. apply c0_seq. rewrite Forall_forall in *. auto.
Qed.

(** join_operators: always returns, whatever the stored levels, and keeps the
    meaning. *)
Theorem C02_join : forall sl n, is_seq n -> wf n ->
  exists r, join sl n = Ok r /\ wf r /\ forall v, eval v r = eval v n.
Proof.
  intros sl n S W. destruct (join_total sl n S) as (r & E & _).
  exists r. split; auto. split; [|intros v];
    [apply (join_sound (fun _ => true) sl n r E (wf_nz _ W))|apply (join_sound v sl n r E (wf_nz _ W))].
Qed.
Theorem C02_join_total : forall sl n, is_seq n -> exists r, join sl n = Ok r.
Proof. intros sl n S. destruct (join_total sl n S) as (r & E & _). eauto. Qed.

Example C02_ex : exists r, join false
   (Seq AND 1 [Seq AND 0 [Lit 1]; Seq AND 0 [Lit 2; Lit 3]; Seq OR 0 [Lit 4; Lit 5]]) = Ok r /\
   check (Seq OR 0 [Lit 4; Lit (-4)]) = Ok (Cst OR (-1) true).
Proof. eexists; split; vm_compute; reflexivity. Qed.

(** check and group_single raise on a constant whose level was reset to 0 by
    level_update (bf 647-648 together with bf 621). *)
Theorem C02_group_single_refuted : exists n,
  is_seq n /\ wf n /\ group_single (level_update n) = Err TypeError /\
  check (level_update n) = Err TypeError.
Proof.
  exists (Seq AND 1 [Cst OR (-1) true; Seq OR 0 [Lit 1; Lit 2]]).
  split; [exact I|]. split; [|split; vm_compute; reflexivity].
  cbn. repeat (split || constructor || intros || discriminate || lia).
Qed.

(* ------------------------------------------------------------------ *)
(** * C03 append *)

Definition arg_meaning (v : point) (a : arg) : bool :=
  match a with AN n => eval v n | AB b => b end.

(** Non constant receiver: n-ary conjunction/disjunction, never raises. *)
Theorem C03_append : forall v op lev l args,
  exists r, append (Seq op lev l) args = Ok r /\
    eval v r = match op with
               | AND => forallb (arg_meaning v) (AN (Seq op lev l) :: args)
               | OR => existsb (arg_meaning v) (AN (Seq op lev l) :: args)
               end.
Proof.
  intros v op lev l args. eexists; split; [reflexivity|].
  rewrite append_loop_eval. rewrite <- eval_seq with (lev := lev).
  assert (HA : args_val v op args = match op with AND => forallb (arg_meaning v) args
                                               | OR => existsb (arg_meaning v) args end).
  { unfold args_val. clear. induction args as [|a args IH]; destruct op; simpl in *; auto; rewrite IH; destruct a; reflexivity. }
  rewrite HA. destruct op; reflexivity.
Qed.

(** Constant receiver: an absorbing constant is kept; a neutral one takes over
    the single sequence appended. *)
Theorem C03_append_const : forall v op lev b args r,
  append (Cst op lev b) args = Ok r ->
  eval v r = match op with
             | AND => forallb (arg_meaning v) (AB b :: args)
             | OR => existsb (arg_meaning v) (AB b :: args)
             end.
Proof.
  intros v op lev b args r H. destruct (append_eval v _ _ _ H) as (_ & HE).
  rewrite (HE _ _ _ eq_refl).
  assert (HA : args_val v op args = match op with AND => forallb (arg_meaning v) args
                                               | OR => existsb (arg_meaning v) args end).
  { unfold args_val. clear. induction args as [|a args IH]; destruct op; simpl in *; auto; rewrite IH; destruct a; reflexivity. }
  rewrite HA. destruct op; reflexivity.
Qed.

(** ... but appending an int, a bool or several items to it raises. *)
Theorem C03_append_const_refuted :
  append (Cst AND (-1) true) [AN (Lit 5)] = Err AttributeError /\
  append (Cst OR (-1) false) [AB true] = Err AttributeError /\
  append (Cst AND (-1) true) [AN (Seq OR 0 [Lit 1]); AN (Seq OR 0 [Lit 2])] = Err TypeError.
Proof. repeat split. Qed.

(** appended well formed items keep the receiver well formed *)
Theorem C03_append_wf : forall self args r,
  wf self -> Forall (fun a => match a with AN n => wf n | AB _ => True end) args ->
  append self args = Ok r -> wf r.
Proof. exact append_wf. Qed.

Example C03_ex : append (Seq AND 0 [Lit 1; Lit 2]) [AN (Lit 3); AN (Lit (-2)); AN ex1]
  = Ok (Cst AND (-1) false).
Proof. reflexivity. Qed.
Example C03_ex2 : append (Seq OR 0 [Lit 1]) [AN ex1; AB false] = Ok (Seq OR 3 [Lit 1; ex1]).
Proof. reflexivity. Qed.

(* ------------------------------------------------------------------ *)
(** * C04 substitute and evaluate *)

Theorem C04_substitute : forall v var b n r,
  wf n -> v (Z.abs var) = b -> subst var (VB b) n = Ok r -> eval v r = eval v n.
Proof. intros v var b n r W E H. apply (subst_sound v var (VB b) n r H W E). Qed.

Theorem C04_substitute_int : forall v var w n r,
  wf n -> w <> 0 -> v (Z.abs var) = lit_val v w -> subst var (VI w) n = Ok r -> eval v r = eval v n.
Proof. intros v var w n r W Hw E H. apply (subst_sound v var (VI w) n r H W (conj E Hw)). Qed.

Theorem C04_substitute_total : forall var b n, is_seq n -> exists r, subst var (VB b) n = Ok r.
Proof. intros var b n S. destruct (subst_total var (VB b) n S) as (r & E & _). eauto. Qed.

(** evaluate returns a bool or a definition; both equal the receiver at every
    point that takes the given values. *)
Theorem C04_evaluate : forall v vs n r n',
  wf n -> (forall x b, In (x, b) vs -> v (Z.abs x) = b) ->
  evaluate vs n = Ok (r, n') ->
  (match r with RB b => b | RS m => eval v m end) = eval v n /\ eval v n' = eval v n.
Proof.
  intros v vs n r n' W Ag H. split.
  - apply (evaluate_sound v vs n r n' H W). apply Forall_forall. intros [x b] Hx. apply Ag; auto.
  - apply (evaluate_receiver v vs n r n' H W).
Qed.
Example C04_ex : exists m n', evaluate [(3, false); (1, true)] ex1 = Ok (RS m, n') /\
  evaluate [(2, true)] ex1 = Ok (RB false, n').
Proof. eexists; eexists; split; vm_compute; reflexivity. Qed.

(* ------------------------------------------------------------------ *)
(** * C05 simplify *)

(** A point is allowed by the table when each reported value set is true of it:
    on the positive side of [x] the point satisfies the "true" set (a missing
    set means there is no such point), and likewise for the negative side. *)
Definition allowed (v : point) (ct : ctable) : Prop :=
  match ct with
  | None => True
  | Some f => forall x ts fs, f x = Ok (ts, fs) ->
      (v x = true -> exists t, ts = Some t /\ forall y b, In (y, b) t -> v (Z.abs y) = b) /\
      (v x = false -> exists t, fs = Some t /\ forall y b, In (y, b) t -> v (Z.abs y) = b)
  end.
Lemma allowed_compatible v ct : allowed v ct -> compatible v ct.
Proof.
  destruct ct as [f|]; simpl; auto. intros H x ts fs E. destruct (H x ts fs E) as (A & B).
  split; intros Hv.
  - destruct (A Hv) as (t & -> & Ht). apply Forall_forall. intros [y b] Hy. auto.
  - destruct (B Hv) as (t & -> & Ht). apply Forall_forall. intros [y b] Hy. auto.
Qed.

(** The run of simplify with the event detector on ([true]) either reports the
    event "a constant, neutral for its parent, replaced remaining siblings"
    or is exactly the real run ([false]). *)
Theorem C05_detector : forall k ord ct d n,
  simplify_f k true ord ct d n = simplify_f k false ord ct d n \/
  simplify_f k true ord ct d n = Err NeutralUpdate.
Proof. intros. apply simplify_sim. Qed.

(** Full claim: for every run  simplify_f k false ... = Ok r  the meaning is
    kept (refuted below).  Proved part: every run without that event. *)
Theorem C05_simplify_partial : forall k ord ct d n r v,
  wf n -> allowed v ct -> simplify_f k true ord ct d n = Ok r ->
  simplify_f k false ord ct d n = Ok r /\ eval v r = eval v n.
Proof.
  intros k ord ct d n r v W A H. split.
  - destruct (C05_detector k ord ct d n) as [E|E]; congruence.
  - apply (simplify_f_sound v ord ct (allowed_compatible _ _ A) k d n r H W).
Qed.
Example C05_ex : exists r, r <> Cst AND (-1) false /\ simplify_f 20 true surfs None 0
   (Seq AND 1 [Seq OR 0 [Lit 1; Lit 2]; Seq OR 0 [Lit 1; Lit 3]; Seq AND 0 [Lit 4; Lit (-1)]]) = Ok r.
Proof. eexists; split; [|vm_compute; reflexivity]. discriminate. Qed.

(** Ascending order, the order in which CPython iterates over a set of small
    ints. *)
Fixpoint insert_sorted (x : Z) (l : list Z) : list Z :=
  match l with [] => [x] | y :: r => if x <=? y then x :: l else y :: insert_sorted x r end.
Definition ascending (n : node) : list Z := fold_right insert_sorted [] (surfs n).

(** The definition ((-1:(-3 -2 -1):(1 2 -3):(1 2 -3)) (-2:3)) : ((-1:3) (-3:-2:-1) (-3:2))
    has points, simplify() returns False: the cell disappears. *)
Definition bad5 : node :=
  Seq OR 3
   [Seq AND 2 [Seq OR 1 [Seq OR 0 [Lit (-1)]; Seq AND 0 [Lit (-3); Lit (-2); Lit (-1)];
                         Seq AND 0 [Lit 1; Lit 2; Lit (-3)]; Seq AND 0 [Lit 1; Lit 2; Lit (-3)]];
               Seq OR 0 [Lit (-2); Lit 3]];
    Seq AND 1 [Seq OR 0 [Lit (-1); Lit 3]; Seq OR 0 [Lit (-3); Lit (-2); Lit (-1)];
               Seq OR 0 [Lit (-3); Lit 2]]].
Theorem C05_simplify_refuted :
  level_ok bad5 /\ wf bad5 /\ gr bad5 /\ no_const bad5 /\
  exists r v, simplify_f 20 false ascending None 0 bad5 = Ok r /\
    eval v bad5 = true /\ eval v r = false /\
    simplify_f 20 true ascending None 0 bad5 = Err NeutralUpdate.
Proof.
  split; [cbn; repeat (split || constructor || intros || discriminate || lia)|].
  split; [cbn; repeat (split || constructor || intros || discriminate || lia)|].
  split; [cbn; repeat (split || constructor || intros || discriminate || lia)|].
  split; [cbn; repeat (split || constructor || intros || discriminate || lia)|].
  eexists; exists (fun _ => false). repeat split; vm_compute; reflexivity.
Qed.

(** One Shannon factorisation step, with the value sets of the surface, keeps
    the meaning (same proviso). *)
Theorem C05_factorize_partial : forall v x ts fs n r,
  wf n -> 0 < x ->
  (v x = true -> exists t, ts = Some t /\ forall y b, In (y, b) t -> v (Z.abs y) = b) ->
  (v x = false -> exists t, fs = Some t /\ forall y b, In (y, b) t -> v (Z.abs y) = b) ->
  factorize true x ts fs n = Ok r -> eval v r = eval v n.
Proof.
  intros v x ts fs n r W Hx HT HF H. apply (factorize_sound v x ts fs n r H W Hx).
  split; intros Hv.
  - destruct (HT Hv) as (t & -> & Ht). apply Forall_forall. intros [y b] Hy. auto.
  - destruct (HF Hv) as (t & -> & Ht). apply Forall_forall. intros [y b] Hy. auto.
Qed.

(* ------------------------------------------------------------------ *)
(** * C06 termination *)

(** For every definition, order and table: the recursion ends (returns a value
    or raises), i.e. some recursion depth is enough, and more depth changes
    nothing. *)
Theorem C06_simplify_terminates : forall ord (ct : option (Z -> option (option vset * option vset))) d n,
  let ct' := match ct with
             | None => None
             | Some f => Some (fun x => match f x with Some p => Ok p | None => Err KeyError end)
             end in
  exists k, simplify_f k false ord ct' d n <> Fuel /\
    forall k', (k <= k')%nat -> simplify_f k' false ord ct' d n = simplify_f k false ord ct' d n.
Proof.
  intros ord ct d n ct'. destruct (simplify_terminates false ord ct') with (d := d) (n := n) as (k & Hk).
  - destruct ct as [f|]; simpl; auto. intros x. destruct (f x); discriminate.
  - exists k. split; auto. intros k' Hk'. apply simplify_mono_le; auto.
Qed.

(** Without a table and on definitions in the form the parser produces, simplify
    always returns a value: it never raises. *)
Theorem C06_simplify_returns : forall ord d n,
  wf n -> gr n -> is_seq n -> exists k r, simplify_f k false ord None d n = Ok r.
Proof. intros ord d n W G S. apply simplify_total; auto. Qed.
Example C06_ex : wf bad5 /\ gr bad5 /\ wf ex1 /\ gr ex1.
Proof.
  destruct C05_simplify_refuted as (_ & A & B & _). destruct ex1_ok as (C & D & _). auto.
Qed.

(* ------------------------------------------------------------------ *)
(** * C08 surface inventory *)

Theorem C08_surfaces_exact : forall n x,
  In x (surfs n) <-> exists z, In z (lits n) /\ Z.abs z = x.
Proof. exact surfs_spec. Qed.
Theorem C08_surfaces_nodup : forall n, NoDup (surfs n).
Proof. exact surfs_nodup. Qed.
Theorem C08_depends_only : forall v w n,
  (forall x, In x (surfs n) -> v x = w x) -> eval v n = eval w n.
Proof. exact eval_ext_surfs. Qed.
Example C08_ex : surfs ex1 = [1; 2; 3; 4; 5].
Proof. reflexivity. Qed.

(* ------------------------------------------------------------------ *)
(** * C09 auxiliary surfaces *)

Theorem C09_insert : forall v n t s op r, t <> 0 ->
  insert_in_sequence n t s op = Ok r ->
  eval v r = eval_with (fun z => if z =? t then
       match op with AND => lit_val v t && lit_val v s | OR => lit_val v t || lit_val v s end
     else lit_val v z) n.
Proof. exact insert_eval. Qed.
Theorem C09_insert_total : forall n t s op,
  is_seq n -> no_const n -> exists r, insert_in_sequence n t s op = Ok r.
Proof. exact insert_total. Qed.
(** [eval_with] is [eval] with the value of each literal given directly. *)
Theorem C09_eval_with : forall v n, eval v n = eval_with (lit_val v) n.
Proof. exact eval_eval_with. Qed.

(** All the cones of a cell: when every cone literal of the definition is in the
    list, the result is the definition in which each cone surface denotes one
    sheet ("outside" = outside the double cone or behind the apex plane). *)
Theorem C09_add_cone_plane : forall v sheet cones n r,
  NoDup (map fst cones) ->
  Forall (fun cp => fst cp <> 0 /\ snd cp <> 0) cones ->
  (forall c p, In c (map fst cones) -> In p (map snd cones) -> Z.abs c <> Z.abs p) ->
  (forall c p, In (c, p) cones -> sheet (Z.abs c) = Some p) ->
  (forall z, In z (lits n) -> sheet (Z.abs z) <> None -> In z (map fst cones)) ->
  add_cone_plane cones n = Ok r ->
  eval v r = eval (fun s => match sheet s with
                            | Some p => v s || negb (lit_val v p)
                            | None => v s end) n.
Proof. exact add_cone_plane_point. Qed.
Example C09_ex : exists r, add_cone_plane [(-2, 9); (3, 8)] ex1 = Ok r /\
  lits r = [1; -2; 9; 3; -8; 4; -5].
Proof. eexists; split; vm_compute; reflexivity. Qed.

Print Assumptions C01_complement.
Print Assumptions C02_join.
Print Assumptions C03_append.
Print Assumptions C04_evaluate.
Print Assumptions C05_simplify_partial.
Print Assumptions C05_simplify_refuted.
Print Assumptions C06_simplify_terminates.
Print Assumptions C06_simplify_returns.
Print Assumptions C08_depends_only.
Print Assumptions C09_add_cone_plane.
