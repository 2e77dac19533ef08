(** Properties C10-C15: constraint tables and void cells.
    Specification vocabulary: BoolSpec.v, CtSpec.v. *)
From Verif Require Import Prelude BoolSpec BoolSeq BoolProofs2 CtSpec Ctable CtableProofs CtBuild
  CtBuildProofs VoidCell VoidProofs PropsBool.

(* ------------------------------------------------------------------ *)
(** * C10 dependences *)

(** The value returned for "s1 is on side [p]" says exactly which sides of s2
    remain: none ("Null"), one (a bool) or both (None). *)
Definition says (e : ctval) (p : bool) (d : dval) : Prop :=
  match d with
  | DNull => forall q, ~ possible e p q
  | DVal c => forall q, possible e p q <-> q = c
  | DNone => forall q, possible e p q
  end.

(** Full claim: for every element.  Refuted for the two patterns in which s2 has
    always the side of s1, or always the other one; proved for all the others. *)
Theorem C10_dependence_partial : forall e T F,
  small_diag e -> ~ irregular e -> get_dependence e = Ok (T, F) ->
  says e true T /\ says e false F.
Proof. exact get_dependence_spec. Qed.
Theorem C10_dependence_total : forall e, e <> CNone -> exists p, get_dependence e = Ok p.
Proof. exact get_dependence_total. Qed.
Theorem C10_dependence_refuted : forall e, irregular e ->
  exists T F, get_dependence e = Ok (T, F) /\ ~ (says e true T /\ says e false F).
Proof.
  intros e [-> | ->]; do 2 eexists; (split; [reflexivity|]); intros [A B].
  - specialize (B false). simpl in B. intuition congruence.
  - specialize (A true). simpl in A. intuition congruence.
Qed.
Example C10_ex : get_dependence (CQuad true true true false) = Ok (DNone, DVal false) /\
  ~ irregular (CQuad true true true false).
Proof. split; [reflexivity|]. intros [E|E]; discriminate. Qed.

(** Transposition swaps the two surfaces. *)
Theorem C10_transpose : forall e e' p q, transpose e = Ok e' -> (possible e' q p <-> possible e p q).
Proof. exact transpose_spec. Qed.

(* ------------------------------------------------------------------ *)
(** * C11 constraint sets *)

Theorem C11_constraint_set : forall t v name ts fs,
  regular t -> in_box t v -> get_constraint_set t name = Ok (ts, fs) ->
  (v name = true -> exists s, ts = Some s /\ forall y b, In (y, b) s -> v y = b) /\
  (v name = false -> exists s, fs = Some s /\ forall y b, In (y, b) s -> v y = b).
Proof. exact get_constraint_set_sound. Qed.
Theorem C11_constraint_set_total : forall t name, full_tab t -> In name (keys t) ->
  exists p, get_constraint_set t name = Ok p.
Proof. exact get_constraint_set_total. Qed.

(** So every point of the box is allowed by the table in the sense of C05:
    simplify with the table keeps the definition inside the box. *)
Theorem C11_box_allowed : forall t v,
  regular t -> pos_keys t -> in_box t v -> allowed v (Some (get_constraint_set t)).
Proof.
  intros t v R PK B x ts fs H.
  destruct (get_constraint_set_agrees _ _ _ _ _ R PK B H) as (HT & HF).
  split; intros Hv; [specialize (HT Hv)|specialize (HF Hv)].
  - destruct ts as [s|]; [|destruct HT]. exists s. split; auto. intros y b I.
    unfold agrees_all in HT. rewrite Forall_forall in HT. apply (HT (y, b) I).
  - destruct fs as [s|]; [|destruct HF]. exists s. split; auto. intros y b I.
    unfold agrees_all in HF. rewrite Forall_forall in HF. apply (HF (y, b) I).
Qed.

(** A small complete table: the box is cut by 1 and 2, 2 lies inside 1, and 3 is
    positive in the whole box. *)
Definition tab1 : ctab :=
  [(1, [(1, CDiag 0); (2, CQuad true true true false); (3, CQuad true false false true)]);
   (2, [(2, CDiag 0); (1, CQuad true false true true); (3, CQuad true false false true)]);
   (3, [(3, CDiag 1); (1, CQuad true true false false); (2, CQuad true true false false)])].
(** A table with an irregular element: 2 has always the side of 1. *)
Definition tab2 : ctab :=
  [(1, [(1, CDiag 0); (2, CQuad true false true false)]);
   (2, [(2, CDiag 0); (1, CQuad true false true false)])].
Ltac tab_cases H :=
  unfold entry, tab1, tab2 in H; cbn [get] in H;
  repeat match type of H with
  | context [?a =? ?b] => destruct (Z.eqb_spec a b); subst; cbn [get] in H
  end; try discriminate; inversion H; subst; clear H.
Lemma tab1_ok : regular tab1 /\ pos_keys tab1 /\ full_tab tab1 /\
  in_box tab1 (fun s => s =? 3) /\ in_box tab1 (fun s => (s =? 1) || (s =? 3)).
Proof.
  split; [|split; [|split; [|split]]].
  - intros k1 k2 e H. tab_cases H; (split; [intros [E|E]; congruence|simpl; auto]).
  - intros k H. simpl in H. lia.
  - intros x y Hx Hy. simpl in Hx, Hy.
    destruct Hx as [<-|[<-|[<-|[]]]], Hy as [<-|[<-|[<-|[]]]]; eexists; (split; [reflexivity|discriminate]).
  - intros k1 k2 e H. tab_cases H; simpl; auto 8 with zarith; try (split; [reflexivity|]; auto; lia).
  - intros k1 k2 e H. tab_cases H; simpl; auto 8 with zarith; try (split; [reflexivity|]; auto; lia).
Qed.
Example C11_ex : get_constraint_set tab1 1 =
  Ok (Some [(1, true); (3, true)], Some [(1, false); (2, false); (3, true)]).
Proof. reflexivity. Qed.

(** With an irregular element (2 has the side of 1) the set reported for
    "1 negative" is wrong, and simplify deletes a cell that has points. *)
Theorem C11_irregular_refuted : exists v n r,
  in_box tab2 v /\ pos_keys tab2 /\ full_tab tab2 /\ wf n /\
  simplify_f 20 true surfs (Some (get_constraint_set tab2)) 0 n = Ok r /\
  eval v n = true /\ eval v r = false.
Proof.
  exists (fun _ => false), (Seq AND 0 [Lit (-1); Lit (-2)]). eexists.
  split; [|split; [|split; [|split; [|split; [vm_compute; reflexivity|split; reflexivity]]]]].
  - intros k1 k2 e H. tab_cases H; simpl; auto; split; auto.
  - intros k H. simpl in H. lia.
  - intros x y Hx Hy. simpl in Hx, Hy.
    destruct Hx as [<-|[<-|[]]], Hy as [<-|[<-|[]]]; eexists; (split; [reflexivity|discriminate]).
  - cbn. repeat (split || constructor || intros || discriminate || lia).
Qed.

(* ------------------------------------------------------------------ *)
(** * C12 completing and building the table *)

Theorem C12_fill_missing : forall t,
  NoDup (keys t) -> diag_ok t -> off_ok t ->
  exists t', fill_missing t = Ok t' /\ keys t' = keys t /\
    (forall v, in_box t v -> in_box t' v) /\
    (forall x y, In x (keys t) -> In y (keys t) -> entry t' x y <> None).
Proof.
  intros t ND D O. destruct (fill_missing_spec t ND D O) as (t' & F & K & _ & _ & B & C). eauto 10.
Qed.
Example C12_ex : exists t', fill_missing [(1, [(1, CDiag 0)]); (2, [(2, CDiag (-1))])] = Ok t' /\
  entry t' 2 1 = Some (CQuad false false true true).
Proof. eexists; split; vm_compute; reflexivity. Qed.

(** Building the table from the answers of the CAD kernel: a point of the box
    about which all answers are true is in the region described by the table;
    the table has exactly the given surfaces and, in "full" mode, every pair. *)
Theorem C12_build_sound : forall R cut side (mem : R -> point -> Prop) diag v sl t,
  (forall s d regs, cut s = (d, regs) ->
     possible (CDiag d) (v s) (v s) /\
     match regs with
     | None => True
     | Some (ps, ns) => if v s then exists r, In r ps /\ mem r v else exists r, In r ns /\ mem r v
     end) ->
  (forall r s, mem r v -> (if v s then fst (side r s) else snd (side r s)) = true) ->
  (forall s, In (fst (cut s)) [-1; 0; 1]) ->
  NoDup sl -> build_ctable R cut side diag sl = Ok t ->
  in_box t v /\ keys t = sl /\ (diag = false -> full_tab t).
Proof.
  intros R cut side mem diag v sl t CT ST SM ND H.
  destruct (build_ctable_spec R cut side mem diag v sl t CT ST) as (A & B & _ & _ & C); auto.
  intros s. specialize (SM s). simpl in *. intuition.
Qed.
(** It cannot crash if each surface that cuts the box leaves a piece on both sides... *)
Theorem C12_build_total : forall R cut side diag sl,
  (forall s, In (fst (cut s)) [-1; 0; 1]) -> NoDup sl -> sl <> [] ->
  (forall s d (ps ns : list R), cut s = (d, Some (ps, ns)) -> ps <> [] /\ ns <> []) ->
  exists t, build_ctable R cut side diag sl = Ok t.
Proof.
  intros R cut side diag sl SM ND NS NE. apply build_ctable_total; auto.
  intros s. specialize (SM s). simpl in *. intuition.
Qed.
(** ... but it does crash when all the pieces are found on one side
    (pos/neg is used before it is assigned, bs 309). *)
Theorem C12_build_refuted :
  build_ctable unit (fun s => (0, Some ([tt; tt], []))) (fun _ _ => (true, false)) false [1; 2]
  = Err UnboundLocal.
Proof. reflexivity. Qed.
Example C12_build_ex : exists t,
  build_ctable bool (fun s => (0, Some ([true], [false]))) (fun r s => (r, true)) false [1; 2] = Ok t /\
  entry t 2 1 = Some (CQuad true false true true).
Proof. eexists; split; reflexivity. Qed.

(* ------------------------------------------------------------------ *)
(** * C13 solid_in_box *)

Theorem C13_solid_in_box : forall ord diag t v n b n',
  regular t -> pos_keys t -> in_box t v -> wf n ->
  (forall m x, wf m -> In x (ord m) -> 0 < x) ->
  solid_in_box ord diag t n = Ok (Some b, n') -> eval v n = b.
Proof.
  intros ord diag t v n b n' R PK B W OP H.
  destruct (sib_sound _ _ _ _ _ _ _ R PK B W OP H) as (_ & Q). auto.
Qed.
Lemma surfs_order : forall m x, wf m -> In x (surfs m) -> 0 < x.
Proof. intros m x W H. eapply surfs_pos; eauto. Qed.
Example C13_ex : exists n',
  solid_in_box surfs false tab1 (Seq AND 0 [Lit (-3); Lit 1]) = Ok (Some false, n') /\
  solid_in_box surfs true tab1 (Seq OR 0 [Lit 3; Lit 1]) = Ok (Some true, Seq OR 0 [Lit 3; Lit 1]).
Proof. eexists; split; vm_compute; reflexivity. Qed.

(* ------------------------------------------------------------------ *)
(** * C14 remove_extra_surfaces *)

(** Full claim: for every run of the code ([strict = false]).  Proved: for the
    runs in which no sub-cell is found to be constant by check(); a strict run
    stops with [ConstSub] on that event and is the real run otherwise. *)
Theorem C14_remove_extra_partial : forall ord diag t op lev l r v,
  regular t -> pos_keys t -> in_box t v -> wf (Seq op lev l) ->
  (forall m x, wf m -> In x (ord m) -> 0 < x) ->
  remove_extra true ord diag t (Seq op lev l) = Ok r ->
  remove_extra false ord diag t (Seq op lev l) = Ok r /\ eval v r = eval v (Seq op lev l).
Proof.
  intros ord diag t op lev l r v R PK B W OP H. split.
  - apply remove_extra_strict; auto.
  - eapply remove_extra_sound; eauto.
Qed.
Example C14_ex : remove_extra true surfs false tab1
   (Seq OR 1 [Seq AND 0 [Lit 1; Lit (-2); Lit 3]; Seq AND 0 [Lit (-3); Lit 2]])
   = Ok (Seq OR 1 [Seq AND 0 [Lit 1; Lit (-2)]]).
Proof. vm_compute. reflexivity. Qed.

(** An impossible sub-cell (1 and -1) turns the whole cell into "covers the
    box"; a sub-cell that covers everything is dropped instead. *)
Theorem C14_constant_subcell_refuted :
  exists v n1 n2 r1 r2, in_box tab1 v /\ wf n1 /\ wf n2 /\
  remove_extra false surfs false tab1 n1 = Ok r1 /\ eval v n1 = false /\ eval v r1 = true /\
  remove_extra false surfs false tab1 n2 = Ok r2 /\ eval v n2 = true /\ eval v r2 = false.
Proof.
  exists (fun s => s =? 3),
    (Seq OR 1 [Seq AND 0 [Lit 1; Lit (-1)]; Seq AND 0 [Lit 1; Lit 2]]),
    (Seq OR 1 [Seq OR 0 [Lit 1; Lit (-1)]; Seq AND 0 [Lit 1; Lit 2]]).
  do 2 eexists. split; [apply tab1_ok|].
  do 2 (split; [cbn; repeat (split || constructor || intros || discriminate || lia)|]).
  repeat (split; [vm_compute; reflexivity|]). vm_compute; reflexivity.
Qed.
(** A union of two plain surfaces makes it crash. *)
Theorem C14_plain_union_refuted : forall ord diag t l z1 z2, 
  get_out_surfaces t = Ok l ->
  remove_extra false ord diag t (Seq OR 0 [Lit z1; Lit z2]) = Err AttributeError.
Proof. intros ord diag t l z1 z2 H. unfold remove_extra. rewrite H. reflexivity. Qed.

(* ------------------------------------------------------------------ *)
(** * C15 void cells *)

(** The void cell of a box (or of a piece of an enclosure, [encl]) is the box
    minus the solids, and "no cell" is returned only if the solids cover it.
    Full claim: for every run ([strict = false]).  Proved for the runs without
    the three events reported by the strict run (then it is the real run): a
    neutral constant found while simplifying (C05), a sub-cell found to be
    constant (C14), an intersection treated as the list of solids.  The point
    [w] outside the box: a box is not the whole space. *)
Theorem C15_void_partial : forall ord mk k m encl boxDef defs r v,
  (forall n x, wf n -> In x (ord n) -> 0 < x) ->
  wf boxDef -> is_seq boxDef -> Forall wf defs -> Forall is_seq defs ->
  (encl = false -> exists lev l, boxDef = Seq AND lev l) ->
  (forall sl t, mk sl = Ok t -> regular t /\ pos_keys t) ->
  (eval v boxDef = true \/ encl = true -> forall sl t, mk sl = Ok t -> in_box t v) ->
  (exists w, eval w boxDef = false /\ (encl = true -> forall sl t, mk sl = Ok t -> in_box t w)) ->
  get_void true k ord mk m encl boxDef defs = Ok r ->
  get_void false k ord mk m encl boxDef defs = Ok r /\
  match r with Some c => eval v c | None => false end = eval v boxDef && negb (existsb (eval v) defs).
Proof.
  intros. split; [apply get_void_strict; auto|eapply get_void_sound; eauto].
Qed.
(** In mode "no" no table is built, so nothing is asked about tables. *)
Theorem C15_void_no_partial : forall ord mk k boxDef defs r v lev l w,
  (forall n x, wf n -> In x (ord n) -> 0 < x) ->
  boxDef = Seq AND lev l -> wf boxDef -> Forall wf defs -> Forall is_seq defs ->
  eval w boxDef = false ->
  get_void true k ord mk SNo false boxDef defs = Ok r ->
  get_void false k ord mk SNo false boxDef defs = Ok r /\
  match r with Some c => eval v c | None => false end = eval v boxDef && negb (existsb (eval v) defs).
Proof.
  intros ord mk k boxDef defs r v lev l w OP -> WB WD SD Ew H.
  assert (E : forall mk' s, get_void s k ord mk' SNo false (Seq AND lev l) defs
                       = get_void s k ord mk SNo false (Seq AND lev l) defs) by reflexivity.
  split; [apply get_void_strict; auto|].
  rewrite <- (E (fun _ => Err TypeError)) in H.
  eapply get_void_sound with (mk := fun _ => Err TypeError); eauto; try discriminate; cbn; auto.
  exists w. split; auto. discriminate.
Qed.

(** Example: every surface cuts the box and nothing else is known. *)
Definition mk0 (sl : list Z) : res ctab :=
  build_ctable bool (fun s => (0, Some ([true], [false]))) (fun r s => (true, true)) false sl.
Definition box15 := Seq AND 0 [Lit 10; Lit (-11)].
Definition solid15 := Seq OR 1 [Seq AND 0 [Lit 1; Lit 2; Lit 10]; Seq AND 0 [Lit (-1); Lit 3]].
Example C15_ex :
  get_void true 20 ascending mk0 SNo false box15 [solid15] = Ok (Some
     (Seq AND 2 [Lit 10; Lit (-11); Seq AND 1 [Seq OR 0 [Lit 1; Lit (-3)]; Seq OR 0 [Lit (-10); Lit (-2); Lit (-1)]]])) /\
  get_void true 20 ascending mk0 SFull false box15 [solid15] = Ok (Some
     (Seq AND 2 [Seq AND 0 [Lit 10; Lit (-11)]; Seq AND 1 [Seq OR 0 [Lit (-1); Lit (-2)]; Seq OR 0 [Lit 1; Lit (-3)]]])) /\
  get_void true 20 ascending mk0 SFull true box15 [solid15; solid15] <> Err AndVoid /\
  wf box15 /\ wf solid15 /\ eval (fun _ => false) box15 = false.
Proof.
  do 3 (split; [vm_compute; try discriminate; reflexivity|]).
  do 2 (split; [cbn; repeat (split || constructor || intros || discriminate || lia)|]). reflexivity.
Qed.

(** The three events are reachable, and each gives a wrong void cell.
    (a) default mode: the void is lost (C05): *)
Definition solid15a : node := match get_complementary bad5 with Ok (c, _) => c | _ => bad5 end.
Theorem C15_lost_void_refuted :
  exists v, wf solid15a /\ get_void false 20 ascending mk0 SNo false box15 [solid15a] = Ok None /\
  eval v box15 = true /\ eval v solid15a = false /\
  get_void true 20 ascending mk0 SNo false box15 [solid15a] = Err NeutralUpdate.
Proof.
  exists (fun s => s =? 10).
  split; [vm_compute; repeat (split || constructor || intros || discriminate || lia)|].
  repeat (split; [vm_compute; reflexivity|]); vm_compute; reflexivity.
Qed.
(** (b) other modes: a single solid that is an intersection is treated as the
    union of its parts, so the void misses points outside the solid: *)
Definition solid15b := Seq AND 2 [Seq OR 1 [Seq AND 0 [Lit 1; Lit 2]; Seq AND 0 [Lit 3; Lit 4]]; Seq AND 0 [Lit 5; Lit 6]].
Theorem C15_intersection_refuted :
  exists v rd rf, wf solid15b /\
  get_void false 20 ascending mk0 SDiag false box15 [solid15b] = Ok (Some rd) /\
  get_void false 20 ascending mk0 SFull false box15 [solid15b] = Ok (Some rf) /\
  eval v box15 = true /\ eval v solid15b = false /\ eval v rd = false /\ eval v rf = false /\
  get_void true 20 ascending mk0 SFull false box15 [solid15b] = Err AndVoid.
Proof.
  exists (fun s => existsb (Z.eqb s) [10; 1; 2]). do 2 eexists.
  split; [vm_compute; repeat (split || constructor || intros || discriminate || lia)|].
  repeat (split; [vm_compute; reflexivity|]); vm_compute; reflexivity.
Qed.
(** (c) or the program stops: *)
Theorem C15_crash_refuted :
  get_void false 20 ascending mk0 SFull false box15 [Seq OR 0 [Lit 8; Lit 9]] = Err AttributeError /\
  get_void false 20 ascending mk0 SDiag false box15 [Seq AND 1 [Seq AND 0 [Lit 7; Lit 6]; Seq OR 0 [Lit 8; Lit 9]]] = Err AttributeError /\
  get_void false 20 ascending mk0 SDiag true box15 [Seq AND 0 [Lit 7; Lit 8]; Cst AND (-1) true] = Err TypeError.
Proof. repeat (split; [vm_compute; reflexivity|]); vm_compute; reflexivity. Qed.

Print Assumptions C10_dependence_partial.
Print Assumptions C11_constraint_set.
Print Assumptions C12_fill_missing.
Print Assumptions C12_build_sound.
Print Assumptions C13_solid_in_box.
Print Assumptions C14_remove_extra_partial.
Print Assumptions C15_void_partial.
Print Assumptions C15_void_no_partial.
