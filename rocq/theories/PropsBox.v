(** Property C16: void cells and graveyard cells fill what the solids leave. *)
From Coq Require Import QArith.
From Verif Require Import Prelude BoolSpec BoolSeq BoolProofs BoolProofs2 CtSpec Ctable VoidCell VoidProofs SurfDict SurfDictProofs
  VoidBoxes VoidBoxSpec VoidBoxProofs VoidLoopProofs BoxDef BoxSpec BoxDefProofs VoidAll VoidAllProofs PropsBool.
Open Scope Z_scope.

(* ------------------------------------------------------------------ *)
(** * One split *)
Theorem C16_split : forall m b b1 b2, (0 <= m)%Q -> split m b = Some (b1, b2) ->
  (forall p, inside b p <-> inside b1 p \/ inside b2 p) /\
  (forall p, interior b1 p -> interior b2 p -> False) /\
  (forall p, interior b1 p \/ interior b2 p -> interior b p).
Proof. exact split_inside. Qed.
(** A box is split as long as one of its sides is at least twice the smallest size. *)
Theorem C16_split_when : forall m b, split m b = None <-> forall a, (len b a < 2 * m)%Q.
Proof.
  intros m b. pose proof (split_spec m b) as S. destruct (split m b) as [[b1 b2]|]; split; try discriminate; auto.
  - destruct S as (a & L & _). intros H. specialize (H a). exfalso. revert L H. clear. intros L H.
    apply (Qlt_not_le _ _ H). apply (Qmult_le_l _ _ (1#2)); [reflexivity|]. ring_simplify. ring_simplify in L. exact L.
  - intros _ a. specialize (S a). apply (Qmult_lt_l _ _ (1#2)); [reflexivity|]. ring_simplify. ring_simplify in S. exact S.
Qed.
Definition cube (x : Q) : box := Box (fun _ => 0%Q) (fun _ => x).
Example C16_split_ex : split 200 (cube 399) = None /\ split 200 (cube 400) <> None.
Proof. split; [reflexivity|discriminate]. Qed.

(* ------------------------------------------------------------------ *)
(** * The planes of a box *)

(** Whatever is already registered, in whatever direction: the definition of a
    box is true exactly at the places of the (half open) box. *)
Theorem C16_box_definition : forall T sideT cls same o p v b d,
  0 <= o -> exact_planes T same -> reachable T cls same o d -> (forall a, (0 < len b a)%Q) ->
  exists d' n, box_def T cls same b d = Ok (d', n) /\ reachable T cls same o d' /\
    (agrees T sideT p v d' -> eval v n = halfb b p).
Proof.
  intros T sideT cls same o p v b d Ho Hs R L.
  destruct (box_def_spec T sideT cls same o Ho Hs p v b d L R) as (d' & l & E & R' & _ & _ & A).
  exists d', (Seq AND 0 l). split; auto. split; auto. intros AG. apply A; auto.
Qed.

(** A concrete dictionary: other surfaces are numbers, their side is given. *)
Definition cls0 (s : surface nat) : key :=
  match s with inl q => match paxis q with AX => PX | AY => PY | AZ => PZ end | inr _ => Sph end.
Definition same0 (s t : surface nat) : bool :=
  match s, t with
  | inl q, inl q' => axis_eqb (paxis q) (paxis q') && Qeq_bool (pco q) (pco q')
  | inr n, inr n' => Nat.eqb n n'
  | _, _ => false
  end.
Lemma same0_exact : exact_planes nat same0.
Proof.
  intros q [q'|n] H; [|discriminate]. cbn in H. apply andb_prop in H. destruct H as (A & B). exists q'. split; auto.
  destruct (axis_eqb_spec (paxis q) (paxis q')); [|discriminate]. split; auto. apply Qeq_bool_iff in B. symmetry. exact B.
Qed.
(** sides read in the dictionary *)
Definition all_surfs {S} (d : sdict S) : list (surf S) := flat_map (group d) all_keys.
Definition read (sideT : nat -> bool) (p : place) (d : sdict (surface nat)) : point := fun i =>
  match find (fun s => index s =? i) (all_surfs d) with Some s => side nat sideT p (geo s) | None => false end.
Definition agreesb sideT p (v : point) (d : sdict (surface nat)) : bool :=
  forallb (fun s => eqb (v (index s)) (side nat sideT p (geo s))) (all_surfs d).
Lemma agreesb_ok sideT p v d : agreesb sideT p v d = true -> agrees nat sideT p v d.
Proof.
  intros H k s I. unfold agreesb in H. rewrite forallb_forall in H. apply eqb_prop, H. unfold all_surfs.
  apply in_flat_map. exists k. split; auto. destruct k; cbn; auto 10.
Qed.
(** a plane z = 1 with the opposite normal is already there *)
Definition d16 : sdict (surface nat) := fst (add _ cls0 same0 (inl (Plane AZ true 1%Q)) (empty 0)).
Example C16_box_definition_ex : exists d' v, box_def nat cls0 same0 (cube 1) d16 =
    Ok (d', Seq AND 0 [Lit 2; Lit 3; Lit 4; Lit 5; Lit 6; Lit (-1)]) /\
  reachable nat cls0 same0 0 d16 /\ agrees nat (fun _ => false) (fun _ => (1#2)%Q) v d'.
Proof.
  eexists. exists (read (fun _ => false) (fun _ => (1#2)%Q) (match box_def nat cls0 same0 (cube 1) d16 with Ok (d, _) => d | _ => d16 end)).
  split; [vm_compute; reflexivity|]. split.
  - exists [Add (inl (Plane AZ true 1%Q))]. split; [intros i [H|[]]; discriminate|reflexivity].
  - apply agreesb_ok. vm_compute. reflexivity.
Qed.

(* ------------------------------------------------------------------ *)
(** * All void cells *)

(** get_void_def for the outer box [u] (level 0): a place of the box that is in no
    solid is in exactly one void cell, any other place in none, provided the box
    holds fewer than 2^50 cubes of the smallest size.  Full claim: for every run;
    proved for runs without the events of C15 (ghost run [strict = true], then it
    is the real run).  Asked of the solids ([aligned]): they lie in their bounding
    boxes, piece by piece.  Asked of the tables of modes diag/full: true at [p]
    when [p] is in the box (see C12, C13). *)
Theorem C16_void_cells_partial : forall T sideT cls same o p v k ord mk mode maxsurf maxbracket minSize ms u d d' vs rest,
  0 <= o -> exact_planes T same -> reachable T cls same o d ->
  (forall n x, wf n -> In x (ord n) -> 0 < x) ->
  (forall b d sl t, mk b d sl = Ok t -> regular t /\ pos_keys t) ->
  (forall b d sl t, mk b d sl = Ok t -> agrees T sideT p v d -> halfb b p = true -> in_box t v) ->
  (0 < minSize)%Q -> (forall a, (0 < len u a)%Q) -> Forall (aligned p v) ms ->
  (weight minSize u < inject_Z (2 ^ 50) * (minSize * minSize * minSize))%Q ->
  void_level0 T cls same true k ord mk mode maxsurf maxbracket minSize ms u d = Ok (d', (vs, rest)) ->
  void_level0 T cls same false k ord mk mode maxsurf maxbracket minSize ms u d = Ok (d', (vs, rest)) /\
  (agrees T sideT p v d' ->
    length (filter (eval v) vs) = if halfb u p && negb (existsb (fun m => eval v (mdef m)) ms) then 1%nat else 0%nat).
Proof.
  intros T sideT cls same o p v k ord mk mode maxsurf maxbracket minSize ms u d d' vs rest Ho Hs R OP MK BX MS U A W H.
  destruct (void_level0_spec T sideT cls same o Ho Hs p v k ord OP mk MK BX mode maxsurf maxbracket minSize MS ms u d d' vs rest R U A H)
    as (HF & _ & C). split; auto. intros AG. destruct (C AG) as (_ & C').
  rewrite (void_level0_none_dropped T cls same k ord mk mode maxsurf maxbracket minSize MS true ms u d d' vs rest W H) in C'.
  unfold count, solid in C'. cbn [filter length] in C'. rewrite andb_comm, <- C'.
  destruct (existsb (fun m => eval v (mdef m)) ms); lia.
Qed.

(** Together with the two outer cells: every place of space is in exactly one
    void cell or in a solid of the box. *)
Theorem C16_everywhere_partial : forall T sideT cls same o p v k ord mk mode maxsurf maxbracket minSize ms u sph d d1 d' vs rest inn out,
  0 <= o -> exact_planes T same -> reachable T cls same o d ->
  (forall s, same (inr sph) s = true -> exists t, s = inr t /\ sideT t = sideT sph) ->
  sideT sph = negb (in_sphere u p) ->
  (forall n x, wf n -> In x (ord n) -> 0 < x) ->
  (forall b d sl t, mk b d sl = Ok t -> regular t /\ pos_keys t) ->
  (forall b d sl t, mk b d sl = Ok t -> agrees T sideT p v d -> halfb b p = true -> in_box t v) ->
  (0 < minSize)%Q -> (forall a, (0 < len u a)%Q) -> Forall (aligned p v) ms ->
  (weight minSize u < inject_Z (2 ^ 50) * (minSize * minSize * minSize))%Q ->
  void_level0 T cls same true k ord mk mode maxsurf maxbracket minSize ms u d = Ok (d1, (vs, rest)) ->
  graveyard T cls same u sph d1 = Ok (d', (inn, out)) ->
  agrees T sideT p v d' ->
  (length (filter (eval v) (vs ++ [inn; out])) +
    (if halfb u p && existsb (fun m => eval v (mdef m)) ms then 1 else 0) = 1)%nat.
Proof.
  intros T sideT cls same o p v k ord mk mode maxsurf maxbracket minSize ms u sph d d1 d' vs rest inn out
    Ho Hs R SS SB OP MK BX MS U A W H G AG.
  destruct (void_level0_spec T sideT cls same o Ho Hs p v k ord OP mk MK BX mode maxsurf maxbracket minSize MS ms u d d1 vs rest R U A H)
    as (_ & R1 & _).
  destruct (graveyard_spec T sideT cls same o Ho Hs p v u sph d1 R1 SS SB) as (d2 & i2 & o2 & G2 & _ & C2).
  rewrite G in G2. injection G2 as <- <- <-. destruct (C2 AG) as (AG1 & EI & EO).
  destruct (C16_void_cells_partial T sideT cls same o p v k ord mk mode maxsurf maxbracket minSize ms u d d1 vs rest
    Ho Hs R OP MK BX MS U A W H) as (_ & C). specialize (C AG1).
  rewrite filter_app, app_length, C. cbn [filter]. rewrite EI, EO.
  pose proof (box_in_sphere p u) as IS.
  destruct (halfb u p); [rewrite IS by auto|]; destruct (in_sphere u p); destruct (existsb (fun m => eval v (mdef m)) ms); reflexivity.
Qed.

(** Example: a solid (surfaces 1 2, in the cube [1,2]^3) in a box of side 8; more
    than one surface is too complex, so the box is split. *)
Definition upd_box (a b : Q) : box := Box (fun _ => a) (fun _ => b).
Definition m16 : meta := Meta 1 (Some (upd_box 1 2)) (Some [upd_box 1 2]) (Seq AND 0 [Lit 1; Lit 2]) 2 false.
Definition dn (n : nat) : sdict (surface nat) :=
  fold_left (fun d i => fst (add _ cls0 same0 (inr i) d)) (seq 0 n) (empty 0).
Definition mkno (_ : box) (_ : sdict (surface nat)) (_ : list Z) : res ctab := Err TypeError.
Definition r16 := void_level0 nat cls0 same0 true 20 ascending mkno SNo 1 0 1 [m16] (cube 8) (dn 2).
Definition p16 : place := fun _ => (3#2)%Q.
Definition check16 (r : res (sdict (surface nat) * (list node * list (vbox Empty_set)))) : bool :=
  match r with
  | Ok (d', (vs, [])) => let v := read (fun n => Nat.eqb n 0) p16 d' in
      agreesb (fun n => Nat.eqb n 0) p16 v d' && Nat.eqb (length (filter (eval v) vs)) 1 && negb (eval v (mdef m16)) && Nat.eqb (length vs) 49
  | _ => false
  end.
Lemma m16_aligned p v : eval v (mdef m16) = false -> aligned p v m16.
Proof.
  intros F. split; [split; [cbn; repeat (split || constructor || intros || discriminate || lia)|exact I]|].
  split; [congruence|].
  intros _. exists AND, 0, [Lit 1; Lit 2], [upd_box 1 2]. split; auto. split; auto. right. eexists; split; [reflexivity|].
  split; [discriminate|]. congruence.
Qed.
Example C16_ex : exists d' vs v, r16 = Ok (d', (vs, [])) /\ agrees nat (fun n => Nat.eqb n 0) p16 v d' /\
  length vs = 49%nat /\ length (filter (eval v) vs) = 1%nat /\ halfb (cube 8) p16 = true /\ aligned p16 v m16 /\
  reachable nat cls0 same0 0 (dn 2) /\ (weight 1 (cube 8) < inject_Z (2 ^ 50))%Q.
Proof.
  assert (C : check16 r16 = true) by (vm_compute; reflexivity).
  destruct r16 as [[d' [vs [|z rest]]]| |]; [|discriminate..]. cbn [check16] in C.
  apply andb_prop in C. destruct C as (C & C4). apply andb_prop in C. destruct C as (C & C3). apply andb_prop in C. destruct C as (C1 & C2).
  exists d', vs, (read (fun n => Nat.eqb n 0) p16 d'). split; auto. split; [apply agreesb_ok; auto|].
  split; [apply Nat.eqb_eq; auto|]. split; [apply Nat.eqb_eq; auto|]. split; [vm_compute; reflexivity|].
  split; [apply m16_aligned, negb_true_iff; auto|]. split; [|vm_compute; reflexivity].
  exists [Add (inr 0%nat); Add (inr 1%nat)]. split; [intros i [H|[H|[]]]; discriminate|reflexivity].
Qed.

(** Beyond the bound the limit of 50 turns (void.py 125) loses void: a solid too
    complex near a corner of a very long box. *)
Definition u50 : box := Box (fun _ => 0%Q) (fun a => match a with AX => inject_Z (2 ^ 51) | _ => 1%Q end).
Definition bx50 : box := Box (fun a => match a with AX => 1%Q | _ => 0%Q end) (fun a => match a with AX => 2%Q | _ => 1%Q end).
Definition m50 : meta := Meta 1 (Some bx50) (Some [bx50]) (Seq AND 0 [Lit 1; Lit 2]) 2 false.
Definition r50 := void_level0 nat cls0 same0 false 20 ascending mkno SNo 1 0 1 [m50] u50 (dn 2).
Definition p50 : place := fun a => match a with AX => (3#2)%Q | _ => (1#2)%Q end.
(** all facts, computed at once *)
Definition check50 (r : res (sdict (surface nat) * (list node * list (vbox Empty_set)))) : bool :=
  match r with
  | Ok (d', (vs, _)) => let v := read (fun n => Nat.eqb n 0) p50 d' in
      agreesb (fun n => Nat.eqb n 0) p50 v d' && negb (existsb (eval v) vs) && negb (eval v (mdef m50)) && Nat.eqb (length vs) 49
  | _ => false
  end.
Theorem C16_turns_refuted : exists d' vs rest v, r50 = Ok (d', (vs, rest)) /\ agrees nat (fun n => Nat.eqb n 0) p50 v d' /\
  halfb u50 p50 = true /\ eval v (mdef m50) = false /\ (forall c, In c vs -> eval v c = false) /\ length vs = 49%nat.
Proof.
  assert (C : check50 r50 = true) by (vm_compute; reflexivity).
  destruct r50 as [[d' [vs rest]]| |]; [|discriminate..]. cbn [check50] in C.
  apply andb_prop in C. destruct C as (C & C4). apply andb_prop in C. destruct C as (C & C3). apply andb_prop in C. destruct C as (C1 & C2).
  exists d', vs, rest, (read (fun n => Nat.eqb n 0) p50 d'). split; auto. split; [apply agreesb_ok; auto|].
  split; [vm_compute; reflexivity|]. apply negb_true_iff in C2, C3. split; auto. split; [|apply Nat.eqb_eq; auto].
  intros c I. destruct (eval _ c) eqn:EC; auto. rewrite <- C2. symmetry. apply existsb_exists. eauto.
Qed.

(* ------------------------------------------------------------------ *)
(** * Enclosures: pieces of CAD *)

(** The loop on an enclosure [e0]: same result, if each void cell is right for its
    region, if the answers of the CAD kernel are right and if no intersection of
    a box and a piece has several solids.  [E]: pieces, [pin]: is [p] in it. *)
Theorem C16_enclosure_partial : forall E bb common maxsurf maxbracket minSize p v pin D void (Ag : D -> Prop) ms e0 d d' vs rest,
  (0 < minSize)%Q ->
  (forall e, pin e = true -> inside (bb e) p /\ halfb (bb e) p = true) ->
  (forall e b, match common e b with
    | Far => pin e && halfb b p = false
    | Whole => (forall a, (0 < len b a)%Q) /\ (halfb b p = true -> pin e = true)
    | Common l => (length l <= 1)%nat /\ pin e && halfb b p = existsb pin l
    end) ->
  (forall z d d' c, Forall (aligned p v) (vobj z) -> void z d = Ok (d', c) -> Ag d' -> Ag d /\
     match c with Some c => eval v c | None => false end =
       match vreg z with RBox b => halfb b p | RPiece e => pin e end && negb (existsb (fun m => eval v (mdef m)) (vobj z))) ->
  Forall (aligned p v) ms ->
  get_void_def E bb common maxsurf maxbracket minSize D void ms (RPiece e0) d = Ok (d', (vs, rest)) -> rest = [] -> Ag d' ->
  length (filter (eval v) vs) = if pin e0 && negb (existsb (fun m => eval v (mdef m)) ms) then 1%nat else 0%nat.
Proof.
  intros E bb common maxsurf maxbracket minSize p v pin D void Ag ms e0 d d' vs rest HM HB HC HV A H -> AG.
  eapply (get_void_def_count E bb common maxsurf maxbracket minSize p v pin HM HB HC (solid v ms) D void (fun _ => True) Ag) in H;
    try exact Logic.I; auto.
  - destruct H as (_ & H). destruct (H AG) as (_ & C). unfold count, solid, rin in C. cbn [filter length] in C.
    rewrite andb_comm, <- C. destruct (existsb (fun m => eval v (mdef m)) ms); lia.
  - intros z d0 d1 c (G & _) _ X. split; auto. intros AG1. apply (HV z d0 d1 c); auto.
Qed.

(** Two solids in an intersection: only the first is kept (vb 147-148), the void
    of the other is lost.  Pieces: 0 = the enclosure, 1 and 2 its parts in the
    lower half box; cell [Lit (n+1)] stands for piece n. *)
Definition com2 (e : nat) (b : box) : cut nat :=
  if Nat.eqb e 0 && Qle_bool (hi b AX) 200 then Common [1%nat; 2%nat] else Far.
Definition void2 (z : vbox nat) (d : unit) : res (unit * option node) :=
  Ok (d, match vreg z with RPiece e => Some (Lit (Z.of_nat e + 1)) | RBox _ => None end).
Definition far16 : meta := Meta 1 (Some (upd_box 300 400)) (Some [upd_box 300 400]) (Seq AND 0 [Lit 1; Lit 2]) 2 false.
Theorem C16_two_solids_refuted :
  get_void_def nat (fun e => if Nat.eqb e 0 then cube 400 else cube 100) com2 1 0 100 unit void2 [far16] (RPiece 0%nat) tt = Ok (tt, ([Lit 2], [])).
Proof. vm_compute. reflexivity. Qed.

(* ------------------------------------------------------------------ *)
(** * Pieces of a solid that are not in the order of its definition *)

(** remove_extra_comp (vb 455-481) drops the i-th term of the definition when the
    i-th piece does not meet the box.  With one term fewer (a term removed by a
    simplification) it stops; with other orders it drops the wrong term, and the
    void cell overlaps the solid. *)
Definition pieces2 (d : node) : meta := Meta 1 (Some (upd_box 0 4)) (Some [upd_box 0 1; upd_box 3 4]) d 2 false.
Theorem C16_missing_term_refuted :
  box_objects (upd_box 2 5) [pieces2 (Seq OR 1 [Seq AND 0 [Lit 1; Lit 2]])] = Err IndexError.
Proof. vm_compute. reflexivity. Qed.
Theorem C16_term_order_refuted : exists m v, box_objects (upd_box 2 5) [m] =
    Ok [Meta 1 (Some (upd_box 3 4)) (Some [upd_box 3 4]) (Seq OR 1 [Seq AND 0 [Lit (-1); Lit 3]]) 2 false] /\
  eval v (mdef m) = true /\ eval v (Seq OR 1 [Seq AND 0 [Lit (-1); Lit 3]]) = false.
Proof.
  exists (pieces2 (Seq OR 1 [Seq AND 0 [Lit 1; Lit 2]; Seq AND 0 [Lit (-1); Lit 3]])), (fun _ => true).
  split; [vm_compute; reflexivity|]. split; vm_compute; reflexivity.
Qed.

Print Assumptions C16_split.
Print Assumptions C16_split_when.
Print Assumptions C16_box_definition.
Print Assumptions C16_void_cells_partial.
Print Assumptions C16_everywhere_partial.
Print Assumptions C16_enclosure_partial.
