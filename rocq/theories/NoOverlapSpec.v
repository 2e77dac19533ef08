(** Specification for C27. *)
From Verif Require Import Prelude BoolSpec BoolSeq NoOverlap.

(** The pieces of a cell: a definition that is an intersection is one piece with the box
    of the whole solid; a union has one piece per solid. *)
Definition pieces {B} (m : meta B) : list (B * node) :=
  match mdef m with
  | Some (Seq AND lev l) => [(mbox m, Seq AND lev l)]
  | Some (Seq OR _ l) => combine (parts m) l
  | _ => []
  end.
(** The point is in the cell. *)
Definition inside {B} (v : point) (m : meta B) : bool :=
  match mdef m with Some d => eval v d | None => false end.
(** A cell as cellDef builds it: it has a definition, one solid per member of the union,
    and every piece is an intersection. *)
Definition and_seq (n : node) : Prop := match n with Seq AND _ _ => True | _ => False end.
Definition built {B} (m : meta B) : Prop :=
  exists d, mdef m = Some d /\ wf d /\
  match d with
  | Seq AND _ _ => True
  | Seq OR _ l => length (parts m) = length l /\ Forall and_seq l
  | _ => False
  end.
(** The boxes hold the pieces, as far as the point [v] is concerned: it is not in two
    pieces whose boxes do not meet. *)
Definition boxes_hold {B} (meets : B -> B -> bool) (v : point) (ms : list (meta B)) : Prop :=
  forall m1 m2 p1 p2, In m1 ms -> In m2 ms -> In p1 (pieces m1) -> In p2 (pieces m2) ->
  eval v (snd p1) = true -> eval v (snd p2) = true -> meets (fst p1) (fst p2) = true.
(** The i-th cell minus the cells before it. *)
Definition minus_previous {B} (v : point) (ms : list (meta B)) (i : nat) : bool :=
  match nth_error ms i with
  | Some m => inside v m && negb (existsb (inside v) (firstn i ms))
  | None => false
  end.

(** A piece as cellDef writes it: surfaces, and unions of surfaces for the cylinders or
    cones seen from outside. *)
Definition tidy_child (n : node) : Prop := match n with Seq AND lev _ => lev = 0 | Seq OR _ _ => True | _ => False end.
Definition tidy (n : node) : Prop :=
  wf n /\ no_const n /\ match n with Seq AND lev l => lev = 0 \/ Forall tidy_child l | _ => False end.
Definition neat {B} (m : meta B) : Prop :=
  exists d, mdef m = Some d /\
  match d with
  | Seq AND _ _ => tidy d
  | Seq OR _ l => length (parts m) = length l /\ Forall tidy l
  | _ => False
  end.
