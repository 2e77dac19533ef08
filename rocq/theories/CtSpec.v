(** Specification: what a constraint table says about the points of a box.
    Independent of the algorithms on tables. *)
From Verif Require Import Prelude BoolSpec.

(** Value of a table element, /repo/src/geouned/GEOUNED/utils/boolean_solids.py
    18-31: None, an int (diagonal element: 1 the box is on the positive side of
    the surface, -1 on the negative side, 0 on both), or four flags telling
    which combinations of sides exist in the box, in the order
    (s1,s2), (s1,-s2), (-s1,-s2), (-s1,s2)  (boolean_solids.py 308). *)
Inductive ctval :=
| CNone
| CDiag (d : Z)
| CQuad (pp pm mm mp : bool).

(** Sides [p] of s1 and [q] of s2 are possible according to the element. *)
Definition possible (e : ctval) (p q : bool) : Prop :=
  match e with
  | CNone => True
  | CDiag d => p = q /\ (d = 0 \/ (d > 0 /\ p = true) \/ (d < 0 /\ p = false))
  | CQuad pp pm mm mp => (match p, q with
                          | true, true => pp | true, false => pm
                          | false, false => mm | false, true => mp end) = true
  end.

(** A table is a dict of dicts, insertion ordered. *)
Definition row := list (Z * ctval).
Definition ctab := list (Z * row).

Fixpoint get {A} (k : Z) (l : list (Z * A)) : option A :=
  match l with
  | [] => None
  | (x, a) :: r => if x =? k then Some a else get k r
  end.
Definition entry (t : ctab) (k1 k2 : Z) : option ctval :=
  match get k1 t with Some r => get k2 r | None => None end.

(** Points of the region described by the table. *)
Definition in_box (t : ctab) (v : point) : Prop :=
  forall k1 k2 e, entry t k1 k2 = Some e -> possible e (v k1) (v k2).

(** The two sidedness patterns on which the code is wrong: s2 has always the
    side of s1, or always the other side. *)
Definition irregular (e : ctval) : Prop :=
  e = CQuad true false true false \/ e = CQuad false true false true.
Definition small_diag (e : ctval) : Prop :=
  match e with CDiag d => d = -1 \/ d = 0 \/ d = 1 | _ => True end.

Definition keys (t : ctab) := map fst t.

(** Well-shaped table: distinct keys, and each key has its diagonal element. *)
Definition diag_ok (t : ctab) : Prop :=
  forall k, In k (keys t) -> exists d, entry t k k = Some (CDiag d) /\ small_diag (CDiag d).
Definition off_ok (t : ctab) : Prop :=
  forall k1 k2 e, k1 <> k2 -> entry t k1 k2 = Some e -> exists a b c d, e = CQuad a b c d.

(** No element has one of the two patterns. *)
Definition regular (t : ctab) : Prop := forall k1 k2 e, entry t k1 k2 = Some e -> ~ irregular e /\ small_diag e.

(** Every pair of surfaces of the table has an element. *)
Definition full_tab (t : ctab) : Prop :=
  forall x y, In x (keys t) -> In y (keys t) -> exists e, entry t x y = Some e /\ e <> CNone.
(** Keys of a table are surface numbers. *)
Definition pos_keys (t : ctab) : Prop := forall k, In k (keys t) -> 0 < k.

