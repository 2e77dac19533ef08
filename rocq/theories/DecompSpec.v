(** Specification for C52: what the CAD kernel promises and what the decomposition
    of a solid should do. *)
From Coq Require Import QArith.
From Verif Require Import Prelude Decomp.

Section Spec.
  Context {Sh T : Type}.
  Variable C : cad Sh T.

  (** How many of the shapes hold the place that we look at. *)
  Definition count (inside : Sh -> bool) (l : list Sh) : nat := length (filter inside l).
  (** The place is in one of the slices of a shape that holds it, in none of another
      shape. *)
  Definition splits_exactly (inside : Sh -> bool) : Prop :=
    forall s tools tol l, slice C s tools tol = Some l -> count inside l = if inside s then 1%nat else 0%nat.
  (** Cutting ends: slices are not larger, and smaller if there are several. *)
  Definition shrinking (size : Sh -> nat) : Prop :=
    forall s tools tol l p, slice C s tools tol = Some l -> In p l ->
    (size p <= size s)%nat /\ ((1 < length l)%nat -> (size p < size s)%nat).
  (** The volumes of the slices add up. *)
  Fixpoint total (l : list Sh) : Q := match l with [] => 0%Q | s :: r => (vol C s + total r)%Q end.
  Definition additive : Prop :=
    forall s tools tol l, slice C s tools tol = Some l -> (total l == vol C s)%Q.
  (** Sliced with these tools at this tolerance, the shape stays in one piece. *)
  Definition uncut (tol : Q) (s : Sh) (tools : list T) : Prop :=
    forall l, slice C s tools tol = Some l -> (length l <= 1)%nat.
End Spec.
