(** Specification: sides of surfaces at a place, and dictionaries obtained by
    additions and look-ups. *)
From Coq Require Import QArith.
From Verif Require Import Prelude BoolSpec SurfDict VoidBoxes BoxDef.
Open Scope Z_scope.

(** The positive side of an axis plane (where its normal points); the plane
    itself belongs to the side of growing coordinates. *)
Definition plane_side (p : place) (q : plane) : bool :=
  if pdir q then Qle_bool (pco q) (p (paxis q)) else Qltb (p (paxis q)) (pco q).

Section Sides.
  Variable T : Type.
  Variable sideT : T -> bool.
  Variable cls : surface T -> key.
  Variable same : surface T -> surface T -> bool.
  Definition side (p : place) (s : surface T) : bool :=
    match s with inl q => plane_side p q | inr t => sideT t end.
  (** [v] gives every numbered surface its side at [p]. *)
  Definition agrees (p : place) (v : point) (d : sdict (surface T)) : Prop :=
    forall k s, In s (group d k) -> v (index s) = side p (geo s).
  (** obtained from the empty dictionary by additions and look-ups *)
  Definition reachable (o : Z) (d : sdict (surface T)) : Prop :=
    exists h, (forall i, ~ In (Del i) h) /\ run (surface T) cls same h (empty o) = Ok d.
  (** An axis plane is found to be the same only as the same axis plane, possibly
      with the opposite normal (exact comparison, no tolerance). *)
  Definition exact_planes : Prop := forall q s, same (inl q) s = true ->
    exists q', s = inl q' /\ paxis q' = paxis q /\ (pco q' == pco q)%Q.
End Sides.

(** The sphere around a box: centre of the box, radius 0.51 times its diagonal
    (void.py 184-186); squares of distances. *)
Definition center (b : box) : place := fun a => ((1#2) * (lo b a + hi b a))%Q.
Definition sq (x : Q) : Q := (x * x)%Q.
Definition dist2 (p c : place) : Q := (sq (p AX - c AX) + sq (p AY - c AY) + sq (p AZ - c AZ))%Q.
Definition diag2 (b : box) : Q := (sq (len b AX) + sq (len b AY) + sq (len b AZ))%Q.
Definition in_sphere (b : box) (p : place) : bool :=
  Qle_bool (dist2 p (center b)) (sq (51#100) * diag2 b).
