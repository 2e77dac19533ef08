(** Vocabulary for the auxiliary planes, written without the model's functions. *)
From Coq Require Import List Reals Relations.
From Verif Require Import Vec3.
Open Scope R_scope.

(** two angular ranges are near each other when they overlap or come within [tol] *)
Definition near (tol : R) (us : nat -> R * R) (k k' : nat) : Prop :=
  fst (us k') < snd (us k) + tol /\ fst (us k) < snd (us k') + tol.

(** the faces [k] and [k'] of the list are joined by a chain of near faces *)
Definition joined (tol : R) (us : nat -> R * R) (ks : list nat) : nat -> nat -> Prop :=
  clos_refl_trans nat (fun k k' => In k ks /\ In k' ks /\ near tol us k k').

(** ... or that meet, within [seam], after a full turn *)
Definition meets_turn (seam : R) (us : nat -> R * R) (k k' : nat) : Prop :=
  Rabs (snd (us k') - fst (us k) - 2 * PI) < seam \/ Rabs (snd (us k) - fst (us k') - 2 * PI) < seam.
Definition joined_turn (tol seam : R) (us : nat -> R * R) (ks : list nat) : nat -> nat -> Prop :=
  clos_refl_trans nat (fun k k' => In k ks /\ In k' ks /\ (near tol us k k' \/ meets_turn seam us k k')).

(** [X], [Y], [A]: a right-handed orthonormal frame *)
Definition frame (X Y A : vec) : Prop :=
  dot X X = 1 /\ dot Y Y = 1 /\ dot A A = 1 /\ dot X Y = 0 /\ dot X A = 0 /\ dot Y A = 0 /\ cross X Y = A.

(** the points of a cylinder and of a cone (apex, half angle) in that frame *)
Definition cyl_point (X Y A C : vec) (r u v : R) : vec :=
  vadd (vadd C (vscale r (vadd (vscale (cos u) X) (vscale (sin u) Y)))) (vscale v A).
Definition cone_point (X Y A apex : vec) (s u t : R) : vec :=
  vadd apex (vscale t (vadd (vscale (sin s) (vadd (vscale (cos u) X) (vscale (sin u) Y))) (vscale (cos s) A))).

(** side of the plane through [p] with normal [n] *)
Definition side (p n x : vec) : R := dot n (vsub x p).

(** a face as a set of points that is in one piece: a plane that misses it leaves it
    on one side, and so does its centre of mass *)
Record piece_of_surface (pts : vec -> Prop) (com : vec) : Prop := {
  piece_ne : exists x, pts x;
  piece_one : forall c n, (forall x, pts x -> side c n x <> 0) ->
     (forall x, pts x -> 0 < side c n x) \/ (forall x, pts x -> side c n x < 0);
  piece_com : forall c n, (forall x, pts x -> 0 < side c n x) -> 0 < side c n com;
  piece_com' : forall c n, (forall x, pts x -> side c n x < 0) -> side c n com < 0
}.
