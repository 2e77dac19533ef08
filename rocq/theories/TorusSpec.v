(** Vocabulary for the auxiliary surfaces of toroidal faces, written without the model's functions. *)
From Coq Require Import List Reals Relations Permutation.
From Verif Require Import Vec3 SurfCards AddPlaneSpec TorusAnnex.
Import ListNotations.
Open Scope R_scope.

(** the point of angle [u] around the axis and [v] around the tube of the torus of centre [C], axis
    [A] and radii [ro], [ri] *)
Definition torus_point (X Y A C : vec) (ro ri u v : R) : vec :=
  vadd (vadd C (vscale (ro + ri * cos v) (vadd (vscale (cos u) X) (vscale (sin u) Y)))) (vscale (ri * sin v) A).

(** distance to the line through [c] with unit direction [a] *)
Definition off_line (c a x : vec) : R := vlen (cross (vsub x c) a).
(** which side of an annex surface: negative below a plane, inside a cylinder, inside the sheet of
    a cone *)
Definition beyond (s : annex) (x : vec) : R :=
  match s with
  | NPlane c a => side c a x
  | NCyl c a r => off_line c a x - r
  | NCone p a t => off_line p a x - tan t * side p a x
  end.

(** a coordinate axis, either way *)
Definition coordinate (A : vec) : Prop := In A [EX; EY; EZ; vopp EX; vopp EY; vopp EZ].

(** the toroidal face [f] is on the torus (C, A, ro, ri), parametrised from [X] *)
Definition torus_face (f : tface) (X Y A C : vec) (ro ri : R) : Prop :=
  frame X Y A /\ coordinate A /\ 0 < ri < ro /\
  f = TFace A C ro (torus_point X Y A C ro ri).

(** two numbers are equal or at least [t] apart *)
Definition clear_cut (t a b : R) : Prop := a = b \/ t <= Rabs (a - b).

(** modulo full turns *)
Definition turn_between (a b u : R) : Prop := exists z : Z, a <= u + 2 * PI * IZR z <= b.
Definition turn_outside (a b u : R) : Prop := exists z : Z, b < u + 2 * PI * IZR z < a + 2 * PI.

(** the faces [i] and [j] of [l] are joined by a chain of near faces of [l] *)
Definition linked (near : nat -> nat -> bool) (l : list nat) : nat -> nat -> Prop :=
  clos_refl_trans nat (fun i j => In i l /\ In j l /\ near i j = true).

(** the groups of a list: a partition into the classes of linked faces *)
Definition classes (near : nat -> nat -> bool) (l : list nat) (gs : list (list nat)) : Prop :=
  Permutation (concat gs) l /\ forall g i, In g gs -> In i g -> forall j, In j g <-> linked near l i j.
Definition an_equivalence (same : nat -> nat -> bool) : Prop :=
  (forall a, same a a = true) /\ (forall a b, same a b = true -> same b a = true)
  /\ (forall a b c, same a b = true -> same b c = true -> same a c = true).

(** the angle [u] is in one of the ranges, modulo full turns *)
Definition covered (ranges : list (R * R)) (u : R) : Prop := exists p, In p ranges /\ turn_between (fst p) (snd p) u.
(** ranges of positive length in one turn from 0, no two of which overlap *)
Definition apart (ranges : list (R * R)) : Prop :=
  (forall p, In p ranges -> 0 <= fst p < snd p /\ snd p <= 2 * PI)
  /\ ForallOrdPairs (fun p q => snd p <= fst q \/ snd q <= fst p) ranges.
