(** Specification: what plane cards and planes mean (MCNP manual, surface cards
    P, PX, PY, PZ), independent of the code. *)
From Verif Require Import Vec3 Geom.
Open Scope R_scope.

(** Sense of a plane given by three points: A x + B y + C z = D contains the
    points, and the positive side is the one without the origin; for planes
    through the origin the one containing (0,0,inf), else (0,inf,0), else (inf,0,0). *)
Definition three_point_plane (p1 p2 p3 : vec) (n : vec) (d : R) : Prop :=
  n <> vzero /\ dot n p1 = d /\ dot n p2 = d /\ dot n p3 = d /\
  (0 < d \/ d = 0 /\ (0 < vz n \/ vz n = 0 /\ (0 < vy n \/ vy n = 0 /\ 0 < vx n))).

Definition collinear (p1 p2 p3 : vec) : Prop := cross (vsub p2 p1) (vsub p3 p1) = vzero.

(** [x] (in cm) is on the positive side of the card *)
Definition card_pos (c : card) (x : vec) : Prop :=
  match c with
  | CardX d => d < vx x
  | CardY d => d < vy x
  | CardZ d => d < vz x
  | CardP a b c d => d < a * vx x + b * vy x + c * vz x
  | Card3 p1 p2 p3 => exists n d, three_point_plane p1 p2 p3 n d /\ d < dot n x
  end.

(** positive side and locus of the CAD plane through [pos] with normal [axis]
    (lengths in mm) *)
Definition plane_pos (p : plane) (x : vec) : Prop := 0 < dot (axis p) (vsub x (pos p)).
Definition on_plane (p : plane) (x : vec) : Prop := dot (axis p) (vsub x (pos p)) = 0.
