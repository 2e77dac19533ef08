(** Specification: signed distances to the surfaces (negative inside), for unit axes. *)
From Verif Require Import Prelude Vec3 PrimSpec SurfCards SurfCardSpec Same.
Open Scope R_scope.

Definition sd_plane (p : dplane) (x : vec) : R := dot (d_axis p) (vsub x (d_pos p)).
Definition sd_sphere (c : vec) (r : R) (x : vec) : R := vlen (vsub x c) - r.
Definition sd_cyl (c v : vec) (r : R) (x : vec) : R := sqrt (dist2 c v x) - r.
Definition sd_torus (c v : vec) (ra rb : R) (x : vec) : R :=
  sqrt (axial2 c v x + (sqrt (dist2 c v x) - ra) ^ 2) - rb.
(** they have the sides of the surface *)
Definition signs (h : shape) (f : vec -> R) : Prop := forall x, (neg h x <-> f x < 0) /\ (pos h x <-> 0 < f x).
(** the cone has one sheet, in the direction of [v] *)
Definition sd_cone (c v : vec) (a : R) (x : vec) : R :=
  cos a * sqrt (dist2 c v x) - sin a * dot v (vsub x c).
