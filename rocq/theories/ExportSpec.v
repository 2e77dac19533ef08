(** Specification vocabulary for exported geometries. *)
From Verif Require Import Prelude BoolSpec SurfDict Vec3 Geom GeomSpec Export.
Open Scope R_scope.

(** The surfaces of the model other than planes: [other k] tells whether the point
    is on the positive side of surface [k]. *)
Definition geom_pos (other : Z -> bool) (x : vec) (g : geom) : Prop :=
  match g with GPlane p => plane_pos p x | GOther k => other k = true end.
(** [v] gives the side of the point [x] (in mm) for every surface of the model *)
Definition cad_sides (other : Z -> bool) (x : vec) (d : sdict geom) (v : point) : Prop :=
  forall k s, In s (group d k) -> (v (index s) = true <-> geom_pos other x (geo s)).
(** [v] gives the side of the point [x] for every surface card of a file (in cm) *)
Definition card_sides (other : Z -> bool) (x : vec) (cards : list (Z * ocard)) (v : point) : Prop :=
  forall i c, In (i, c) cards ->
    (v i = true <-> match c with OPlane c => card_pos c (vscale (1/10) x) | OOther k => other k = true end).
(** the point is on no plane of the model *)
Definition off_planes (x : vec) (d : sdict geom) : Prop :=
  forall k s p, In s (group d k) -> geo s = GPlane p -> ~ on_plane p x.

(** The planes classified as PX, PY, PZ are exactly aligned, and the printing
    tolerance [tol] does not change the direction of the others. *)
Definition exact (tol : R) (p : plane) : Prop :=
  forall e, e = V 1 0 0 \/ e = V 0 1 0 \/ e = V 0 0 1 -> is_equal tol (axis p) e = true ->
    exists k, 0 < k /\ axis p = vscale k e.
Definition aligned (tol : R) (d : sdict geom) : Prop :=
  (forall s, In s (group d PX) -> exists p k, geo s = GPlane p /\ k <> 0 /\ axis p = V k 0 0) /\
  (forall s, In s (group d PY) -> exists p k, geo s = GPlane p /\ k <> 0 /\ axis p = V 0 k 0) /\
  (forall s, In s (group d PZ) -> exists p k, geo s = GPlane p /\ k <> 0 /\ axis p = V 0 0 k) /\
  (forall s, In s (group d PP) -> exists p, geo s = GPlane p /\ exact tol p) /\
  (forall k s, In k [Cyl; Cone; Sph; Tor] -> In s (group d k) -> exists n, geo s = GOther n) /\
  0 <= tol < 1.

(** Three points of a plane: on it and not on a line. *)
Definition good_points (p : plane) (q : vec * vec * vec) : Prop :=
  let '(p1, p2, p3) := q in
  ~ collinear p1 p2 p3 /\ on_plane p p1 /\ on_plane p p2 /\ on_plane p p3.
(** Planes given by three points: general planes have a unit normal; those of the
    groups PX, PY, PZ do not cut the negative half axis. *)
Definition points_ok (d : sdict geom) : Prop :=
  (forall k s p q, In s (group d k) -> geo s = GPlane p -> points p = Some q -> good_points p q) /\
  (forall s p q, In s (group d PP) -> geo s = GPlane p -> points p = Some q -> vlen (axis p) = 1) /\
  (forall s p q, In s (group d PX) -> geo s = GPlane p -> points p = Some q -> 0 <= vx (pos p)) /\
  (forall s p q, In s (group d PY) -> geo s = GPlane p -> points p = Some q -> 0 <= vy (pos p)) /\
  (forall s p q, In s (group d PZ) -> geo s = GPlane p -> points p = Some q -> 0 <= vz (pos p)).

(** A history of writers on the same cells and surfaces. *)
Fixpoint writers (o : opts) (ws : list code) (st : state) : res state :=
  match ws with
  | [] => Ok st
  | w :: r => do (_, st1) <- write_one o w st; writers o r st1
  end.
(** how many of them print planes by three points *)
Definition three_point_writers (ws : list code) : nat :=
  length (filter (fun w => match w with OPENMC => false | _ => true end) ws).

(** all the surfaces of a definition belong to the model *)
Definition registered_def (d : sdict geom) (n : node) : Prop :=
  forall z, In z (lits n) -> exists k s, In s (group d k) /\ index s = Z.abs z.
(** the definition [n], read with the cards of the file, is the same set of points
    as the definition [n0], read with the surfaces of the model *)
Definition same_region (st0 : state) (out : output) (n0 n : node) : Prop :=
  forall other x v0 v1, off_planes x (surfaces st0) -> cad_sides other x (surfaces st0) v0 ->
    card_sides other x (o_surfs out) v1 -> eval v1 n = eval v0 n0.

(** a dictionary of surfaces as GEOUNED builds it: by adding surfaces *)
Definition built (d : sdict geom) : Prop :=
  exists cls same o h, (0 <= o)%Z /\ (forall i, ~ In (Del i) h) /\ run geom cls same h (empty o) = Ok d.
(** a model to export: well formed definitions over registered surfaces *)
Definition ready (st : state) : Prop :=
  built (surfaces st) /\
  forall c, In c (cells st) -> has_id c = true ->
    is_seq (def c) /\ no_const (def c) /\ wf (def c) /\ registered_def (surfaces st) (def c).
