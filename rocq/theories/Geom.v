(** Model of the plane functions of
    /repo/src/geouned/GEOUNED/utils/basic_functions_part1.py ("b1") 13-14, 70-98
    and of the plane cards of
    /repo/src/geouned/GEOUNED/write/functions.py ("wf") 241-271, 492-531, 714-741,
    863-891.  Floats are real numbers; numeric formats (decimals) are not modelled. *)
From Verif Require Import Prelude Vec3.
Open Scope R_scope.

(** b1 71-87: tpp[i-1] and tpp[3] for the three points *)
Definition tpp (p1 p2 p3 : vec) : R * R * R * R :=
  (vy p1 * (vz p2 - vz p3) + vy p2 * (vz p3 - vz p1) + vy p3 * (vz p1 - vz p2),
   vz p1 * (vx p2 - vx p3) + vz p2 * (vx p3 - vx p1) + vz p3 * (vx p1 - vx p2),
   vx p1 * (vy p2 - vy p3) + vx p2 * (vy p3 - vy p1) + vx p3 * (vy p1 - vy p2),
   vx p1 * (vy p2 * vz p3 - vy p3 * vz p2) + vy p1 * (vz p2 * vx p3 - vz p3 * vx p2)
   + vz p1 * (vx p2 * vy p3 - vx p3 * vy p2)).

(** b1 91-92: xm after reading the value t *)
Definition xm_step (xm t : R) : R :=
  if Req_EM_T xm 0 then if Req_EM_T t 0 then xm else 1 / t else xm.

(** points_to_coeffs, b1 70-98.  [axis.Length] = 0 makes the division of line 96
    raise ZeroDivisionError. *)
Definition points_to_coeffs (p1 p2 p3 : vec) : res (vec * R) :=
  let '(t0, t1, t2, t3) := tpp p1 p2 p3 in
  let x3 := xm_step 0 t3 in
  let x2 := xm_step x3 t2 in
  let x1 := xm_step x2 t1 in
  let x0 := xm_step x1 t0 in
  let axis := V (t0 * x0) (t1 * x1) (t2 * x2) in
  if Req_EM_T (vlen axis) 0 then Err ZeroDivision
  else Ok (vscale (/ vlen axis) axis, t3 * x3 / vlen axis).

(** FreeCAD Vector.getAngle (Base::Vector3::GetAngle): acos of the normalised
    scalar product, clipped to [-1, 1]; not a number when the product of the
    lengths is at most 1e-10. *)
Definition clip (x : R) : R := Rmax (-1) (Rmin 1 x).
Definition get_angle (a b : vec) : option R :=
  if Rle_lt_dec (vlen a * vlen b) (1 / 10 ^ 10) then None
  else Some (acos (clip (dot a b / (vlen a * vlen b)))).

(** is_opposite, b1 13-14, with its default tolerance 1e-6; a comparison with
    not-a-number is false *)
Definition is_opposite (a b : vec) : bool :=
  match get_angle a (vopp b) with
  | None => false
  | Some x => if Rlt_dec (Rabs x) (1 / 10 ^ 6) then true else false
  end.

(** PlaneParams / Plane3PtsParams, b1 101-138: [points] is Some iff pointDef *)
Record plane := Plane { axis : vec; pos : vec; points : option (vec * vec * vec) }.

(** Vector.isEqual(v, tol): distance at most tol *)
Definition is_equal (tol : R) (a b : vec) : bool :=
  if Rle_dec (vlen (vsub a b)) tol then true else false.

(** The cards that can be written for a plane (lengths in cm) *)
Inductive card :=
| CardX (d : R) | CardY (d : R) | CardZ (d : R)
| CardP (a b c d : R)
| Card3 (p1 p2 p3 : vec).

(** wf 247-271 (MCNP), 716-737 (Serpent), 866-891 (PHITS) with [three] =
    options.prnt3PPlane; wf 493-530 (OpenMC) is the case [three] = false.
    [tol] = tolerances.pln_angle. *)
Definition plane_card (three : bool) (tol : R) (p : plane) : card :=
  match three, points p with
  | true, Some (p1, p2, p3) => Card3 (vscale (1/10) p1) (vscale (1/10) p2) (vscale (1/10) p3)
  | _, _ =>
      if is_equal tol (axis p) (V 1 0 0) then CardX (vx (pos p) / 10)
      else if is_equal tol (axis p) (V 0 1 0) then CardY (vy (pos p) / 10)
      else if is_equal tol (axis p) (V 0 0 1) then CardZ (vz (pos p) / 10)
      else CardP (vx (axis p)) (vy (axis p)) (vz (axis p)) (dot (axis p) (pos p) / 10)
  end.
