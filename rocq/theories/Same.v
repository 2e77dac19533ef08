(** Comparison of surfaces: /repo/src/geouned/GEOUNED/utils/basic_functions_part1.py ("b1")
    9-19, 51-59 and basic_functions_part2.py ("b2") 17-159.  Floats are real numbers. *)
From Verif Require Import Prelude Vec3 Geom Prim SurfCards.
From Coq Require Import List.
Open Scope R_scope.

(** is_same_value, b1 9-10 *)
Definition same_value (a b tol : R) : bool := rltb (Rabs (a - b)) tol.

(** is_in_tolerance, b1 51-59: (in tolerance, fuzzy) *)
Definition is_in_tolerance (val tol lo hi : R) : bool * bool :=
  if Rlt_dec (Rabs val) lo then (true, false)
  else if Rlt_dec (Rabs val) tol then (true, true)
  else if Rlt_dec hi (Rabs val) then (false, false)
  else (false, true).

(** Fuzzy, b2 21: the answer that is logged for a fuzzy comparison *)
Definition fuzzy_same (val tol : R) : bool := if Rle_dec val tol then true else false.

(** the plane with the dimensions of its face, b1 101-138 *)
Record dplane := DPlane { d_axis : vec; d_pos : vec; d_l1 : R; d_l2 : R }.

(** is_same_plane, b2 46-62; the log is not modelled *)
Definition is_same_plane (rel : bool) (angle dist : R) (p1 p2 : dplane) : bool :=
  if parallel_tol angle (d_axis p1) (d_axis p2) then
    let d1 := dot (d_axis p1) (d_pos p1) in
    let d2 := dot (d_axis p2) (d_pos p2) in
    let d2 := if opposite_tol angle (d_axis p1) (d_axis p2) then - d2 else d2 in
    let d := Rabs (d1 - d2) in
    let tol := if rel then dist * Rmax (d_l1 p2) (d_l2 p2) else dist in
    fst (is_in_tolerance d tol (1/2 * tol) (2 * tol))
  else false.

(** is_same_cylinder, b2 65-114 *)
Definition is_same_cylinder (rel : bool) (angle dist : R) (c1 v1 : vec) (r1 : R) (c2 v2 : vec) (r2 : R) : bool :=
  let rtol := if rel then dist * Rmax r2 r1 else dist in
  if fst (is_in_tolerance (r2 - r1) rtol (1/2 * rtol) (2 * rtol)) then
    if parallel_tol angle v1 v2 then
      let d := vlen (cross v1 (vsub c1 c2)) in
      let tol := if rel then dist * Rmax (vlen c1) (vlen c2) else dist in
      fst (is_in_tolerance d tol (1/2 * tol) (2 * tol))
    else false
  else false.

(** is_same_cone, b2 117-125 *)
Definition is_same_cone (rel : bool) (dtol atol : R) (p1 v1 : vec) (a1 : R) (p2 v2 : vec) (a2 : R) : bool :=
  if same_value a1 a2 atol then
    if parallel_tol atol v1 v2 then
      is_equal (if rel then dtol * Rmax (vlen p1) (vlen p2) else dtol) p1 p2
    else false
  else false.

(** is_same_sphere, b2 128-140 *)
Definition is_same_sphere (rel : bool) (tol : R) (c1 : vec) (r1 : R) (c2 : vec) (r2 : R) : bool :=
  if same_value r1 r2 (if rel then tol * Rmax r2 r1 else tol) then
    is_equal (if rel then tol * Rmax (vlen c2) (vlen c1) else tol) c1 c2
  else false.

(** is_same_torus, b2 143-159 *)
Definition is_same_torus (rel : bool) (dtol atol : R) (c1 v1 : vec) (ra1 rb1 : R) (c2 v2 : vec) (ra2 rb2 : R) : bool :=
  if parallel_tol atol v1 v2 then
    if rltb (dot v1 v2) 0 then false
    else
      let Rtol := if rel then dtol * Rmax ra1 ra2 else dtol in
      let rtol := if rel then dtol * Rmax rb1 rb2 else dtol in
      if same_value ra1 ra2 Rtol && same_value rb1 rb2 rtol then
        is_equal (if rel then dtol * Rmax (vlen c1) (vlen c2) else dtol) c1 c2
      else false
  else false.
