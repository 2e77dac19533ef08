(** Surface cards of cylinders, cones, spheres and tori:
    /repo/src/geouned/GEOUNED/utils/q_form.py ("qf") 1-89 and
    /repo/src/geouned/GEOUNED/write/functions.py ("wf") mcnp_surface 241-488,
    open_mc_surface 491-712, serpent_surface 715-860, phits_surface 863-1110
    (planes are in Geom.v and Export.v).
    Floats are real numbers.  A card is the list of its fields in the order of the text:
    the decimals of a number (numeric_format), blanks, line breaks and the later cut at 80
    columns (trim) are not modelled. *)
From Verif Require Import Prelude Vec3 Geom Prim Quadric.
From Coq Require Import String List.
Import ListNotations.
Open Scope R_scope.

(** A 3x3 matrix by rows; FreeCAD.Matrix() also has a fourth row and column, those of
    the identity. *)
Record mat := M { r1 : vec; r2 : vec; r3 : vec }.
Definition transpose (m : mat) : mat :=
  M (V (vx (r1 m)) (vx (r2 m)) (vx (r3 m))) (V (vy (r1 m)) (vy (r2 m)) (vy (r3 m)))
    (V (vz (r1 m)) (vz (r2 m)) (vz (r3 m))).
(** Matrix.multiply(Vector) *)
Definition mulv (m : mat) (v : vec) : vec := V (dot (r1 m) v) (dot (r2 m) v) (dot (r3 m) v).

(** rotation_matrix, qf 12-46.  Vector.normalize raises for the null vector (FreeCAD
    compares the length with 2e-16; here with 0). *)
Definition rotation_matrix (u v : vec) : res mat :=
  do a <- normalize (cross u v);
  do u <- normalize u;
  do v <- normalize v;
  let cose := dot u v in
  let seno := vlen (cross u v) in
  let onecos := 1 - cose in
  Ok (M (V (cose + vx a ^ 2 * onecos) (vx a * vy a * onecos - vz a * seno) (vx a * vz a * onecos + vy a * seno))
        (V (vx a * vy a * onecos + vz a * seno) (cose + vy a ^ 2 * onecos) (vy a * vz a * onecos - vx a * seno))
        (V (vz a * vx a * onecos - vy a * seno) (vz a * vy a * onecos + vx a * seno) (cose + vz a ^ 2 * onecos))).

(** q_form_cyl, qf 49-69 *)
Definition q_form_cyl (axis pos : vec) (rad : R) : res gq :=
  do m <- rotation_matrix (V 1 0 0) axis;
  let R := transpose m in
  let p := vopp (mulv R pos) in
  let A2 := r2 R in let A3 := r3 R in
  Ok (GQ (vx A2 ^ 2 + vx A3 ^ 2) (vy A2 ^ 2 + vy A3 ^ 2) (vz A2 ^ 2 + vz A3 ^ 2)
         (2 * (vx A2 * vy A2 + vx A3 * vy A3)) (2 * (vy A2 * vz A2 + vy A3 * vz A3)) (2 * (vz A2 * vx A2 + vz A3 * vx A3))
         (2 * (vy p * vx A2 + vz p * vx A3)) (2 * (vy p * vy A2 + vz p * vy A3)) (2 * (vy p * vz A2 + vz p * vz A3))
         (vy p ^ 2 + vz p ^ 2 - rad ^ 2)).

(** q_form_cone, qf 72-92 *)
Definition q_form_cone (axis pos : vec) (tan : R) : res gq :=
  do m <- rotation_matrix (V 1 0 0) axis;
  let R := transpose m in
  let p := vopp (mulv R pos) in
  let A1 := r1 R in let A2 := r2 R in let A3 := r3 R in
  Ok (GQ (vx A2 ^ 2 + vx A3 ^ 2 - (tan * vx A1) ^ 2) (vy A2 ^ 2 + vy A3 ^ 2 - (tan * vy A1) ^ 2)
         (vz A2 ^ 2 + vz A3 ^ 2 - (tan * vz A1) ^ 2)
         (2 * (vx A2 * vy A2 + vx A3 * vy A3 - tan ^ 2 * vx A1 * vy A1))
         (2 * (vy A2 * vz A2 + vy A3 * vz A3 - tan ^ 2 * vy A1 * vz A1))
         (2 * (vz A2 * vx A2 + vz A3 * vx A3 - tan ^ 2 * vz A1 * vx A1))
         (2 * (vy p * vx A2 + vz p * vx A3 - tan ^ 2 * vx p * vx A1))
         (2 * (vy p * vy A2 + vz p * vy A3 - tan ^ 2 * vx p * vy A1))
         (2 * (vy p * vz A2 + vz p * vz A3 - tan ^ 2 * vx p * vz A1))
         (vy p ^ 2 + vz p ^ 2 - (tan * vx p) ^ 2)).

(** is_same_value, is_opposite, is_parallel, b1 9-19, with an explicit tolerance; a
    comparison with not-a-number is false *)
Definition opposite_tol (tol : R) (a b : vec) : bool :=
  match get_angle a (vopp b) with None => false | Some x => rltb (Rabs x) tol end.
Definition parallel_tol (tol : R) (a b : vec) : bool :=
  match get_angle a b with
  | None => false
  | Some x => rltb (Rabs x) tol || rltb (Rabs (Rabs x - PI)) tol
  end.

(** CylinderParams, ConeParams, SphereParams, TorusParams, b1 141-200 (lengths in mm;
    the torus with its a_sign, 1 or -1) *)
Inductive csurf :=
| SCyl (c v : vec) (r : R)
| SCone (p v : vec) (ang : R)
| SSph (c : vec) (r : R)
| STor (c v : vec) (rmaj rmin sign : R).

Inductive tok := TI (n : Z) | TK (s : string) | TN (x : R).
Definition nums (l : list R) : list tok := map TN l.
Definition vec3 (v : vec) : list R := [vx v; vy v; vz v].
Definition gq10 (q : gq) : list R := [ga q; gb q; gc q; gd q; ge q; gf q; gg q; gh q; gj q; gk q].

Definition EX := V 1 0 0.
Definition EY := V 0 1 0.
Definition EZ := V 0 0 1.
Record tols := Tols { t_angle : R; t_sph : R }.
Definition both0 (a b : R) : bool :=
  (if Req_EM_T a 0 then true else false) && (if Req_EM_T b 0 then true else false).
(** wf 381, 613, 829, 991: radMaj *= surf.a_sign when the torus is degenerated *)
Definition maj (rmaj rmin sign : R) : R := if Rlt_dec rmaj rmin then rmaj * (1 / 10) * sign else rmaj * (1 / 10).
Definition sheet (t : R) (d e : vec) : R := if opposite_tol t d e then -1 else 1.

(** mcnp_surface wf 272-488 and phits_surface wf 893-1110: the same text.  [] is the empty
    definition (no card is written, mcnp_format.py 186-190). *)
Definition mcnp_surface (t : tols) (id : Z) (s : csurf) : res (list tok) :=
  match s with
  | SCyl c v r =>
      do d <- normalize v;
      let p := vscale (1/10) c in let rad := r * (1/10) in
      if parallel_tol (t_angle t) d EX then
        if both0 (vy p) (vz p) then Ok (TI id :: TK "CX" :: nums [rad]) else Ok (TI id :: TK "C/X" :: nums [vy p; vz p; rad])
      else if parallel_tol (t_angle t) d EY then
        if both0 (vx p) (vz p) then Ok (TI id :: TK "CY" :: nums [rad]) else Ok (TI id :: TK "C/Y" :: nums [vx p; vz p; rad])
      else if parallel_tol (t_angle t) d EZ then
        if both0 (vy p) (vx p) then Ok (TI id :: TK "CZ" :: nums [rad]) else Ok (TI id :: TK "C/Z" :: nums [vx p; vy p; rad])
      else do q <- q_form_cyl d p rad; Ok (TI id :: TK "GQ" :: nums (gq10 q))
  | SCone a v ang =>
      let p := vscale (1/10) a in let d := vscale (1/10) v in let tn := tan ang in
      if parallel_tol (t_angle t) d EX then
        if both0 (vy p) (vz p) then Ok (TI id :: TK "KX" :: nums [vx p; tn ^ 2; sheet (t_angle t) d EX])
        else Ok (TI id :: TK "K/X" :: nums (vec3 p ++ [tn ^ 2; sheet (t_angle t) d EX]))
      else if parallel_tol (t_angle t) d EY then
        if both0 (vx p) (vz p) then Ok (TI id :: TK "KY" :: nums [vy p; tn ^ 2; sheet (t_angle t) d EY])
        else Ok (TI id :: TK "K/Y" :: nums (vec3 p ++ [tn ^ 2; sheet (t_angle t) d EY]))
      else if parallel_tol (t_angle t) d EZ then
        if both0 (vx p) (vy p) then Ok (TI id :: TK "KZ" :: nums [vz p; tn ^ 2; sheet (t_angle t) d EZ])
        else Ok (TI id :: TK "K/Z" :: nums (vec3 p ++ [tn ^ 2; sheet (t_angle t) d EZ]))
      else do q <- q_form_cone d p tn; Ok (TI id :: TK "GQ" :: nums (gq10 q))
  | SSph c r =>
      let rad := r * (1/10) in let p := vscale (1/10) c in
      if is_equal (t_sph t) p vzero then Ok (TI id :: TK "SO" :: nums [rad])
      else Ok (TI id :: TK "S" :: nums (vec3 p ++ [rad]))
  | STor c v ra rb sg =>
      do d <- normalize v;
      let p := vscale (1/10) c in
      let body := nums (vec3 p ++ [maj ra rb sg; rb * (1/10); rb * (1/10)]) in
      if parallel_tol (t_angle t) d EX then Ok (TI id :: TK "TX" :: body)
      else if parallel_tol (t_angle t) d EY then Ok (TI id :: TK "TY" :: body)
      else if parallel_tol (t_angle t) d EZ then Ok (TI id :: TK "TZ" :: body)
      else Ok []
  end.

(** open_mc_surface wf 533-712 with out_xml=True: the type and the coefficients; None is
    the type printed when the torus is not along an axis *)
Definition omc_xml (t : tols) (s : csurf) : res (option string * list R) :=
  match s with
  | SCyl c v r =>
      do d <- normalize v;
      let p := vscale (1/10) c in let rad := r * (1/10) in
      if parallel_tol (t_angle t) d EX then Ok (Some "x-cylinder"%string, [vy p; vz p; rad])
      else if parallel_tol (t_angle t) d EY then Ok (Some "y-cylinder"%string, [vx p; vz p; rad])
      else if parallel_tol (t_angle t) d EZ then Ok (Some "z-cylinder"%string, [vx p; vy p; rad])
      else do q <- q_form_cyl d p rad; Ok (Some "quadric"%string, gq10 q)
  | SCone a v ang =>
      do d <- normalize v;
      let p := vscale (1/10) a in let tn := tan ang in
      if parallel_tol (t_angle t) d EX then Ok (Some "x-cone"%string, vec3 p ++ [tn * tn])
      else if parallel_tol (t_angle t) d EY then Ok (Some "y-cone"%string, vec3 p ++ [tn * tn])
      else if parallel_tol (t_angle t) d EZ then Ok (Some "z-cone"%string, vec3 p ++ [tn * tn])
      else do q <- q_form_cone d p tn; Ok (Some "quadric"%string, gq10 q)
  | SSph c r => Ok (Some "sphere"%string, vec3 (vscale (1/10) c) ++ [r * (1/10)])
  | STor c v ra rb sg =>
      do d <- normalize v;
      let co := vec3 (vscale (1/10) c) ++ [maj ra rb sg; rb * (1/10); rb * (1/10)] in
      if parallel_tol (t_angle t) d EX then Ok (Some "x-torus"%string, co)
      else if parallel_tol (t_angle t) d EY then Ok (Some "y-torus"%string, co)
      else if parallel_tol (t_angle t) d EZ then Ok (Some "z-torus"%string, co)
      else Ok (None, co)
  end.

(** the same with out_xml=False: class name and keyword arguments of the Python call *)
Definition kw_gq (q : gq) : list (string * R) :=
  combine ["a"; "b"; "c"; "d"; "e"; "f"; "g"; "h"; "j"; "k"]%string (gq10 q).
Definition kw_pos (p : vec) : list (string * R) := [("x0"%string, vx p); ("y0"%string, vy p); ("z0"%string, vz p)].
Definition kw_dir (d : vec) : list (string * R) := [("dx"%string, vx d); ("dy"%string, vy d); ("dz"%string, vz d)].
Definition omc_py (quadric : bool) (t : tols) (s : csurf) : res (option string * list (string * R)) :=
  match s with
  | SCyl c v r =>
      do d <- normalize v;
      let p := vscale (1/10) c in let rad := r * (1/10) in
      if parallel_tol (t_angle t) d EX then Ok (Some "XCylinder"%string, [("y0"%string, vy p); ("z0"%string, vz p); ("r"%string, rad)])
      else if parallel_tol (t_angle t) d EY then Ok (Some "YCylinder"%string, [("x0"%string, vx p); ("z0"%string, vz p); ("r"%string, rad)])
      else if parallel_tol (t_angle t) d EZ then Ok (Some "ZCylinder"%string, [("x0"%string, vx p); ("y0"%string, vy p); ("r"%string, rad)])
      else if quadric then do q <- q_form_cyl d p rad; Ok (Some "Quadric"%string, kw_gq q)
      else Ok (Some "Cylinder"%string, kw_pos p ++ [("r"%string, rad)] ++ kw_dir d)
  | SCone a v ang =>
      do d <- normalize v;
      let p := vscale (1/10) a in let tn := tan ang in
      if parallel_tol (t_angle t) d EX then Ok (Some "XCone"%string, kw_pos p ++ [("r2"%string, tn * tn)])
      else if parallel_tol (t_angle t) d EY then Ok (Some "YCone"%string, kw_pos p ++ [("r2"%string, tn * tn)])
      else if parallel_tol (t_angle t) d EZ then Ok (Some "ZCone"%string, kw_pos p ++ [("r2"%string, tn * tn)])
      else if quadric then do q <- q_form_cone d p tn; Ok (Some "Quadric"%string, kw_gq q)
      else Ok (Some "Cone"%string, kw_pos p ++ [("r2"%string, tn * tn)] ++ kw_dir d)
  | SSph c r => Ok (Some "Sphere"%string, kw_pos (vscale (1/10) c) ++ [("r"%string, r * (1/10))])
  | STor c v ra rb sg =>
      do d <- normalize v;
      let co := kw_pos (vscale (1/10) c) ++ [("r"%string, maj ra rb sg); ("r1"%string, rb * (1/10)); ("r2"%string, rb * (1/10))] in
      if parallel_tol (t_angle t) d EX then Ok (Some "XTorus"%string, co)
      else if parallel_tol (t_angle t) d EY then Ok (Some "YTorus"%string, co)
      else if parallel_tol (t_angle t) d EZ then Ok (Some "ZTorus"%string, co)
      else Ok (None, co)
  end.

(** serpent_surface wf 743-860.  The texts of the cone and quadric cards have no place for
    the number of the surface: in a cone the number takes the first numeric field, and the
    last value (the sheet) is left out; in a quadric it is left out. *)
Definition serpent_surface (t : tols) (id : Z) (s : csurf) : res (list tok) :=
  match s with
  | SCyl c v r =>
      do d <- normalize v;
      let p := vscale (1/10) c in let rad := r * (1/10) in
      if parallel_tol (t_angle t) d EX then Ok (TI id :: TK "cylx" :: nums [vy p; vz p; rad])
      else if parallel_tol (t_angle t) d EY then Ok (TI id :: TK "cyly" :: nums [vx p; vz p; rad])
      else if parallel_tol (t_angle t) d EZ then Ok (TI id :: TK "cylz" :: nums [rad])
      else do q <- q_form_cyl d p rad; Ok (TK "quadratic" :: nums (gq10 q))
  | SCone a v ang =>
      let p := vscale (1/10) a in let d := vscale (1/10) v in let tn := tan ang in
      let body := nums [IZR id; vx p; vy p; vz p; tn ^ 2] in
      if parallel_tol (t_angle t) d EX then Ok (TK "ckx" :: body)
      else if parallel_tol (t_angle t) d EY then Ok (TK "cky" :: body)
      else if parallel_tol (t_angle t) d EZ then Ok (TK "ckz" :: body)
      else do _ <- q_form_cone d p tn; Ok []
  | SSph c r => Ok (TI id :: TK "sph" :: nums (vec3 (vscale (1/10) c) ++ [r * (1/10)]))
  | STor c v ra rb sg =>
      do d <- normalize v;
      let body := nums (vec3 (vscale (1/10) c) ++ [maj ra rb sg; rb * (1/10); rb * (1/10)]) in
      if parallel_tol (t_angle t) d EX then Ok (TI id :: TK "torx" :: body)
      else if parallel_tol (t_angle t) d EY then Ok (TI id :: TK "tory" :: body)
      else if parallel_tol (t_angle t) d EZ then Ok (TI id :: TK "torz" :: body)
      else Ok []
  end.
