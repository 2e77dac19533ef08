(** The box of a one-level part of a definition, from the points where its planes meet:
    /repo/src/geouned/GEOReverse/Modules/Utils/boundBox.py ("bb") 240-256, 325-400, 790-963.
    The functions are written once for any kind of numbers ([ops]): with real numbers for the
    theorems, with rational numbers to compute concrete cases (RVertexHom: same results).
    FreeCAD's plane-plane, line-plane and segment-plane intersections are exact here: two
    planes meet in a line unless their normals are parallel, a line meets a plane in one point
    unless it is parallel to it. *)
From Coq Require Import QArith.
From Verif Require Import Prelude BoolSpec BoolSeq RBool Vec3 Prim RBox RPlanes.

Record ops := Ops {
  num : Type; vect : Type; plane : Type; box : Type;
  nq : Q -> num;                                   (* constants *)
  nadd : num -> num -> num; nsub : num -> num -> num; nmul : num -> num -> num; ndiv : num -> num -> num;
  nle : num -> num -> bool;
  mkv : num -> num -> num -> vect; cx : vect -> num; cy : vect -> num; cz : vect -> num;
  mkp : vect -> vect -> plane; ppos : plane -> vect; pax : plane -> vect;
  mkb : num -> num -> num -> num -> num -> num -> box;
  bx0 : box -> num; by0 : box -> num; bz0 : box -> num; bx1 : box -> num; by1 : box -> num; bz1 : box -> num }.

Inductive axis3 := AX | AY | AZ.

Section Gen.
  Variable o : ops.
  Let N := num o. Let W := vect o. Let P := plane o. Let B := box o.
  Definition n0 : num o := nq o 0.
  Definition nlt (a b : num o) : bool := negb (nle o b a).
  Definition neq0 (a : num o) : bool := nle o a n0 && nle o n0 a.
  Definition gdot (a b : vect o) : num o := nadd o (nadd o (nmul o (cx o a) (cx o b)) (nmul o (cy o a) (cy o b))) (nmul o (cz o a) (cz o b)).
  Definition gcross (a b : vect o) : vect o :=
    mkv o (nsub o (nmul o (cy o a) (cz o b)) (nmul o (cz o a) (cy o b)))
          (nsub o (nmul o (cz o a) (cx o b)) (nmul o (cx o a) (cz o b)))
          (nsub o (nmul o (cx o a) (cy o b)) (nmul o (cy o a) (cx o b))).
  Definition gadd (a b : vect o) : vect o := mkv o (nadd o (cx o a) (cx o b)) (nadd o (cy o a) (cy o b)) (nadd o (cz o a) (cz o b)).
  Definition gsub (a b : vect o) : vect o := mkv o (nsub o (cx o a) (cx o b)) (nsub o (cy o a) (cy o b)) (nsub o (cz o a) (cz o b)).
  Definition gscale (k : num o) (a : vect o) : vect o := mkv o (nmul o k (cx o a)) (nmul o k (cy o a)) (nmul o k (cz o a)).
  Definition is_zero (a : vect o) : bool := neq0 (cx o a) && neq0 (cy o a) && neq0 (cz o a).

  (** Part.Plane.intersect(plane): a line (point, direction) or nothing *)
  Definition plane_plane (p q : plane o) : option (vect o * vect o) :=
    let d := gcross (pax o p) (pax o q) in
    if is_zero d then None
    else
      let a := gdot (pax o p) (ppos o p) in
      let b := gdot (pax o q) (ppos o q) in
      let w := gadd (gscale a (gcross (pax o q) d)) (gscale b (gcross d (pax o p))) in
      Some (gscale (ndiv o (nq o 1) (gdot d d)) w, d).
  (** Part.Line.intersect(plane): a point or nothing *)
  Definition line_plane (l : vect o * vect o) (p : plane o) : option (vect o) :=
    let k := gdot (pax o p) (snd l) in
    if neq0 k then None
    else Some (gadd (fst l) (gscale (ndiv o (gdot (pax o p) (gsub (ppos o p) (fst l))) k) (snd l))).
  (** Part.LineSegment.intersect(plane) *)
  Definition seg_plane (s : vect o * vect o) (p : plane o) : option (vect o) :=
    let d := gsub (snd s) (fst s) in
    let k := gdot (pax o p) d in
    if neq0 k then None
    else
      let t := ndiv o (gdot (pax o p) (gsub (ppos o p) (fst s))) k in
      if nle o n0 t && nle o t (nq o 1) then Some (gadd (fst s) (gscale t d)) else None.
  (** BoundBox.isInside(point), getPoint(i), getEdge(i) *)
  Definition between (a x b : num o) : bool := nle o a x && nle o x b.
  Definition box_has (b : box o) (p : vect o) : bool :=
    between (bx0 o b) (cx o p) (bx1 o b) && between (by0 o b) (cy o p) (by1 o b) && between (bz0 o b) (cz o p) (bz1 o b).
  Definition box_points (b : box o) : list (vect o) :=
    [ mkv o (bx0 o b) (by0 o b) (bz0 o b); mkv o (bx1 o b) (by0 o b) (bz0 o b);
      mkv o (bx1 o b) (by1 o b) (bz0 o b); mkv o (bx0 o b) (by1 o b) (bz0 o b);
      mkv o (bx0 o b) (by0 o b) (bz1 o b); mkv o (bx1 o b) (by0 o b) (bz1 o b);
      mkv o (bx1 o b) (by1 o b) (bz1 o b); mkv o (bx0 o b) (by1 o b) (bz1 o b) ].
  Definition box_edges (b : box o) : list (vect o * vect o) :=
    let p x y z := mkv o (if x : bool then bx1 o b else bx0 o b) (if y : bool then by1 o b else by0 o b) (if z : bool then bz1 o b else bz0 o b) in
    let f := false in let t := true in
    [ (p f f f, p t f f); (p t f f, p t t f); (p t t f, p f t f); (p f t f, p f f f);
      (p f f t, p t f t); (p t f t, p t t t); (p t t t, p f t t); (p f t t, p f f t);
      (p f f f, p f f t); (p t f f, p t f t); (p t t f, p t t t); (p f t f, p f t t) ].

  Definition opt_list {A} (x : option A) : list A := match x with Some a => [a] | None => [] end.
  (** bb 795-808: the third planes of a pair; [b] is the external box *)
  Definition triple_points (b : box o) (line : vect o * vect o) (ps : list (plane o)) : list (vect o) :=
    filter (box_has b) (flat_map (fun p => opt_list (line_plane line p)) ps).
  (** bb 793-808: [from] is plane_list[j + 1 :]; j does not advance when the planes do not meet *)
  Fixpoint pairs_free (b : box o) (p1 : plane o) (p2s from : list (plane o)) : list (vect o) :=
    match p2s with
    | [] => []
    | p2 :: r =>
        match plane_plane p1 p2 with
        | None => pairs_free b p1 r from
        | Some line => triple_points b line from ++ pairs_free b p1 r (tl from)
        end
    end.
  Fixpoint inter_free (b : box o) (ps : list (plane o)) : list (vect o) :=
    match ps with
    | [] => []
    | p1 :: r => pairs_free b p1 (removelast r) (tl r) ++ inter_free b r
    end.
  (** bb 810-821: the planes of the six faces of the external box *)
  Definition box_faces (b : box o) : list (plane o) :=
    let z := n0 in let u := nq o 1 in
    [ mkp o (mkv o (bx0 o b) z z) (mkv o u z z); mkp o (mkv o (bx1 o b) z z) (mkv o u z z);
      mkp o (mkv o z (by0 o b) z) (mkv o z u z); mkp o (mkv o z (by1 o b) z) (mkv o z u z);
      mkp o (mkv o z z (bz0 o b)) (mkv o z z u); mkp o (mkv o z z (bz1 o b)) (mkv o z z u) ].
  (** bb 848-858 *)
  Definition plane_boundary (b : box o) (p : plane o) : list (vect o) :=
    flat_map (fun s => opt_list (seg_plane s p)) (box_edges b).
  (** bb 867-878: the two other coordinates of the point are in the box *)
  Definition hit_ok (b : box o) (a : axis3) (p : vect o) : bool :=
    match a with
    | AX => between (by0 o b) (cy o p) (by1 o b) && between (bz0 o b) (cz o p) (bz1 o b)
    | AY => between (bx0 o b) (cx o p) (bx1 o b) && between (bz0 o b) (cz o p) (bz1 o b)
    | AZ => between (bx0 o b) (cx o p) (bx1 o b) && between (by0 o b) (cy o p) (by1 o b)
    end.
  (** bb 861-880: the loop ends with the second point *)
  Fixpoint hit_loop (b : box o) (line : vect o * vect o) (faces : list (axis3 * plane o)) (pts : list (vect o)) : list (vect o) :=
    match faces with
    | [] => pts
    | (a, f) :: r =>
        match line_plane line f with
        | None => hit_loop b line r pts
        | Some p =>
            let pts := if hit_ok b a p then pts ++ [p] else pts in
            if (List.length pts =? 2)%nat then pts else hit_loop b line r pts
        end
    end.
  Definition line_boundary (b : box o) (line : vect o * vect o) : list (vect o) :=
    hit_loop b line (combine [AX; AX; AY; AY; AZ; AZ] (box_faces b)) [].
  (** bb 823-840: here j stays i + 1 *)
  Fixpoint inter_cut (b : box o) (ps : list (plane o)) : list (vect o) :=
    match ps with
    | [] => []
    | p1 :: r =>
        plane_boundary b p1
        ++ flat_map (fun p2 => match plane_plane p1 p2 with
                               | None => []
                               | Some line => line_boundary b line ++ triple_points b line (tl r)
                               end) r
        ++ inter_cut b r
    end.
  (** bb 790-845 plane_intersect *)
  Definition plane_intersect (cut : bool) (b : box o) (ps : list (plane o)) : list (vect o) :=
    if cut then inter_cut b ps ++ box_points b else inter_free b ps.

  (** bb 965-971 pointaxis *)
  Definition coord (a : axis3) (p : vect o) : num o := match a with AX => cx o p | AY => cy o p | AZ => cz o p end.
  (** bb 883-900: sort by (coordinate, position), a stable sort *)
  Fixpoint ins (a : axis3) (p : vect o) (l : list (vect o)) : list (vect o) :=
    match l with
    | [] => [p]
    | q :: r => if nle o (coord a p) (coord a q) then p :: l else q :: ins a p r
    end.
  Definition sorted (a : axis3) (l : list (vect o)) : list (vect o) := fold_right (ins a) [] l.
  (** bb 903-922: from the greatest to the least; a point nearer than 0.1 to the last one kept
      is dropped.  (The lengths are compared squared.) *)
  Definition near (p q : vect o) : bool := let d := gsub p q in nlt (gdot d d) (nq o (1 # 100)).
  Fixpoint thin (p : vect o) (l : list (vect o)) : list (vect o) :=
    match l with
    | [] => []
    | q :: r => if near p q then thin p r else q :: thin q r
    end.
  Definition remove_close (l : list (vect o)) : list (vect o) :=
    match rev l with
    | [] => []
    | p :: r => rev (p :: thin p r)
    end.
  Definition sort_point (a : axis3) (l : list (vect o)) : list (vect o) := remove_close (sorted a l).
  (** bb 925-962: from the last point on, while the coordinate is not below (above) the value *)
  Fixpoint keep (a : axis3) (v : num o) (lower : bool) (l : list (vect o)) : list (vect o) :=
    match l with
    | [] => []
    | p :: r => if (if lower then nlt (coord a p) v else nlt v (coord a p)) then [] else p :: keep a v lower r
    end.
  Definition remove_points (a : axis3) (v : num o) (lower : bool) (l : list (vect o)) : list (vect o) := keep a v lower (rev l).

  Section Part.
    Variable tol : num o.
    Variable planes : list (Z * plane o).
    Variable def : node.
    (** bb 240-250: the sides of a point; near a plane there is no answer *)
    Definition point_sides (x : vect o) : vset :=
      flat_map (fun zp => let d := gdot (pax o (snd zp)) (gsub x (ppos o (snd zp))) in
                          if nlt d tol && nlt (nsub o n0 d) tol then [] else [(fst zp, nlt n0 d)]) planes.
    (** bb 251-256; a one-level definition is not changed by evaluate *)
    Definition is_inside (x : vect o) (bin : bool) : res bool :=
      do (v, _) <- revaluate (point_sides x) def;
      let f := match v with None => bin | Some b => b end in
      Ok (if bin then f else negb f).
    (** bb 387-399 *)
    Fixpoint count_in (l : list (vect o)) : res nat :=
      match l with
      | [] => Ok 0%nat
      | p :: r => do b <- is_inside p true; do n <- count_in r; Ok (if b then S n else n)
      end.
    Definition box_orientation (univ : box o) : res orient :=
      do n <- count_in (box_points univ);
      Ok (if (n =? 8)%nat then ORev else if (n =? 0)%nat then OFwd else OUnd).
    (** bb 352-355: the first point inside (true) or, without one, the last point *)
    Fixpoint first_in (bin : bool) (l : list (vect o)) : res (option (vect o * bool)) :=
      match l with
      | [] => Ok None
      | p :: r =>
          do b <- is_inside p bin;
          if b then Ok (Some (p, true))
          else match r with [] => Ok (Some (p, false)) | _ => first_in bin r end
      end.
    (** bb 347-365, one axis: the limits found and the points left.  An empty list makes the
        method return None, and its callers fail. *)
    Definition axis_limits (bin : bool) (a : axis3) (l : list (vect o)) : res (list (num o) * list (vect o)) :=
      let s := sort_point a l in
      do r1 <- first_in bin s;
      match r1 with
      | None => Err AttributeError
      | Some (p, f) =>
          let s2 := remove_points a (coord a p) true s in
          do r2 <- first_in bin s2;
          match r2 with
          | None => Err AttributeError
          | Some (q, g) =>
              Ok ((if f then [coord a p] else []) ++ (if g then [coord a q] else []),
                  remove_points a (coord a q) false s2)
          end
      end.
    (** bb 341-385 with the list of points; [None]: no box *)
    Definition limits (bin : bool) (l : list (vect o)) : res (option (box o)) :=
      if (List.length l <? 6)%nat then Ok None
      else
        do (lx, l1) <- axis_limits bin AX l;
        do (ly, l2) <- axis_limits bin AY l1;
        do (lz, _) <- axis_limits bin AZ l2;
        match lx ++ ly ++ lz with
        | [x0; x1; y0; y1; z0; z1] =>
            let t := nq o (1 # 1000000000000) in
            if nlt (nsub o x1 x0) t || nlt (nsub o y1 y0) t || nlt (nsub o z1 z0) t then Ok None
            else Ok (Some (mkb o x0 y0 z0 x1 y1 z1))
        | _ => Ok None
        end.
    (** bb 325-385; [order] is the order of get_surfaces_numbers (a set) *)
    Definition part_box (out univ : box o) (order : list Z) : res (option (box o) * side_of) :=
      do g <- box_orientation univ;
      do ps <- mapM (fun z => match dget z planes with Some p => Ok p | None => Err KeyError end) order;
      let side := match g with ORev => Rev | _ => Fwd end in
      let bin := match side with Fwd => true | Rev => false end in
      let cut_box := do r <- limits bin (plane_intersect true out ps); Ok (r, side) in
      match g with
      | OUnd => cut_box
      | _ =>
          do r <- limits bin (plane_intersect false out ps);
          match r with
          | Some b => Ok (Some b, side)
          | None => cut_box
          end
      end.
  End Part.
End Gen.

(** The two kinds of numbers. *)
Definition Rops : ops := {|
  num := R; vect := vec; plane := pl; box := bbox; nq := Q2R;
  nadd := Rplus; nsub := Rminus; nmul := Rmult; ndiv := Rdiv; nle := rleb;
  mkv := V; cx := vx; cy := vy; cz := vz; mkp := PL; ppos := pl_pos; pax := pl_axis;
  mkb := BB; bx0 := xmin; by0 := ymin; bz0 := zmin; bx1 := xmax; by1 := ymax; bz1 := zmax |}.
Record qvec := QV { qx : Q; qy : Q; qz : Q }.
Record qpl := QP { qp_pos : qvec; qp_axis : qvec }.
Record qbox := QB { qx0 : Q; qy0 : Q; qz0 : Q; qx1 : Q; qy1 : Q; qz1 : Q }.
Definition Qops : ops := {|
  num := Q; vect := qvec; plane := qpl; box := qbox; nq := fun q => q;
  nadd := fun a b => Qred (a + b); nsub := fun a b => Qred (a - b); nmul := fun a b => Qred (a * b); ndiv := fun a b => Qred (a / b); nle := Qle_bool;
  mkv := QV; cx := qx; cy := qy; cz := qz; mkp := QP; ppos := qp_pos; pax := qp_axis;
  mkb := QB; bx0 := qx0; by0 := qy0; bz0 := qz0; bx1 := qx1; by1 := qy1; bz1 := qz1 |}.

(** get_component_boundBox on a part, the argument of RBox.get_bound_box.
    bb 258-282: the copy for the part has the planes of its definition; [order] gives the
    order of its set of surfaces. *)
Definition part_planes {A} (planes : list (Z * A)) (ids : list Z) : list (Z * A) :=
  flat_map (fun z => match dget z planes with Some p => [(z, p)] | None => [] end) ids.
Definition component (tol : R) (out univ : bbox) (order : node -> list Z) (planes : list (Z * pl)) (n : node) : res mybox :=
  do (b, s) <- part_box Rops tol (part_planes planes (order n)) n out univ (order n);
  Ok (mk_box b s).

(** * The box of a cell *)
(** bb 240-256, 387-399 on a definition of any depth: evaluate regroups it; [None] counts as inside *)
Fixpoint orient_count (tol : R) (planes : list (Z * pl)) (l : list vec) (n : node) : res (nat * node) :=
  match l with
  | [] => Ok (0%nat, n)
  | p :: r =>
      do (v, n1) <- revaluate (point_sides Rops tol planes p) n;
      do (k, n2) <- orient_count tol planes r n1;
      Ok (match v with Some false => k | _ => S k end, n2)
  end.
Definition cell_orientation (tol : R) (planes : list (Z * pl)) (univ : bbox) (n : node) : res (orient * node) :=
  do (k, n') <- orient_count tol planes (box_points Rops univ) n;
  Ok (if (k =? 8)%nat then ORev else if (k =? 0)%nat then OFwd else OUnd, n').
(** bb 196-210 solid_plane_box(cell): orientation, planes and definition *)
Definition solid_planes (surfaces : Z -> option prim) (signed : list Z) (fuel : nat) (tol : R) (univ : bbox) (n : node)
  : res (orient * (list (Z * pl) * node)) :=
  do qs <- quadric_to_plane surfaces OFwd signed;
  do r <- plane_definition fuel OFwd (q_entries qs) n;
  do (o, r1) <- cell_orientation tol (q_planes qs) univ r;
  match o with
  | OFwd => Ok (OFwd, (q_planes qs, r1))
  | _ =>
      do qs' <- quadric_to_plane surfaces o signed;
      do r' <- plane_definition fuel o (q_entries qs') n;
      Ok (o, (q_planes qs', r'))
  end.
(** ob 122-141 build_BoundBox(externalBox, enlarge) *)
Definition cell_box (surfaces : Z -> option prim) (signed : list Z) (fuel : nat) (tol : R) (out univ : bbox)
  (order : node -> list Z) (k : R) (n : node) : res mybox :=
  do (_, pr) <- solid_planes surfaces signed fuel tol univ n;
  let '(planes, r) := pr in
  get_bound_box (component tol out univ order planes) k r.
