(** The auxiliary surfaces of toroidal faces:
    /repo/src/geouned/GEOUNED/conversion/cell_definition.py ("cd") 379-512, and the grouping of the
    toroidal faces of a solid, /repo/src/geouned/GEOUNED/utils/geometry_gu.py ("gu") 182-293.
    Floats are real numbers.  A face is its surface, its parameter range and its parametrisation (what
    FreeCAD reports). *)
From Verif Require Import Prelude Vec3 Geom Prim SurfCards AddPlane.
From Coq Require Import List.
Open Scope R_scope.

(** what the code asks of a toroidal face: Surface.Axis, .Center, .MajorRadius and valueAt *)
Record tface := TFace {
  tf_axis : vec; tf_center : vec; tf_major : R; tf_value : R -> R -> vec }.

(** the coordinate axis the torus is along, cd 381-386 and 428-433: the name [axis] is not bound
    otherwise *)
Definition tor_axis (tol : R) (a : vec) : res vec :=
  if parallel_tol tol a EX then Ok EX
  else if parallel_tol tol a EY then Ok EY
  else if parallel_tol tol a EZ then Ok EZ
  else Err UnboundLocal.

(** Vector.normalize: fails on a vector shorter than the machine epsilon *)
Definition normalize (d : vec) : res vec :=
  if rltb (vlen d) eps_len then Err ValueError else Ok (vscale (/ vlen d) d).
(** d.normalize(); if d.dot(m) < 0: d = -d, cd 394-397, 406-409, 416-419, 421-424 *)
Definition toward (d m : vec) : res vec :=
  do d <- normalize d; Ok (if rltb (dot d m) 0 then vopp d else d).

(** gen_torus_annex_u_planes, cd 379-424: the planes (position, normal), and whether two planes are
    to be joined with "or".  [tv] is tolerances.value, [ta] tolerances.tor_angle. *)
Definition u_planes (ta tv : R) (f : tface) (u1 u2 vmid : R) : res ((vec * vec) * option (vec * vec) * bool) :=
  do axis <- tor_axis ta (tf_axis f);
  let center := tf_center f in
  let p1 := tf_value f u1 vmid in
  let p2 := tf_value f u2 vmid in
  let m := vsub (tf_value f (1 / 2 * (u1 + u2)) vmid) center in
  if rltb (Rabs (Rabs (u2 - u1) - PI)) tv then
    do d <- toward (cross axis (vsub p2 p1)) m; Ok ((center, d), None, false)
  else if rltb (u2 - u1) PI then
    do d <- toward (cross axis (vsub p2 p1)) m; Ok ((center, d), None, false)
  else
    do d1 <- toward (cross axis p1) m;
    do d2 <- toward (cross axis p2) m;
    Ok ((center, d1), Some (center, d2), true).

(** the surfaces that gen_torus_annex_v_surface builds (the radii that only size the drawn shape
    are left out) *)
Inductive annex :=
| NPlane (center ax : vec)
| NCyl (center ax : vec) (radius : R)
| NCone (apex ax : vec) (semi : R).

(** gen_torus_annex_v_surface, cd 427-512: the surface and in_surf.  [td] is tolerances.distance. *)
Definition v_surface (ta td : R) (force_cylinder : bool) (f : tface) (v1 v2 : R) : res (annex * bool) :=
  do axis <- tor_axis ta (tf_axis f);
  let center := tf_center f in
  let major := tf_major f in
  let p1 := vsub (tf_value f 0 v1) center in
  let z1 := dot p1 axis in
  let d1 := vlen (cross p1 axis) in
  let p2 := vsub (tf_value f 0 v2) center in
  let z2 := dot p2 axis in
  let d2 := vlen (cross p2 axis) in
  let p_mid := vsub (tf_value f 0 ((v1 + v2) * (1 / 2))) center in
  if rltb (Rabs (z1 - z2)) td then
    Ok (NPlane (vadd center (vscale z1 axis)) axis, rltb (dot p_mid axis) z1)
  else if rltb (Rabs (d1 - d2)) td || force_cylinder then
    if rltb (Rabs (d1 - major)) td then
      if rltb (vlen (cross p_mid axis)) major then Ok (NCyl center axis (Rmax d1 d2), true)
      else Ok (NCyl center axis (Rmin d1 d2), false)
    else if rltb d1 major then Ok (NCyl center axis (Rmax d1 d2), true)
    else Ok (NCyl center axis (Rmin d1 d2), false)
  else
    if Req_EM_T (d1 - d2) 0 then Err ZeroDivision
    else
      let za := (z2 * d1 - z1 * d2) / (d1 - d2) in
      if Req_EM_T (z1 - za) 0 then Err ZeroDivision
      else
        let semi := Rabs (atan (d1 / (z1 - za))) in
        let cone_axis := if rltb 0 (z1 - za) then axis else vopp axis in
        let d_cone := d1 * (dot p_mid axis - za) / (z1 - za) in
        Ok (NCone (vadd center (vscale za axis)) cone_axis semi, rltb (vlen (cross p_mid axis)) d_cone).

(** degenerate_surface_type, gu 146-150: the a_sign of a torus with MinorRadius > MajorRadius, from
    the point of the first vertex of the face *)
Definition degenerate_sign (center : vec) (major minor : R) (vertex : vec) : R :=
  if rltb (sqrt (minor ^ 2 - major ^ 2)) (vlen (vsub vertex center)) then 1 else -1.

(** *** Grouping of the toroidal faces, on their indices *)

(** list.remove: first occurrence, or ValueError *)
Fixpoint list_remove (x : nat) (l : list nat) : res (list nat) :=
  match l with
  | [] => Err ValueError
  | y :: r => if Nat.eqb x y then Ok r else do r <- list_remove x r; Ok (y :: r)
  end.
Fixpoint remove_all (xs l : list nat) : res (list nat) :=
  match xs with [] => Ok l | x :: r => do l <- list_remove x l; remove_all r l end.

(** same_torus_surf, gu 199-214; [same i j]: is_same_torus of the surfaces of the faces i and j *)
Fixpoint same_torus (fuel : nat) (same : nat -> nat -> bool) (temp : list nat) (acc : list (list nat)) : res (list (list nat)) :=
  match temp with
  | [] => Ok acc
  | i :: r =>
      match fuel with
      | O => Fuel
      | S fu =>
          let current := i :: filter (same i) r in
          do temp <- remove_all current temp;
          same_torus fu same temp (acc ++ [current])
      end
  end.

(** separate_surfaces, the loop of gu 228-232 over temp; [near i j]: the distance of the faces is
    less than tolerances.distance *)
Fixpoint near_scan (near : nat -> bool) (temp current removed : list nat) : list nat * list nat :=
  match temp with
  | [] => (current, removed)
  | t :: r =>
      if near t then
        if has t current then near_scan near r current removed
        else near_scan near r (current ++ [t]) (removed ++ [t])
      else near_scan near r current removed
  end.
(** gu 227-236: the group and what is left *)
Fixpoint grow (fuel : nat) (near : nat -> nat -> bool) (temp current removed : list nat) (i : nat) : res (list nat * list nat) :=
  match temp, nth_error current i with
  | _ :: _, Some c =>
      match fuel with
      | O => Fuel
      | S fu =>
          let '(current, removed) := near_scan (near c) temp current removed in
          do temp <- remove_all removed temp;
          grow fu near temp current [] (S i)
      end
  | _, _ => Ok (current, temp)
  end.
(** gu 222-238, for one group of faces *)
Fixpoint separate_set (fuel : nat) (near : nat -> nat -> bool) (temp : list nat) (acc : list (list nat)) : res (list (list nat)) :=
  match temp with
  | [] => Ok acc
  | t :: _ =>
      match fuel with
      | O => Fuel
      | S fu =>
          do (current, temp) <- grow (S (List.length temp)) near temp [t] [t] 0;
          separate_set fu near temp (acc ++ [current])
      end
  end.
(** gu 217-240 *)
Fixpoint separate_surfaces (near : nat -> nat -> bool) (sets : list (list nat)) (acc : list (list nat)) : res (list (list nat)) :=
  match sets with
  | [] => Ok acc
  | s :: r => do acc <- separate_set (List.length s) near s acc; separate_surfaces near r acc
  end.
(** gu 197-215 *)
Definition torus_groups (same near : nat -> nat -> bool) (l : list nat) : res (list (list nat)) :=
  do sets <- same_torus (List.length l) same l []; separate_surfaces near sets [].

(** *** Merging the parameter ranges of a group *)

(** Python's order on pairs, params.sort(), gu 276 *)
Definition pair_leb (a b : R * R) : bool :=
  if Rlt_dec (fst a) (fst b) then true
  else if Rlt_dec (fst b) (fst a) then false
  else if Rle_dec (snd a) (snd b) then true else false.
Fixpoint insert_pair (p : R * R) (l : list (R * R)) : list (R * R) :=
  match l with
  | [] => [p]
  | q :: r => if pair_leb p q then p :: l else q :: insert_pair p r
  end.
Fixpoint sort_pairs (l : list (R * R)) : list (R * R) :=
  match l with [] => [] | p :: r => insert_pair p (sort_pairs r) end.

Fixpoint total (l : list (R * R)) : R := match l with [] => 0 | p :: r => snd p - fst p + total r end.

(** the loop of gu 284-290: v_max and the next v_min at the first gap, or at the last pair *)
Fixpoint first_gap (rp : R) (p : R * R) (l : list (R * R)) : res (R * R) :=
  match l with
  | [] => Err UnboundLocal                                       (* the loop variable i *)
  | q :: r =>
      if rltb (Rabs (snd p - fst q)) rp then
        match r with [] => Ok (snd p, fst q) | _ :: _ => first_gap rp q r end
      else Ok (snd p, fst q)
  end.

(** merge_periodic_uv, gu 260-301, on the ranges of the faces; [rp] is tolerances.relativePrecision *)
Definition merge_periodic (rp : R) (ranges : list (R * R)) : res (bool * (R * R)) :=
  match sort_pairs ranges with
  | [] => Err IndexError
  | p :: rest =>
      let v0 := fst p in
      let v1 := snd (last rest p) in
      if Rle_dec (2 * PI * (1 - rp)) (total ranges) then Ok (true, (v0, v0 + 2 * PI))
      else if rltb (Rabs (v0 - 0)) rp && rltb (Rabs (v1 - 2 * PI)) rp then
        do (e, b) <- first_gap rp p rest; Ok (false, (b - 2 * PI, e))
      else Ok (false, (v0, v1))
  end.
