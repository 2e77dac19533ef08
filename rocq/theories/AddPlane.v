(** The auxiliary planes added next to concave faces:
    /repo/src/geouned/GEOUNED/conversion/cell_definition.py ("cd") 140-376.
    Floats are real numbers.  A face of the solid is its surface, its area, its
    parameter range and its parametrisation (what FreeCAD reports); the log is
    not modelled. *)
From Verif Require Import Prelude Vec3 Geom Prim SurfCards.
From Coq Require Import List.
Open Scope R_scope.

Definition look {A} (o : option A) (e : err) : res A := match o with Some a => Ok a | None => Err e end.

(** an end of the angular range of a face, with the index of the face: cd 158-159 *)
Definition node := (R * nat)%type.

(** Python's order on tuples, used by [u_nodes.sort()], cd 160 *)
Definition node_leb (a b : node) : bool :=
  if Rlt_dec (fst a) (fst b) then true
  else if Rlt_dec (fst b) (fst a) then false else Nat.leb (snd a) (snd b).

(** list.sort, cd 160 (stable; the order is total) *)
Fixpoint insert_node (n : node) (l : list node) : list node :=
  match l with
  | [] => [n]
  | m :: r => if node_leb n m then n :: l else m :: insert_node n r
  end.
Fixpoint sort_nodes (l : list node) : list node :=
  match l with [] => [] | n :: r => insert_node n (sort_nodes r) end.

(** the dictionary pos_min, cd 188-191: first position of the index *)
Fixpoint first_pos (k : nat) (ns : list node) : option nat :=
  match ns with
  | [] => None
  | n :: r => if Nat.eqb (snd n) k then Some 0%nat
              else match first_pos k r with Some j => Some (S j) | None => None end
  end.
(** last position of the index *)
Fixpoint last_pos (k : nat) (ns : list node) : option nat :=
  match ns with
  | [] => None
  | n :: r => match last_pos k r with
              | Some j => Some (S j)
              | None => if Nat.eqb (snd n) k then Some 0%nat else None
              end
  end.
(** the dictionary pos_max, cd 192-193: written at every occurrence after the first *)
Definition pos_max (ns : list node) (k : nat) : option nat :=
  match first_pos k ns, last_pos k ns with
  | Some i, Some j => if Nat.ltb i j then Some j else None
  | _, _ => None
  end.

(** the gap below which two ranges are joined, cd 205, 226 *)
Definition gap : R := 1 / 100000.

(** the inner loop, cd 201-209: position of the end of the first later range that
    begins before [x] plus the gap *)
Fixpoint scan (ns : list node) (x : R) (later : list node) : res (option nat) :=
  match later with
  | [] => Ok None
  | n :: r =>
      do p <- look (first_pos (snd n) ns) KeyError;
      do a <- look (nth_error ns p) IndexError;
      if rltb (fst a - x) gap then
        do q <- look (pos_max ns (snd n)) KeyError; Ok (Some q)
      else scan ns x r
  end.

(** the outer loop, cd 198-218 *)
Fixpoint runs (fuel : nat) (ns : list node) (u_min : node) (i_pos : nat) (acc : list (node * node))
  : res (list (node * node)) :=
  match fuel with
  | O => Fuel
  | S f =>
      do x <- look (nth_error ns i_pos) IndexError;
      do nx <- scan ns (fst x) (skipn (S i_pos) ns);
      match nx with
      | Some j => runs f ns u_min j acc
      | None =>
          let acc := acc ++ [(u_min, x)] in
          match nth_error ns (S i_pos) with
          | Some u => do j <- look (pos_max ns (snd u)) KeyError; runs f ns u j acc
          | None => Ok acc
          end
      end
  end.

(** [u_min, u_max, index] of one closed range *)
Record rng := Rng { r_min : node; r_max : node; r_idx : list nat }.

(** the indices of a range, cd 220-228 (a set: only membership is used) *)
Definition add_index (ns : list node) (r : node * node) : rng :=
  Rng (fst r) (snd r)
      (map snd (filter (fun n => rltb (fst (fst r) - fst n) gap && rltb (fst n - fst (snd r)) gap) ns)).

(** get_intervals, cd 184-230 *)
Definition get_intervals (ns : list node) : res (list rng) :=
  do u <- look (nth_error ns 0) IndexError;
  do i <- look (pos_max ns (snd u)) KeyError;
  do rs <- runs (S (List.length ns)) ns u i [];
  Ok (map (add_index ns) rs).

(** the test of a full turn, cd 167, 177 *)
Definition full_turn (a b : R) : bool := rltb (Rabs (b - a - 2 * PI)) (1 / 100).

(** get_closed_ranges, cd 152-182, on the parameter ranges [us] of the faces *)
Definition get_closed_ranges (us : nat -> R * R) (face_index : list nat) : res (list rng * bool) :=
  let ns := sort_nodes (flat_map (fun k => [(fst (us k), k); (snd (us k), k)]) face_index) in
  do rs <- get_intervals ns;
  match rs with
  | [] => Err IndexError
  | r0 :: rest =>
      let rl := last rest r0 in
      if full_turn (fst (r_min r0)) (fst (r_max rl)) then
        match rest with
        | [] => Ok (rs, true)
        | _ :: _ =>
            let e := (fst (r_min rl) - 2 * PI, snd (r_min rl)) in
            let r0' := Rng e (r_max r0) (r_idx r0 ++ r_idx rl) in
            match removelast rest with
            | [] => Ok ([r0'], full_turn (fst e) (fst (r_max r0)))
            | mid => Ok (r0' :: mid, false)
            end
        end
      else Ok (rs, false)
  end.

(** get_u_value_boundary, cd 233-242; when no range has the face the function
    returns None, which its callers cannot unpack *)
Definition get_u_value_boundary (us : nat -> R * R) (face_index : list nat) (my : nat)
  : res (option (node * node)) :=
  do rc <- get_closed_ranges us face_index;
  let '(rs, closed) := rc in
  if closed then Ok None
  else match find (fun r => existsb (Nat.eqb my) (r_idx r)) rs with
       | Some r => Ok (Some (r_min r, r_max r))
       | None => Err TypeError
       end.

(** what FreeCAD tells about a face *)
Inductive fsurf :=
| FCyl (ax center : vec) (radius : R)
| FCone (ax apex : vec) (semi : R)
| FSphere (center : vec) (radius : R)
| FOther.
Record gface := GFace {
  gf_surf : fsurf;
  gf_area : R;
  gf_u0 : R; gf_u1 : R; gf_v0 : R;            (* ParameterRange[0], [1], [2] *)
  gf_value : R -> R -> vec                    (* valueAt *)
}.

(** is_in_line, b1 22-24 (the tolerance of is_parallel is its default) *)
Definition is_in_line (point dir pnt_line : vec) : bool :=
  let r12 := vsub point pnt_line in
  parallel_tol (1 / 10 ^ 6) dir r12 || rltb (vlen r12) (1 / 10 ^ 6).

(** the faces grouped with face [my]: cd 288-303; two faces of the solid are equal
    (isEqual) iff they have the same index *)
Definition same_cyl (f f2 : gface) : bool :=
  match gf_surf f, gf_surf f2 with
  | FCyl ax c r, FCyl ax2 c2 r2 =>
      is_equal (1 / 100000) ax2 ax && (if Req_EM_T r2 r then true else false) && is_in_line c2 ax c
  | _, _ => false
  end.
(** cd 339-353: the difference of the angles is compared without its absolute value *)
Definition same_cone (f f2 : gface) : bool :=
  match gf_surf f, gf_surf f2 with
  | FCone ax a s, FCone ax2 a2 s2 =>
      is_equal (1 / 100000) ax2 ax && is_equal (1 / 100000) a2 a && rltb (s2 - s) (1 / 10 ^ 6)
  | _, _ => false
  end.
Definition face_group (same : gface -> gface -> bool) (min_area : R) (fs : list gface) (f : gface) (my : nat) : list nat :=
  my :: filter (fun i => match nth_error fs i with
                         | Some f2 => negb (rltb (gf_area f2) min_area) && negb (Nat.eqb i my) && same f f2
                         | None => false
                         end) (seq 0 (List.length fs)).

Definition u_range (fs : list gface) (k : nat) : R * R :=
  match nth_error fs k with Some f => (gf_u0 f, gf_u1 f) | None => (0, 0) end.

(** the end points, cd 309-316 and 359-366 *)
Definition end_point (fs : list gface) (n : node) : res vec :=
  do f <- look (nth_error fs (snd n)) IndexError; Ok (gf_value f (fst n) (gf_v0 f)).

(** gen_plane_cylinder, cd 280-326: position and normal of the plane *)
Definition gen_plane_cylinder (min_area : R) (fs : list gface) (my : nat) : res (option (vec * vec)) :=
  do f <- look (nth_error fs my) IndexError;
  match gf_surf f with
  | FCyl ax _ _ =>
      do b <- get_u_value_boundary (u_range fs) (face_group same_cyl min_area fs f my) my;
      match b with
      | None => Ok None
      | Some (n1, n2) =>
          do p1 <- end_point fs n1;
          do p2 <- end_point fs n2;
          if is_equal (1 / 100000) p1 p2 then Ok None
          else
            let normal := cross (vsub p2 p1) ax in
            if rltb (vlen normal) (1 / 10 ^ 10) then Ok None else Ok (Some (p1, normal))
      end
  | _ => Ok None
  end.

(** gen_plane_cone, cd 329-376; Part.Plane through three points has the normal
    (p2 - p1) x (apex - p1) and fails on aligned points *)
Definition gen_plane_cone (min_area : R) (fs : list gface) (my : nat) : res (option (vec * vec)) :=
  do f <- look (nth_error fs my) IndexError;
  match gf_surf f with
  | FCone _ apex _ =>
      do b <- get_u_value_boundary (u_range fs) (face_group same_cone min_area fs f my) my;
      match b with
      | None => Ok None
      | Some (n1, n2) =>
          do p1 <- end_point fs n1;
          do p2 <- end_point fs n2;
          if is_equal (1 / 100000) p1 p2 then Ok None
          else
            let normal := cross (vsub p2 p1) (vsub apex p1) in
            if Req_EM_T (vlen normal) 0 then Err ValueError else Ok (Some (p1, normal))
      end
  | _ => Ok None
  end.

(** A spherical face, as used by gen_plane_sphere *)
Record sface := SFace { sf_sphere : bool; sf_center : vec; sf_radius : R; sf_area : R; sf_com : vec }.

Definition vec_eqb (a b : vec) : bool :=
  if Req_EM_T (vx a) (vx b) then if Req_EM_T (vy a) (vy b) then if Req_EM_T (vz a) (vz b) then true else false else false else false.

(** the loop of cd 249-257: [dist i j] is distToShape of the faces i and j *)
Fixpoint sphere_group (dist : nat -> nat -> R) (fs : list sface) (f : sface) (my i : nat) (todo : list sface) (same : list nat) : list nat :=
  match todo with
  | [] => same
  | g :: r =>
      sphere_group dist fs f my (S i) r
        (if Nat.eqb i my || negb (sf_sphere g) then same
         else if vec_eqb (sf_center g) (sf_center f) && (if Req_EM_T (sf_radius g) (sf_radius f) then true else false)
              then if existsb (fun j => rltb (dist i j) (1 / 10 ^ 6)) same then same ++ [i] else same
              else same)
  end.

(** machine epsilon: Vector.normalize fails on a shorter vector *)
Definition eps_len : R := / 2 ^ 52.

Fixpoint vsum (l : list vec) : vec := match l with [] => vzero | v :: r => vadd v (vsum r) end.
Fixpoint rmin_list (m : R) (l : list R) : R := match l with [] => m | x :: r => rmin_list (Rmin m x) r end.

(** gen_plane_sphere, cd 245-277; [pdist c n j] is the distance of face j to the plane
    through c with normal n *)
Definition gen_plane_sphere (dist : nat -> nat -> R) (pdist : vec -> vec -> nat -> R) (fs : list sface) (my : nat)
  : res (option (vec * vec)) :=
  do f <- look (nth_error fs my) IndexError;
  let same := sphere_group dist fs f my 0 fs [my] in
  do parts <- mapM (fun j => do g <- look (nth_error fs j) IndexError;
                             Ok (vscale (sf_area g) (vsub (sf_com g) (sf_center f)))) same;
  let normal := vsum parts in
  if rltb (vlen normal) eps_len then Err ValueError
  else
    let n := vscale (/ vlen normal) normal in
    let dmin := rmin_list (2 * sf_radius f) (map (pdist (sf_center f) n) same) in
    if rltb (1 / 10 ^ 6) dmin then Ok (Some (vadd (sf_center f) (vscale (95 / 100 * dmin) n), n)) else Ok None.

(** same_faces, /repo/src/geouned/GEOUNED/decompose/decom_one.py 364-398, on [n] faces;
    [touch i j]: contiguous_face of the faces i and j.  The answer is a set. *)
Definition couples (touch : nat -> nat -> bool) (n i : nat) : list nat :=
  filter (touch i) (seq (S i) (n - S i)).
Definition has (x : nat) (l : list nat) : bool := existsb (Nat.eqb x) l.
Fixpoint same_loop (touch : nat -> nat -> bool) (n : nat) (elems lista : list nat) : list nat :=
  match elems with
  | [] => lista
  | e :: r =>
      same_loop touch n r
        (if has e lista then lista ++ couples touch n e
         else fold_left (fun l e2 => if has e2 l then l ++ [e] else l) (couples touch n e) lista)
  end.
Definition same_faces (touch : nat -> nat -> bool) (n : nat) : res (list nat) :=
  match n with
  | O => Err KeyError                                  (* Connection[0] *)
  | S O => Ok []
  | _ =>
      let lista := couples touch n 0 in
      match lista with
      | [] => Ok []
      | _ => Ok (same_loop touch n (seq 1 (n - 2)) lista)
      end
  end.
