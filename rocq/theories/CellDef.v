(** Model of cellDef, /repo/src/geouned/GEOUNED/conversion/cell_definition.py 515-765
    ("cd"), with get_id (cd 28-91), add_plane/add_cylinder/add_cone of the surface
    dictionary (SurfDict.v) and the constructor BoolSequence(text) (ParenModel.v):
    from the faces of the pieces of a solid to the definition of the cell.

    Simplifications.  A face is a record of what the code asks of it: the answers
    of the CAD kernel (area, orientation, kind and geometry of its surface), of
    is_inverted (cd 94-139, one answer for each piece), of gen_plane and sign_plane
    (cd 142-150, 562-579: the additional plane of a concave face and the side of it
    where the centre of mass of the face is; None if there is no plane or the
    function raised, cd 562-569), of SolidGu's grouping of torus faces and of
    gen_torus_annex_u_planes / gen_torus_annex_v_surface.  Log messages and
    set_faces (cd 764) are left out. *)
From Coq Require Import Ascii String.
From Verif Require Import Prelude BoolSpec BoolSeq CellText Writers ParenModel SurfDict.

Inductive orientation := Forward | Reversed | NoOrientation.
(** cd 544-549: orientation when flag_inv is set *)
Definition swap (o : orientation) : orientation :=
  match o with Forward => Reversed | Reversed => Forward | NoOrientation => NoOrientation end.

Definition is_plane (k : key) : bool := match k with PX | PY | PZ | PP => true | _ => false end.
(** cd 557: surface_type in ("<Cylinder object>", "<Cone object>", "Sphere") *)
Definition is_curved (k : key) : bool := match k with Cyl | Cone | Sph => true | _ => false end.

Section CellDef.
  Variable G : Type.
  Variable cls : G -> key.
  Variable same : G -> G -> bool.
  (** is_opposite(axis of the new plane, axis of the registered one) with
      tolerances.pln_angle, and with tolerances.angle (cd 581) *)
  Variable opp opp_x : G -> G -> bool.

  (** What the code asks of a torus face (cd 592-682).
      [t_aligned]: axis along X, Y or Z (cd 598-602); [t_inner]: Degenerated and
      a_sign < 0 (cd 593); [t_group]: TorusUParams[iface][0]; [t_u]: None if the U
      range is closed, else plane1 and plane2 of gen_torus_annex_u_planes (the flag
      ORop is true exactly when plane2 is there, cd 383-424); [t_v]: None if the V
      range is closed or the torus Degenerated, else the surface of
      gen_torus_annex_v_surface and in_surf. *)
  Record torus := Torus {
    t_aligned : bool; t_inner : bool; t_group : Z;
    t_u : option (G * option G); t_v : option (G * bool) }.
  (** [f_small]: abs(face.Area) < tolerances.min_area (cd 533); [f_geo]: None for a
      kind of surface the code does not know; [f_extra]: the plane of gen_plane and
      sign_plane(face.CenterOfMass, p) = 1. *)
  Record face := Face {
    f_small : bool; f_orient : orientation; f_geo : option G;
    f_extra : option (G * bool); f_torus : torus }.
  (** A piece: is_inverted(solid) and its faces. *)
  Record piece := Piece { p_inv : bool; p_faces : list face }.

  (** get_id, cd 28-91: number of the first registered surface that is the same,
      or 0.  (SurfacesDict's cached position is not touched.) *)
  Definition get_id (g : G) (d : sdict G) : Z :=
    match find_same G same g 0 (group d (cls g)) with Some (_, ix) => ix | None => 0 end.

  (** cd 577-583, 618-632, 665-674: register a plane; number with a minus sign if
      the plane was there with the opposite axis *)
  Definition add_signed (op : G -> G -> bool) (g : G) (d : sdict G) : res (sdict G * Z) :=
    let '(d1, (id, known)) := add G cls same g d in
    if known then
      do (d2, s) <- get_surface id d1;
      match s with
      | Some s => Ok (d2, if op g (geo s) then - id else id)
      | None => Err AttributeError
      end
    else Ok (d1, id).

  (** Variables of the loop over the faces, cd 525-529.  [s_extra]:
      extra_plane_reverse, in insertion order. *)
  Record st := St {
    s_dict : sdict G; s_piece : list chars; s_extra : list (Z * list chars); s_last : Z; s_cones : list Z }.

  (** x in list, for strings *)
  Definition in_strs (s : chars) (l : list chars) : bool :=
    existsb (fun t => if list_eq_dec ascii_dec s t then true else false) l.
  (** if s not in surf_piece: surf_piece.append(s) *)
  Definition add_str (s : chars) (l : list chars) : list chars := if in_strs s l then l else l ++ [s].
  (** cones.add *)
  Definition add_cone (z : Z) (l : list Z) : list Z := if existsb (Z.eqb z) l then l else l ++ [z].
  (** cd 585-591 *)
  Fixpoint add_extra (k : Z) (s : chars) (l : list (Z * list chars)) : list (Z * list chars) :=
    match l with
    | [] => [(k, [s])]
    | (k', es) :: r => if k' =? k then (k', add_str s es) :: r else (k', es) :: add_extra k s r
    end.

  (** cd 557-591: concave cylinder, cone or sphere *)
  Definition curved_step (f : face) (g : G) (s : st) : res st :=
    let id_face := get_id g (s_dict s) in
    let cones := match cls g with Cone => add_cone id_face (s_cones s) | _ => s_cones s end in
    let pc := add_str (str_int id_face) (s_piece s) in
    match f_extra f with
    | None => Ok (St (s_dict s) pc (s_extra s) (s_last s) cones)
    | Some (p, sg) =>
        do (d, id) <- add_signed opp_x p (s_dict s);
        let id := if (sg : bool) then id else - id in
        Ok (St d pc (add_extra id_face (str_int id) (s_extra s)) (s_last s) cones)
    end.

  (** cd 613-637: u_var (with the blank that joins it, cd 678) *)
  Definition torus_u (u : option (G * option G)) (d : sdict G) : res (sdict G * chars) :=
    match u with
    | None => Ok (d, [])
    | Some (p1, None) => do (d1, id1) <- add_signed opp p1 d; Ok (d1, cs " " ++ str_int id1)
    | Some (p1, Some p2) =>
        do (d1, id1) <- add_signed opp p1 d;
        do (d2, id2) <- add_signed opp p2 d1;
        Ok (d2, cs " (" ++ str_int id1 ++ cs " : " ++ str_int id2 ++ cs ")")
    end.
  (** cd 639-676: v_var *)
  Definition torus_v (o : orientation) (idT : Z) (v : option (G * bool)) (d : sdict G) : res (sdict G * chars) :=
    match o with
    | Forward => Ok (d, cs "-" ++ str_int idT)
    | _ =>
        match v with
        | None => Ok (d, str_int idT)
        | Some (a, ins) =>
            do (d1, id2) <- (if is_plane (cls a) then add_signed opp a d
                             else let '(d1, (id2, _)) := add G cls same a d in Ok (d1, id2));
            Ok (d1, str_int idT ++ cs " " ++ str_int (if (ins : bool) then - id2 else id2))
        end
    end.
  (** cd 592-684 *)
  Definition torus_step (o : orientation) (f : face) (g : G) (s : st) : res st :=
    let t := f_torus f in
    let o := if t_inner t then match o with Forward => Reversed | _ => Forward end else o in
    if t_aligned t then
      let idT := get_id g (s_dict s) in
      if t_group t =? s_last s then Ok s
      else
        do (d1, u_var) <- torus_u (t_u t) (s_dict s);
        do (d2, v_var) <- torus_v o idT (t_v t) d1;
        Ok (St d2 (add_str (v_var ++ u_var) (s_piece s)) (s_extra s) (t_group t) (s_cones s))
    else Ok s.

  (** cd 685-736: planes, and convex cylinders, cones and spheres *)
  Definition other_step (o : orientation) (g : G) (s : st) : res st :=
    let id := get_id g (s_dict s) in
    let cones := match cls g with Cone => add_cone (- id) (s_cones s) | _ => s_cones s end in
    let '(d, id) :=
      if id =? 0 then
        match cls g with
        | PX | PY | PZ | PP | Cyl => let '(d1, (ix, _)) := add G cls same g (s_dict s) in (d1, ix)
        | _ => (s_dict s, id)
        end
      else (s_dict s, id) in
    let var := match o with Forward => - id | _ => id end in
    do (d, var) <-
      (if is_plane (cls g) then
         do (d', r) <- get_surface id d;
         match r with
         | Some r => Ok (d', if opp g (geo r) then - var else var)
         | None => Err AttributeError
         end
       else Ok (d, var));
    Ok (St d (add_str (str_int var) (s_piece s)) (s_extra s) (s_last s) cones).

  (** cd 530-736, body of the loop.  A surface of unknown kind gets number 0. *)
  Definition face_step (inv : bool) (f : face) (s : st) : res st :=
    if f_small f then Ok s
    else match f_orient f with
    | NoOrientation => Ok s
    | o =>
        let o := if inv then swap o else o in
        match f_geo f with
        | None => Ok (St (s_dict s) (add_str (str_int 0) (s_piece s)) (s_extra s) (s_last s) (s_cones s))
        | Some g =>
            match cls g, o with
            | Tor, _ => torus_step o f g s
            | Cyl, Reversed | Cone, Reversed | Sph, Reversed => curved_step f g s
            | _, _ => other_step o g s
            end
        end
    end.
  Fixpoint face_loop (inv : bool) (fs : list face) (s : st) : res st :=
    match fs with
    | [] => Ok s
    | f :: r => do s <- face_step inv f s; face_loop inv r s
    end.

  (** cd 738-744 *)
  Fixpoint put_extra (l : list (Z * list chars)) (pc : list chars) : list chars :=
    match l with
    | [] => pc
    | (_, [e]) :: r => put_extra r (add_str e pc)
    | (_, es) :: r => put_extra r (pc ++ [cs "(" ++ join_str (cs ":") es ++ cs ")"])
    end.

  (** BoolSequence(" ".join(surf_piece)), cd 746; for the empty text an empty
      sequence.  None: surf_piece_bool.elements is empty or False (cd 760). *)
  Definition piece_node (sord : list Z -> list Z) (pc : list chars) : res (option node) :=
    match join_str (cs " ") pc with
    | [] => Ok None
    | t => do n <- parse sord t;
           Ok (match n with
               | Cst _ _ b => if b then Some n else None
               | Seq _ _ [] => None
               | _ => Some n
               end)
    end.

  Definition piece_step (sord : list Z -> list Z) (p : piece) (d : sdict G) (cones : list Z) :
      res (sdict G * list Z * option node) :=
    do s <- face_loop (p_inv p) (p_faces p) (St d [] [] (-1) cones);
    do n <- piece_node sord (put_extra (s_extra s) (s_piece s));
    Ok (s_dict s, s_cones s, n).

  (** cd 523-765: loop over the pieces.  Result: the dictionary, the pieces kept
      (the others are deleted from meta_obj.Solids), the definition and the cones. *)
  Fixpoint cell_loop (sord : list Z -> list Z) (ps : list piece) (d : sdict G) (def : node) (kept : list piece)
      (cones : list Z) : res (sdict G * list piece * node * list Z) :=
    match ps with
    | [] => Ok (d, kept, def, cones)
    | p :: r =>
        do (d, cones, n) <- piece_step sord p d cones;
        match n with
        | Some n => do def <- append def [AN n]; cell_loop sord r d def (kept ++ [p]) cones
        | None => cell_loop sord r d def kept cones
        end
    end.
  Definition cell_def (sord : list Z -> list Z) (ps : list piece) (d : sdict G) :
      res (sdict G * list piece * node * list Z) :=
    cell_loop sord ps d (Seq OR 0 []) [] [].
End CellDef.
Arguments Torus {G}. Arguments t_aligned {G}. Arguments t_inner {G}. Arguments t_group {G}.
Arguments t_u {G}. Arguments t_v {G}.
Arguments Face {G}. Arguments f_small {G}. Arguments f_orient {G}. Arguments f_geo {G}.
Arguments f_extra {G}. Arguments f_torus {G}.
Arguments Piece {G}. Arguments p_inv {G}. Arguments p_faces {G}.
Arguments St {G}. Arguments s_dict {G}. Arguments s_piece {G}. Arguments s_extra {G}.
Arguments s_last {G}. Arguments s_cones {G}.
