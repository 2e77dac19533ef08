(** Model of the last step of a conversion: the planes through the apex of the cones,
    /repo/src/geouned/GEOUNED/core.py 692-723 (process_cones; "co" below),
    /repo/src/geouned/GEOUNED/conversion/cell_definition.py 910-939 (add_cone_plane; "cd")
    and, of void/void_box_class.py 234-239, 243-247, the list of the cells of a void. *)
From Verif Require Import Prelude BoolSpec BoolSeq BoolEdit SurfDict CellDef.

(** What the step reads of a GeounedSolid.  [m_id]: __id__ (None for a comment line of the
    list, core 572-574); [m_info]: __commentInfo__, None, or its second component, None or
    the ids of the cells in the void box (void.py 155, 175); [m_def]: Definition, None for
    a comment line. *)
Record mcell := MC { m_id : option Z; m_void : bool; m_info : option (option (list Z)); m_def : option node }.
Definition set_def (m : mcell) (n : node) : mcell := MC (m_id m) (m_void m) (m_info m) (Some n).

(** void_box_class.py 234-239: the ids kept for the comment of a void: those of the
    objects that are not enclosures.  [None]: vb 243-247, there is no object at all.
    Simplification: vb 276-279, 307-310 also give None; there the definition is the box. *)
Definition cells_in (objs : list (bool * Z)) : option (list Z) :=
  match objs with
  | [] => None
  | _ => Some (map snd (filter (fun o => negb (fst o)) objs))
  end.

(** coneInfo, a dict from ids to tuples of signed surface numbers *)
Definition cinfo := list (Z * list Z).
Definition info_of (ci : cinfo) (i : Z) : option (list Z) :=
  match find (fun e => fst e =? i) ci with Some (_, cs) => Some cs | None => None end.

(** co 701-704: the set of the opposite numbers of the cones of the cells *)
Fixpoint void_cones (ci : cinfo) (l : list Z) (acc : list Z) : list Z :=
  match l with
  | [] => acc
  | i :: r =>
      void_cones ci r
        (match info_of ci i with
         | Some cs => fold_left (fun a x => if existsb (Z.eqb (- x)) a then a else a ++ [- x]) cs acc
         | None => acc
         end)
  end.

Section Cones.
  Variable G : Type.
  Variable cls : G -> key.
  Variable same : G -> G -> bool.
  (** is_opposite(plane.Surf.Axis, p.Surf.Axis, tolerances.pln_angle), cd 932 *)
  Variable opp : G -> G -> bool.
  (** cd 917-921: the axis of the cone is parallel to x_axis, y_axis or z_axis within
      tolerances.angle *)
  Variable aligned : G -> bool.
  (** cd 923-927: the plane through Surf.Apex with the direction of Surf.Axis *)
  Variable apex : G -> G.
  (** iteration order of a set of numbers *)
  Variable iord : list Z -> list Z.

  (** cd 915-939: one cone of the list.  add_plane is called with fuzzy = False.
      Simplification: a number of the list that is not a cone has an Axis and an Apex too
      (in the code AttributeError, unless the axis is along X, Y or Z). *)
  Definition cone_step (cid : Z) (d : sdict G) (n : node) : res (sdict G * node) :=
    do (d1, s) <- get_surface (Z.abs cid) d;
    match s with
    | None => Err AttributeError
    | Some s =>
        if aligned (geo s) then Ok (d1, n)
        else
          do (d2, pid) <- add_signed G cls same opp (apex (geo s)) d1;
          do n' <- (if 0 <? cid then insert_in_sequence n cid (- pid) OR
                    else insert_in_sequence n cid pid AND);
          Ok (d2, n')
    end.
  (** cd 910-939 *)
  Fixpoint cone_loop (l : list Z) (d : sdict G) (n : node) : res (sdict G * node) :=
    match l with
    | [] => Ok (d, n)
    | c :: r => do (d1, n1) <- cone_step c d n; cone_loop r d1 n1
    end.
  (** add_cone_plane(m.Definition, cones, ...); a comment line has no Definition: the loop
      of substitute_integer_element over None.elements raises AttributeError *)
  Definition put_planes (l : list Z) (d : sdict G) (m : mcell) : res (sdict G * mcell) :=
    match m_def m with
    | Some n => do (d1, n1) <- cone_loop l d n; Ok (d1, set_def m n1)
    | None => match l with [] => Ok (d, m) | _ => Err AttributeError end
    end.

  (** co 694-723, body of the loop *)
  Definition cell_step (ci : cinfo) (d : sdict G) (m : mcell) : res (sdict G * mcell) :=
    if m_void m then
      match m_info m with
      | None => Ok (d, m)
      | Some None => Ok (d, m)
      | Some (Some l) => put_planes (iord (void_cones ci l [])) d m
      end
    else
      match m_id m with
      | None => Ok (d, m)
      | Some i => match info_of ci i with
                  | None => Ok (d, m)
                  | Some cs => put_planes cs d m
                  end
      end.
  Fixpoint process_cones (ci : cinfo) (ms : list mcell) (d : sdict G) : res (sdict G * list mcell) :=
    match ms with
    | [] => Ok (d, [])
    | m :: r =>
        do (d1, m1) <- cell_step ci d m;
        do (d2, r2) <- process_cones ci r d1;
        Ok (d2, m1 :: r2)
    end.
End Cones.
