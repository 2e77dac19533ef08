(** Boxes of GEOReverse:
    /repo/src/geouned/GEOReverse/Modules/Utils/boundBox.py ("bb"), class myBox and the
    combination of the boxes of a definition; Objects.py ("ob") makeBox.
    FreeCAD.BoundBox is six real numbers; floats are real numbers. *)
From Verif Require Import Prelude BoolSpec BoolSeq Vec3 Prim.
Open Scope R_scope.

(** FreeCAD.BoundBox(XMin, YMin, ZMin, XMax, YMax, ZMax) *)
Record bbox := BB { xmin : R; ymin : R; zmin : R; xmax : R; ymax : R; zmax : R }.
(** BoundBox.add(box): smallest box with both *)
Definition hull (a b : bbox) : bbox :=
  BB (Rmin (xmin a) (xmin b)) (Rmin (ymin a) (ymin b)) (Rmin (zmin a) (zmin b))
     (Rmax (xmax a) (xmax b)) (Rmax (ymax a) (ymax b)) (Rmax (zmax a) (zmax b)).
(** BoundBox.intersected(box) and isValid() *)
Definition meet (a b : bbox) : bbox :=
  BB (Rmax (xmin a) (xmin b)) (Rmax (ymin a) (ymin b)) (Rmax (zmin a) (zmin b))
     (Rmin (xmax a) (xmax b)) (Rmin (ymax a) (ymax b)) (Rmin (zmax a) (zmax b)).
Definition rleb (a b : R) : bool := if Rle_dec a b then true else false.
Definition valid (b : bbox) : bool := rleb (xmin b) (xmax b) && rleb (ymin b) (ymax b) && rleb (zmin b) (zmax b).

(** Orientation of a myBox.  A myBox always has one (bb 124-125). *)
Inductive side_of := Fwd | Rev.
Definition same_side (a b : side_of) : bool := match a, b with Fwd, Fwd | Rev, Rev => true | _, _ => false end.
Record mybox := MB { mb_box : option bbox; mb_or : side_of }.

(** bb 106-125 myBox(boundBox, orientation): a flat box is no box *)
Definition tiny : R := / 10 ^ 12.
Definition mk_box (b : option bbox) (o : side_of) : mybox :=
  match b with
  | Some c => if rleb (xmax c - xmin c) tiny || rleb (ymax c - ymin c) tiny || rleb (zmax c - zmin c) tiny
              then MB None o else MB (Some c) o
  | None => MB None o
  end.

(** bb 127-139 add *)
Definition box_add (s t : mybox) : mybox :=
  match mb_box s with
  | None => match mb_or s with Fwd => t | Rev => s end
  | Some a =>
      match mb_box t with
      | None => match mb_or t with Rev => MB None Rev | Fwd => s end
      | Some b => MB (Some (hull a b)) (if same_side (mb_or s) (mb_or t) then mb_or s else Rev)
      end
  end.
(** bb 141-164 mult *)
Definition box_mult (s t : mybox) : mybox :=
  match mb_box s with
  | None => match mb_or s with Rev => t | Fwd => s end
  | Some a =>
      match mb_box t with
      | None => match mb_or t with Fwd => MB None Fwd | Rev => s end
      | Some b =>
          let box := match mb_or s, mb_or t with
                     | Fwd, Fwd => if valid (meet a b) then Some (meet a b) else None
                     | _, _ => Some (hull a b)
                     end in
          MB box (if same_side (mb_or s) (mb_or t) then mb_or s else Fwd)
      end
  end.

(** bb 284-295: the loop over the boxes of the parts *)
Fixpoint box_loop (op : bop) (m : mybox) (l : list mybox) : mybox :=
  match l with
  | [] => m
  | b :: r =>
      let m' := match op with AND => box_mult m b | OR => box_add m b end in
      match op, mb_box m', mb_or m' with
      | AND, None, Fwd => m'
      | OR, None, Rev => m'
      | _, _, _ => box_loop op m' r
      end
  end.
(** bb 268-297 build_box_depth, [comp] being get_component_boundBox (bb 299-386) on the
    part.  bb 238-241: self.copy(c) keeps the planes of the part. *)
Section Depth.
  Variable comp : node -> res mybox.
  Fixpoint box_depth (n : node) : res mybox :=
    match n with
    | Lit _ => Err AttributeError
    | Cst _ lev b => if (lev =? 0)%Z then comp n else Ok (MB None (if b then Rev else Fwd))
    | Seq op lev l =>
        if (lev =? 0)%Z then comp n
        else
          do bs <- mapM box_depth l;
          match bs with
          | [] => Err IndexError
          | b :: r => Ok (box_loop op b r)
          end
    end.
  (** bb 255-266 get_boundBox(enlarge) *)
  Definition enlarge_box (k : R) (b : bbox) : bbox :=
    let dx := (xmax b - xmin b) * k in
    let dy := (ymax b - ymin b) * k in
    let dz := (zmax b - zmin b) * k in
    BB (xmin b - dx) (ymin b - dy) (zmin b - dz) (xmax b + dx) (ymax b + dy) (zmax b + dz).
  Definition get_bound_box (k : R) (n : node) : res mybox :=
    do m <- box_depth n;
    Ok (match mb_box m with
        | Some b => if rltb 0 k then MB (Some (enlarge_box k b)) (mb_or m) else m
        | None => m
        end).
End Depth.
(** ob 108-120 makeBox: the solid the cell is cut from *)
Definition make_box (ext : bbox) (m : mybox) : option bbox :=
  let b := match mb_or m, mb_box m with
           | Fwd, Some b => b
           | _, _ => ext
           end in
  if rltb (xmax b - xmin b) (/ 10 ^ 6) || rltb (ymax b - ymin b) (/ 10 ^ 6) || rltb (zmax b - zmin b) (/ 10 ^ 6)
  then None else Some b.
