(** Model of the functions that edit literals in place:
    /repo/src/geouned/GEOUNED/utils/boolean_function.py 658-679
    (insert_in_sequence, substitute_integer_element; "bf" below),
    /repo/src/geouned/GEOUNED/conversion/cell_definition.py 910-939
    (add_cone_plane) and
    /repo/src/geouned/GEOUNED/write/functions.py 85-96 (change_surf_sign). *)
From Verif Require Import Prelude BoolSpec BoolSeq.

(** bf 661-664: the sequence parsed from "trgt:nsrf" or "trgt nsrf".
    bf 576-606 on two integers: the set of the values is appended (equal values
    once) unless it holds s and -s, which gives the constant.
    Simplification: the two ints are listed in the order target, new; Python's
    order is the set iteration order. *)
Definition ins_elem (op : bop) (t n : Z) : node :=
  if t =? n then Seq op 0 [Lit t]
  else if t =? - n then Cst op (-1) (absorbing op)
  else Seq op 0 [Lit t; Lit n].

(** bf 671-679 substitute_integer_element: loop over the elements; enumerate of
    a bool raises TypeError.  Simplification: the same newElement object is
    stored at each occurrence; the tree model duplicates it; later in-place
    changes through two such aliases are not modelled. *)
Fixpoint subst_int (target : Z) (ne : node) (n : node) : res node :=
  match n with
  | Lit _ => Err AttributeError
  | Cst _ _ _ => Err TypeError
  | Seq op lev l =>
      do l' <- mapM (fun e => match e with
                              | Lit z => Ok (if z =? target then ne else e)
                              | _ => subst_int target ne e
                              end) l;
      Ok (Seq op lev l')
  end.

(** bf 658-668 insert_in_sequence *)
Definition insert_in_sequence (self : node) (trgt nsrf : Z) (op : bop) : res node :=
  do s <- subst_int trgt (ins_elem op trgt nsrf) self;
  Ok (level_update s).

(** cell_definition.py 915-939 add_cone_plane: [cones] lists, for each entry of
    cones_list whose axis is not parallel to a coordinate axis, the signed cone
    number and the signed number of the plane through its apex. *)
Fixpoint add_cone_plane (cones : list (Z * Z)) (self : node) : res node :=
  match cones with
  | [] => Ok self
  | (cid, pid) :: r =>
      do s <- (if 0 <? cid then insert_in_sequence self cid (- pid) OR
               else insert_in_sequence self cid pid AND);
      add_cone_plane r s
  end.

(** write/functions.py 85-96 change_surf_sign.  At level 0 every element must be
    an int (abs of a BoolSequence raises TypeError). *)
Fixpoint change_surf_sign (surf : Z) (n : node) : res node :=
  match n with
  | Lit _ => Err AttributeError
  | Cst _ _ _ => Err TypeError
  | Seq op lev l =>
      do l' <- mapM (fun e => match e with
                              | Lit z => Ok (Lit (if surf =? Z.abs z then - z else z))
                              | _ => if lev =? 0 then Err TypeError
                                     else change_surf_sign surf e
                              end) l;
      Ok (Seq op lev l')
  end.
