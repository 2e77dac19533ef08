(** Model of no_overlapping_cell,
    /repo/src/geouned/GEOUNED/conversion/cell_definition.py 785-907 ("cd"), called by
    core.py 461-462 when options.forceNoOverlap is set.
    CAD bounding boxes are an abstract type [B] with the test [meets]
    (BoundBox.intersect); the constraint tables of a cell are built by [mk]. *)
From Verif Require Import Prelude BoolSpec BoolSeq CtSpec Ctable.

(** cd 785-801 get_surf_value: the elements of a list of surfaces.  Sub-sequences cannot
    be negated; in the other case they are kept in the set as objects, which never equal
    an int, so they are left out here. *)
Definition ints (reverse : bool) (l : list node) : res (list Z) :=
  if reverse then mapM (fun n => match n with Lit z => Ok (- z) | _ => Err TypeError end) l
  else Ok (flat_map (fun n => match n with Lit z => [z] | _ => [] end) l).
(** cd 793-800: first child that is an intersection *)
Fixpoint first_and (reverse : bool) (l : list node) : res (list Z) :=
  match l with
  | [] => Ok []
  | Lit _ :: _ => Err AttributeError
  | Cst AND _ _ :: _ => Err TypeError
  | Seq AND _ xs :: _ => ints reverse xs
  | _ :: r => first_and reverse r
  end.
(** cd 785-801 *)
Definition get_surf_value (reverse : bool) (n : node) : res (list Z) :=
  match n with
  | Lit _ => Err AttributeError
  | Cst _ _ _ => Err TypeError
  | Seq _ lev l => if lev =? 0 then ints reverse l else first_and reverse l
  end.
(** cd 813, 825: the two sets have a common element *)
Definition common (a b : list Z) : bool := existsb (fun x => existsb (Z.eqb x) b) a.

Section NoOverlap.
  Variable B : Type.
  Variable meets : B -> B -> bool.

  (** What is used of a GeounedSolid: Definition ([None]: the empty list it has until
      cellDef is called, utils/functions.py 77), the box of CADSolid, the boxes of Solids. *)
  Record meta := Meta { mdef : option node; mbox : B; parts : list B }.
  Definition with_def (m : meta) (d : node) : meta := Meta (Some d) (mbox m) (parts m).

  (** cd 807-816, 822-828: the complement of [s] is put in [new] unless one of its surfaces
      is opposite to one of the cell ([surf_cell]).  get_complementary regroups [s]. *)
  Definition put_comp (new : node) (surf_cell : list Z) (s : node) : res (bool * node * node) :=
    do sc <- get_surf_value false s;
    if common sc surf_cell then Ok (false, new, s)
    else
      do (c, s') <- get_complementary s;
      do new' <- append new [AN c];
      Ok (true, new', s').

  (** cd 817-829: over mm.Solids and mm.Definition.elements *)
  Fixpoint comp_parts (cbox : B) (surf_cell : list Z) (ps : list B) (l : list node) (new : node)
    : res (bool * node * list node) :=
    match ps, l with
    | [], _ => Ok (false, new, l)
    | b :: r, [] => if meets cbox b then Err IndexError else comp_parts cbox surf_cell r [] new
    | b :: r, s :: l' =>
        if meets cbox b then
          do (p, s') <- put_comp new surf_cell s;
          let (a, new') := p in
          do (q, l2) <- comp_parts cbox surf_cell r l' new';
          let (a', new2) := q in
          Ok (a || a', new2, s' :: l2)
        else
          do (q, l2) <- comp_parts cbox surf_cell r l' new;
          Ok (q, s :: l2)
    end.

  (** cd 804-829 append_comp: whether something was added, the new cell, and the other cell *)
  Definition append_comp (new cell_def : node) (cbox : B) (mm : meta) : res (bool * node * meta) :=
    do surf_cell <- get_surf_value true cell_def;
    match mdef mm with
    | None => Err AttributeError
    | Some d =>
        do op <- op_of d;
        match op with
        | AND =>
            if meets cbox (mbox mm) then
              do (p, d') <- put_comp new surf_cell d; Ok (p, with_def mm d')
            else Ok (false, new, mm)
        | OR =>
            match d with
            | Seq _ lev l =>
                do (p, l') <- comp_parts cbox surf_cell (parts mm) l new;
                Ok (p, with_def mm (Seq OR lev l'))
            | _ => if existsb (meets cbox) (parts mm) then Err TypeError else Ok (false, new, mm)
            end
        end
    end.

  (** cd 847-851, 860-864: against all the previous cells *)
  Fixpoint all_comps (new cell_def : node) (cbox : B) (prev : list meta) : res (bool * node * list meta) :=
    match prev with
    | [] => Ok (false, new, [])
    | mm :: r =>
        do (p, mm') <- append_comp new cell_def cbox mm;
        let (a, new') := p in
        do (q, r') <- all_comps new' cell_def cbox r;
        let (a', new2) := q in
        Ok (a || a', new2, mm' :: r')
    end.

  (** cd 855-866: over m.Solids and m.Definition.elements *)
  Fixpoint part_defs (ps : list B) (l : list node) (prev : list meta) (new : node) (simp : list bool)
    : res (node * list bool * list meta) :=
    match ps, l with
    | [], _ => Ok (new, simp, prev)
    | _ :: _, [] => Err IndexError
    | b :: r, e :: l' =>
        do sub <- append (Seq AND 0 []) [AN (copy e)];
        do (p, prev') <- all_comps sub e b prev;
        let (s, sub') := p in
        do new' <- append new [AN sub'];
        part_defs r l' prev' new' (simp ++ [s])
    end.

  (** cd 841-867: the new definition of a cell *)
  Definition overlap_cell (prev : list meta) (m : meta) : res (node * list bool * list meta) :=
    match mdef m with
    | None => Err AttributeError
    | Some d =>
        do op <- op_of d;
        match op with
        | AND =>
            do new <- append (Seq AND 0 []) [AN (copy d)];
            do (p, prev') <- all_comps new d (mbox m) prev;
            let (s, new') := p in
            Ok (new', [s], prev')
        | OR =>
            match d with
            | Seq _ _ l => part_defs (parts m) l prev (Seq OR 0 []) []
            | _ => match parts m with [] => Ok (Seq OR 0 [], [], prev) | _ => Err TypeError end
            end
        end
    end.

  (** cd 838-867 *)
  Fixpoint overlap_loop (prev rest : list meta) : res (list (node * list bool) * list meta) :=
    match rest with
    | [] => Ok ([], prev)
    | m :: r =>
        do (p, prev') <- overlap_cell prev m;
        do (ps, all) <- overlap_loop (prev' ++ [m]) r;
        Ok (p :: ps, all)
    end.

  (** cd 831-867: the new definitions of all the cells but the first one, and the cells
      (whose definitions may have been regrouped). *)
  Definition new_defs (metas : list meta) : res (list (node * list bool) * list meta) :=
    match metas with
    | [] => Err IndexError
    | m :: r => overlap_loop [m] r
    end.

  Section Reduce.
    Variable strict : bool.        (* ghost: see Prelude.err *)
    Variable k : nat.              (* recursion bound for simplify *)
    Variable ord : node -> list Z. (* iteration order of sets of surfaces *)
    (** build_c_table_from_solids on the box of the cell; [true]: "diag" *)
    Variable mk : B -> bool -> list Z -> res ctab.

    (** cd 897-902 *)
    Fixpoint simp_parts (ct : ctable) (simp : list bool) (l : list node) : res (list node) :=
      match simp, l with
      | [], _ => Ok l
      | false :: r, [] => simp_parts ct r []
      | true :: _, [] => Err IndexError
      | s :: r, c :: l' =>
          do c' <- (if s then do x <- simplify_f k strict ord ct 0 c; Ok (clean x) else Ok c);
          do l2 <- simp_parts ct r l';
          Ok (c' :: l2)
      end.

    (** cd 872-906 *)
    Definition reduce_cell (b : B) (t_def : node) (simp : list bool) : res node :=
      do t1 <- mk b true (surfs t_def);
      do nd <- remove_extra strict ord true t1 t_def;
      do t2 <- mk b false (surfs nd);
      let ct := Some (get_constraint_set t2) in
      do op <- op_of nd;
      do nd2 <- match op with
                | AND => do x <- simplify_f k strict ord ct 0 nd; Ok (clean x)
                | OR => match nd with
                        | Seq _ lev l => do l' <- simp_parts ct simp l; Ok (Seq OR lev l')
                        | _ => Err TypeError
                        end
                end;
      do j <- join false nd2;
      Ok (level_update j).

    (** cd 869-906: the definition a cell ends with *)
    Fixpoint final_defs (ms : list meta) (ps : list (node * list bool)) : res (list (option node)) :=
      match ms, ps with
      | m :: r, (t_def, simp) :: ps' =>
          do d <- (if existsb (fun s => s) simp then do x <- reduce_cell (mbox m) t_def simp; Ok (Some x) else Ok (mdef m));
          do ds <- final_defs r ps';
          Ok (d :: ds)
      | _, _ => Ok []
      end.

    (** cd 831-906 *)
    Definition no_overlapping_cell (metas : list meta) : res (list (option node)) :=
      do (ps, all) <- new_defs metas;
      match all with
      | m :: r => do ds <- final_defs r ps; Ok (mdef m :: ds)
      | [] => Err IndexError
      end.
  End Reduce.
End NoOverlap.
Arguments Meta {B}.
Arguments mdef {B}.
Arguments mbox {B}.
Arguments parts {B}.
