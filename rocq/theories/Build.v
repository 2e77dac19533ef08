(** The solid of a cell in GEOReverse:
    /repo/src/geouned/GEOReverse/Modules/buildSolidCell.py ("bs"), splitFunction.py ("sp"),
    Objects.py ("ob").
    The CAD kernel is a record of functions; BoundBox values are an abstract type.  Python's
    exceptions are [Err].  The surfaces of a cell are those of its definition. *)
From Verif Require Import Prelude BoolSpec BoolSeq RBool RBox RPlanes.
Open Scope Z_scope.

Record cad := Cad {
  shape : Type; bx : Type;
  make : bx -> option shape;            (* ob 117-120 Part.makeBox; None: thinner than 1e-6 *)
  same : bx -> bx -> bool;              (* bb 168-181 sameBox *)
  flat : shape -> bool;                 (* bs 124-126: a side of BoundBox below 1e-6 *)
  thin : shape -> bool;                 (* sp 71: Volume / Area below 1e-2 *)
  slice : shape -> Z -> list shape;     (* sp 74-83: BOPTools slice with the surface *)
  small : shape -> bool;                (* sp 128-137: no volume, or no point inside found *)
  side_at : shape -> Z -> bool;         (* sp 138-139: side of that point *)
  fuse : list shape -> shape;           (* bs 185-215: more than one shape *)
  meets : bx -> shape -> bool }.        (* bs 229-234: the box and the BoundBox have a common box *)

(** A myBox: RBox.mybox with an abstract box. *)
Record abox (B : Type) := AB { a_box : option B; a_or : side_of }.
Arguments AB {B}. Arguments a_box {B}. Arguments a_or {B}.

Section Build.
  Variable C : cad.
  (** sp 9-13 SplitBase *)
  Record piece := Piece { p_shape : shape C; p_known : list (Z * option bool); p_or : side_of }.
  (** The parts of a CadCell that change: the definition, the planes (of a definition, with
      outBox), boundBox.  externalBox is [ext] for the cell and its parts (ob 62, bs 54, 77, 130). *)
  Record bcell := Bcell { b_def : node; b_planes : node * bx C; b_box : option (abox (bx C)) }.
  (** solid_plane_box(cell, outbox).get_boundBox(enlarge): an argument; see RVertex.cell_box.
      [times]: the enlargement, in tenths *)
  Variable boxer : node * bx C -> Z -> res (abox (bx C)).
  (** the order of the dictionary of surfaces, planes before the others (bs 152-172) *)
  Variable order : node -> list Z.
  Variable ext : bx C.

  (** ob 122-141 build_BoundBox(externalBox, enlarge) *)
  Definition build_box (c : bcell) (times : Z) : res bcell :=
    let pl := if same C (snd (b_planes c)) ext then b_planes c else (b_def c, ext) in
    do m <- boxer pl times;
    Ok (Bcell (b_def c) pl (Some m)).
  (** ob 89-101 getSubCell: the planes of the parent are copied *)
  Definition sub_cell (c : bcell) (e : node) : bcell := Bcell (copy e) (b_planes c) None.

  (** dict.update: the values of [known] win *)
  Definition updated (z : Z) (b : bool) (known : list (Z * option bool)) : list (Z * option bool) :=
    match dget z known with Some _ => known | None => (z, Some b) :: known end.
  Definition sides_of (known : list (Z * option bool)) : vset :=
    flat_map (fun q => match snd q with Some b => [(fst q, b)] | None => [] end) known.
  (** sp 63-107 SplitSolid of one base with one surface: the parts in the cell, the undecided *)
  Definition join_or (a b : side_of) : side_of := if same_side a b then a else Fwd.
  Fixpoint sort_parts (def : node) (o : side_of) (z : Z) (known : list (Z * option bool)) (l : list (shape C))
    : res (list piece * list piece) :=
    match l with
    | [] => Ok ([], [])
    | s :: r =>
        do (f, c) <- sort_parts def o z known r;
        if small C s then Ok (f, c)
        else
          let k := updated z (side_at C s z) known in
          do (v, _) <- revaluate (sides_of k) def;   (* a list of surfaces is not regrouped *)
          Ok (match v with
              | Some true => (Piece s k o :: f, c)
              | Some false => (f, c)
              | None => (f, Piece s k o :: c)
              end)
    end.
  Definition split_one (def : node) (o : side_of) (z : Z) (b : piece) : res (list piece * list piece) :=
    if thin C (p_shape b) then Ok ([], [])
    else sort_parts def (join_or o (p_or b)) z (p_known b) (slice C (p_shape b) z).
  (** sp 56-61 SplitSolid of a list *)
  Fixpoint split_all (def : node) (o : side_of) (z : Z) (l : list piece) : res (list piece * list piece) :=
    match l with
    | [] => Ok ([], [])
    | b :: r =>
        do (f, c) <- split_one def o z b;
        do (f', c') <- split_all def o z r;
        Ok (f ++ f', c ++ c')
    end.
  (** bs 160-172: the planes, then the others *)
  Fixpoint cut_loop (def : node) (o : side_of) (zs : list Z) (full cut : list piece) : res (list piece) :=
    match zs with
    | [] => Ok full
    | z :: r =>
        do (f, c) <- split_all def o z cut;
        match c with
        | [] => Ok (full ++ f)
        | _ => cut_loop def o r (full ++ f) c
        end
    end.
  (** bs 146-172 with a base *)
  Definition cut_base (c : bcell) (b : piece) : res (list piece) :=
    match b_box c with
    | None => Err AttributeError
    | Some m => cut_loop (b_def c) (a_or m) (order (b_def c)) [] [b]
    end.
  (** bs 105-182 BuildSolidParts, its first result.  Without surfaces (bs 142-144) it fails. *)
  Definition solid_parts (c : bcell) (base : option (list piece)) : res (list piece) :=
    match base with
    | Some l =>
        do r <- mapM (fun b => if flat C (p_shape b) then Ok []
                               else match order (b_def c) with [] => Err TypeError | _ => cut_base c b end) l;
        Ok (concat r)
    | None =>
        do c <- match b_box c with Some _ => Ok c | None => build_box c 2 end;
        match b_box c with
        | None => Err AttributeError
        | Some m =>
            match a_or m, a_box m with
            | Fwd, None => Ok []
            | _, _ =>
                match order (b_def c) with
                | [] => Err AttributeError
                | _ =>
                    match make C (match a_or m, a_box m with Fwd, Some b => b | _, _ => ext end) with
                    | None => Ok []
                    | Some s => cut_base c (Piece s [] (a_or m))
                    end
                end
            end
        end
    end.

  (** sp 16-40 joinBase *)
  Fixpoint join_known (removed : list Z) (surf known : list (Z * option bool)) : list Z * list (Z * option bool) :=
    match known with
    | [] => (removed, surf)
    | (k, v) :: r =>
        if existsb (Z.eqb k) removed then join_known removed surf r
        else
          match dget k surf with
          | None => join_known removed (dset k v surf) r
          | Some w =>
              if match v, w with Some a, Some b => eqb a b | None, None => true | _, _ => false end
              then join_known removed surf r
              else join_known (k :: removed) (dset k None surf) r
          end
    end.
  Fixpoint join_all (removed : list Z) (surf : list (Z * option bool)) (l : list piece) : list (Z * option bool) :=
    match l with
    | [] => surf
    | b :: r => let '(rm, s) := join_known removed surf (p_known b) in join_all rm s r
    end.
  Definition fuse_all (l : list (shape C)) : option (shape C) :=
    match l with [] => None | [s] => Some s | _ => Some (fuse C l) end.
  Definition join_base (l : list piece) : list piece :=
    match fuse_all (map p_shape l) with
    | None => []
    | Some s => [Piece s (join_all [] [] l) (if existsb (fun b => negb (same_side (p_or b) Fwd)) l then Rev else Fwd)]
    end.

  (** what is carried through the elements of an intersection: None, a base, a list *)
  Inductive part := PNone | POne (p : piece) | PList (l : list piece).
  Definition as_list (p : part) : list piece := match p with PNone => [] | POne p => [p] | PList l => l end.

  Section Rec.
    Variable depth : bcell -> option (list piece) -> res (list piece).
    (** bs 218-248 filterparts; [b] is the box of the cell *)
    Fixpoint filter_parts (c : bcell) (b : bx C) (o : side_of) (built : bool) (l : list piece) : res (list piece * list piece) :=
      match l with
      | [] => Ok ([], [])
      | p :: r =>
          if meets C b (p_shape p) then
            do (f, k) <- filter_parts c b o built r; Ok (p :: f, k)
          else
            match o with
            | Fwd => filter_parts c b o built r
            | Rev =>
                match p_or p, built with
                | Rev, false =>
                    do q <- depth c None;
                    do (f, k) <- filter_parts c b o true r; Ok (f, p :: q ++ k)
                | _, _ => do (f, k) <- filter_parts c b o built r; Ok (f, p :: k)
                end
            end
      end.
    (** bs 48-71: the elements of an intersection *)
    Fixpoint and_loop (c : bcell) (l : list node) (ps : part) : res (list piece) :=
      match l with
      | [] => match ps with PList l => Ok l | _ => Err TypeError end
      | e :: r =>
          let s := sub_cell c e in
          match ps with
          | PNone => do q <- depth s None; and_loop c r (PList q)
          | _ =>
              do s' <- build_box s 100;
              match b_box s' with
              | None => Err AttributeError
              | Some m =>
                  match a_box m with
                  | None => match a_or m with Rev => and_loop c r ps | Fwd => Ok [] end
                  | Some b =>
                      do (f, k) <- filter_parts s' b (a_or m) false (as_list ps);
                      match f, k with
                      | [], [] => Ok []
                      | [], _ => and_loop c r (PList k)
                      | _, _ => do q <- depth s' (Some f); and_loop c r (PList (q ++ k))
                      end
                  end
              end
          end
      end.
    (** bs 72-97: the elements of a union *)
    Fixpoint or_loop (c : bcell) (l : list node) (base : option piece) (acc : list piece) : res (list piece) :=
      match l with
      | [] => Ok (join_base acc)
      | e :: r =>
          let s := sub_cell c e in
          match base with
          | None => do q <- depth s None; or_loop c r base (acc ++ q)
          | Some p =>
              do s' <- build_box s 100;
              match b_box s' with
              | None => Err AttributeError
              | Some m =>
                  match a_box m with
                  | None => or_loop c r base (acc ++ match a_or m with Rev => [p] | Fwd => [] end)
                  | Some b =>
                      do (f, k) <- filter_parts s' b (a_or m) false [p];
                      match f with
                      | [] => or_loop c r base (acc ++ k)
                      | _ => do q <- depth s' (Some f); or_loop c r base (acc ++ k ++ q)
                      end
                  end
              end
          end
      end.
  End Rec.

  (** bs 29-102 BuildDepth *)
  Fixpoint build_depth (fuel : nat) (c : bcell) (base : option (list piece)) : res (list piece) :=
    match fuel with
    | O => Fuel
    | S k =>
        do n <- group_single (b_def c);
        let c := Bcell n (b_planes c) (b_box c) in
        match n with
        | Lit _ => Err AttributeError
        | Cst _ lev b =>
            if lev =? 0 then solid_parts c base
            else match base with
                 | Some l => Ok (if b then l else [])
                 | None => if b then Err AttributeError else Ok []
                 end
        | Seq op lev l =>
            if lev =? 0 then solid_parts c base
            else
              let one (x : option piece) :=
                match op with
                | AND => and_loop (build_depth k) c l (match x with None => PNone | Some p => POne p end)
                | OR => or_loop (build_depth k) c l x []
                end in
              match base with
              | None => one None
              | Some bs => do r <- mapM (fun p => one (Some p)) bs; Ok (concat r)
              end
        end
    end.
  (** bs 19-26 BuildSolid and ob 143-151 buildShape, for a cell with its box; [undefined]: a
      surface of the definition has no parameters (ob 176-185: removeSurface does not exist) *)
  Definition build_shape (fuel : nat) (undefined : Z -> bool) (c : bcell) : res (option (shape C)) :=
    if existsb undefined (surfs (b_def c)) then Err AttributeError
    else
      do l <- build_depth fuel c None;
      Ok (fuse_all (map p_shape l)).
End Build.
Arguments Piece {C}. Arguments p_shape {C}. Arguments p_known {C}. Arguments p_or {C}.
Arguments Bcell {C}. Arguments b_def {C}. Arguments b_planes {C}. Arguments b_box {C}.
