(** Model of the void box subdivision:
    /repo/src/geouned/GEOUNED/void/void_box_class.py ("vb") 20-164, 367-377, 455-492 and
    void/void.py ("vo") 96-177.
    Coordinates are rational (floats are; simplification: arithmetic is exact). *)
From Coq Require Import QArith.
From Verif Require Import Prelude BoolSpec BoolSeq.
Open Scope Z_scope.

Inductive axis := AX | AY | AZ.
Definition axis_eqb (a b : axis) : bool :=
  match a, b with AX, AX | AY, AY | AZ, AZ => true | _, _ => false end.
(** A place in space. *)
Definition place := axis -> Q.

(** FreeCAD.BoundBox: XMin, XMax, ...; XLength = XMax - XMin. *)
Record box := Box { lo : place; hi : place }.
Definition len (b : box) (a : axis) : Q := (hi b a - lo b a)%Q.
Definition set (f : place) (a : axis) (q : Q) : place := fun x => if axis_eqb x a then q else f x.

Definition Qltb (x y : Q) : bool := negb (Qle_bool y x).

(** vb 41-50: dims/coord after the deletions, in order; index of the maximum. *)
Fixpoint argmax (b : box) (best : axis) (l : list axis) : axis :=
  match l with
  | [] => best
  | a :: r => argmax b (if Qltb (len b best) (len b a) then a else best) r
  end.
Definition long_axes (m : Q) (b : box) : list axis :=
  filter (fun a => negb (Qltb ((1#2) * len b a) m)) [AX; AY; AZ].

(** vb 39-103: the two boxes; [None]: nothing is long enough.
    Simplification: the three branches of vb 53-93 are one definition. *)
Definition split (m : Q) (b : box) : option (box * box) :=
  match long_axes m b with
  | [] => None
  | a0 :: r =>
      let a := argmax b a0 r in
      let pos := (lo b a + (1#2) * len b a)%Q in
      Some (Box (lo b) (set (hi b) a pos), Box (set (lo b) a pos) (hi b))
  end.

(** BoundBox.isValid, BoundBox.intersect of FreeCAD: closed boxes. *)
Definition axes := [AX; AY; AZ].
Definition valid (b : box) : bool := forallb (fun a => Qle_bool (lo b a) (hi b a)) axes.
Definition meets (b c : box) : bool :=
  forallb (fun a => Qle_bool (lo b a) (hi c a) && Qle_bool (lo c a) (hi b a)) axes.
(** BoundBox.add *)
Definition Qmin (x y : Q) := if Qle_bool x y then x else y.
Definition Qmax (x y : Q) := if Qle_bool x y then y else x.
Definition join_box (b c : box) : box :=
  Box (fun a => Qmin (lo b a) (lo c a)) (fun a => Qmax (hi b a) (hi c a)).
Definition hull (b : box) (l : list box) : box := fold_left join_box l b.

(** What is used of a GeounedSolid (uf = utils/functions.py 41-130): id,
    BoundBox, the BoundBoxes of Solids, Definition, len(Surfaces), IsEnclosure. *)
Record meta := Meta {
  mid : Z; mbb : option box; msol : option (list box); mdef : node; mns : Z; mencl : bool }.

(** set_definition, uf 116-130, for a cell that is not Void: the number of
    Surfaces is updated unless Definition.elements is empty or False. *)
Definition set_ns (d : node) (old : Z) : Z :=
  match d with
  | Seq _ _ [] | Cst _ _ false => old
  | _ => Z.of_nat (length (surfs d))
  end.

(** copy_meta, vb 483-492, with GeounedSolid.__init__ for a list, uf 43-57. *)
Definition copy_meta (m : meta) : res meta :=
  match msol m with
  | None => Err TypeError           (* None[:] *)
  | Some [] => Ok (Meta (mid m) None None (copy (mdef m)) (set_ns (mdef m) 0) (mencl m))
  | Some (b :: r) => Ok (Meta (mid m) (Some (hull b r)) (Some (b :: r)) (copy (mdef m)) (set_ns (mdef m) 0) (mencl m))
  end.

(** Definition.elements[i] *)
Definition element (i : nat) (n : node) : res node :=
  match n with
  | Lit _ => Err AttributeError
  | Cst _ _ _ => Err TypeError
  | Seq _ _ l => match nth_error l i with Some e => Ok e | None => Err IndexError end
  end.

(** remove_extra_comp with mode "box", vb 455-481 *)
Fixpoint extra_loop (bx : box) (d : node) (i : nat) (sols : list box) (rs : list box) (rd : node)
  : res (list box * node) :=
  match sols with
  | [] => Ok (rs, rd)
  | s :: r =>
      if valid s && meets bx s then
        do e <- element i d;
        do rd' <- append rd [AN e];
        extra_loop bx d (S i) r (rs ++ [s]) rd'
      else extra_loop bx d (S i) r rs rd
  end.
Definition remove_extra_comp (bx : box) (m : meta) : res meta :=
  match msol m with
  | None | Some [] => Ok m
  | Some sols =>
      do (rs, rd) <- extra_loop bx (mdef m) 0 sols [] (Seq OR 0 []);
      if Nat.ltb (length rs) (length sols) then
        (* update_solids, uf 97-103; set_definition, uf 116-130 *)
        Ok (Meta (mid m) (match rs with [] => None | b :: r => Some (hull b r) end) (Some rs) rd
             (set_ns rd (mns m)) (mencl m))
      else Ok m
  end.

(** VoidBox.__init__, vb 29-36: the objects of the box.  Simplification: a
    BoundBox object is never falsy. *)
Fixpoint box_objects (bx : box) (ms : list meta) : res (list meta) :=
  match ms with
  | [] => Ok []
  | m :: r =>
      match mbb m with
      | Some b =>
          if valid b && meets bx b then
            do c <- copy_meta m;
            do o <- remove_extra_comp bx c;
            do os <- box_objects bx r; Ok (o :: os)
          else box_objects bx r
      | None => box_objects bx r
      end
  end.

Section Pieces.
  (** A CAD piece of an enclosure, its optimal bounding box, and the answers of
      the CAD kernel for a piece and a box (vb 120-151): [Far]: distance not
      small, or degenerate box; [Whole]: the box lies in the piece;
      [Common l]: the solids of the intersection. *)
  Variable E : Type.
  Variable bb : E -> box.
  Inductive cut := Far | Whole | Common (l : list E).
  Variable common : E -> box -> cut.

  Inductive region := RBox (b : box) | RPiece (e : E).
  Definition rbox (r : region) : box := match r with RBox b => b | RPiece e => bb e end.

  (** piece_enclosure_split, vb 120-151 *)
  Definition piece_split (e : E) (b : box) : option region :=
    match common e b with
    | Far => None
    | Whole => Some (RBox b)
    | Common [] => None
    | Common (s :: _) => Some (RPiece s)
    end.

  (** VoidBox.split, vb 39-118, regions only *)
  Definition split_region (m : Q) (r : region) : option (list region) :=
    match split m (rbox r) with
    | None => None
    | Some (b1, b2) =>
        match r with
        | RBox _ => Some [RBox b1; RBox b2]
        | RPiece e =>
            Some (match piece_split e b1 with Some x => [x] | None => [] end ++
                  match piece_split e b2 with Some x => [x] | None => [] end)
        end
    end.

  (** A VoidBox: region and objects. *)
  Record vbox := VBox { vreg : region; vobj : list meta }.
  Definition mk_vbox (ms : list meta) (r : region) : res vbox :=
    do os <- box_objects (rbox r) ms; Ok (VBox r os).
  Definition split_vbox (m : Q) (z : vbox) : res (option (list vbox)) :=
    match split_region m (vreg z) with
    | None => Ok None
    | Some l => do zs <- mapM (mk_vbox (vobj z)) l; Ok (Some zs)
    end.

  (** get_numbers, vb 367-377 *)
  Definition n_brack (m : meta) : Z :=
    match mdef m with
    | Seq _ lev l => if 0 <? lev then Z.of_nat (length l) else 1
    | _ => 1
    end.
  Definition numbers (z : vbox) : Z * Z :=
    (fold_right Z.add 0 (map mns (vobj z)), fold_right Z.add 0 (map n_brack (vobj z))).

  Variables maxsurf maxbracket : Z.
  Variable minSize : Q.
  (** get_void_complementary, see VoidCell.v and VoidAll.v: it uses the surface
      dictionary, of type [D], and may add surfaces to it. *)
  Variable D : Type.
  Variable void : vbox -> D -> res (D * option node).

  (** vo 137-140 *)
  Definition try_split (z : vbox) : res (option (list vbox)) :=
    let '(ns, nb) := numbers z in
    if (maxsurf <? ns) && (maxbracket <? nb) then split_vbox minSize z else Ok None.

  (** vo 131-161: one turn of the while loop *)
  Fixpoint pass (l : list vbox) (d : D) : res (D * (list vbox * list node)) :=
    match l with
    | [] => Ok (d, ([], []))
    | z :: r =>
        do s <- try_split z;
        match s with
        | Some zs => do x <- pass r d; let '(d', (t, v)) := x in Ok (d', (zs ++ t, v))
        | None =>
            do (d1, c) <- void z d;
            do x <- pass r d1; let '(d', (t, v)) := x in
            Ok (d', (t, match c with Some c => c :: v | None => v end))
        end
    end.

  (** vo 124-165: void cells, and the boxes that are dropped when the number of
      turns is exhausted *)
  Fixpoint turns (n : nat) (init : list vbox) (d : D) : res (D * (list node * list vbox)) :=
    match n with
    | O => Ok (d, ([], init))
    | S n =>
        do x <- pass init d; let '(d1, (t, v)) := x in
        match t with
        | [] => Ok (d1, (v, []))
        | _ => do y <- turns n t d1; let '(d2, (w, rest)) := y in Ok (d2, (v ++ w, rest))
        end
    end.

  (** get_void_def, vo 96-177 *)
  Definition get_void_def (ms : list meta) (u : region) (d : D) : res (D * (list node * list vbox)) :=
    do z <- mk_vbox ms u; turns 50 [z] d.
End Pieces.
Arguments RBox {E}. Arguments RPiece {E}. Arguments Far {E}. Arguments Whole {E}. Arguments Common {E}.
Arguments VBox {E}. Arguments vreg {E}. Arguments vobj {E}.
