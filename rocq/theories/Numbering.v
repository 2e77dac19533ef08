(** Model of the numbering of cells:
    /repo/src/geouned/GEOUNED/core.py ("co") 509-514, 550-593, 683-689, 783-848 and
    void/void_functions.py ("vf") 62-109. *)
From Verif Require Import Prelude Enclosures.

(** What is used of a GeounedSolid here: __id__, NullCell, IsEnclosure, Void,
    EnclosureID (0 when not set), and the cell numbers in __commentInfo__[1]
    (None when there is no such list). *)
Record cell := Cell { cid : Z; null : bool; isenc : bool; isvoid : bool; encid : Z; cin : option (list Z) }.
(** A line of the final list: a cell with its label and the labels in its comment,
    or one of the separators GeounedSolid(None). *)
Inductive line := Line (c : cell) (label : Z) (comment : option (list Z)) | Sep.

(** idLabel: a dict; the last assignment counts *)
Definition labels := list (Z * Z).
Fixpoint label_of (i : Z) (d : labels) : res Z :=
  match d with
  | [] => Err KeyError
  | (k, v) :: r => if k =? i then Ok v else label_of i r
  end.
(** update_comment, co 683-689.  (The generator is consumed by the join of
    void_comment_line, void.py 236-242.) *)
Definition update_comment (d : labels) (c : cell) : res (option (list Z)) :=
  match cin c with
  | None => Ok None
  | Some ids => do l <- mapM (fun i => label_of i d) ids; Ok (Some l)
  end.

(** co 559-572: solid cells; NullCell and enclosures are deleted *)
Fixpoint number_solids (icount : Z) (d : labels) (l : list cell) : list line * (Z * labels) :=
  match l with
  | [] => ([], (icount, d))
  | m :: r =>
      if null m || isenc m then number_solids icount d r
      else
        let n := icount + 1 in
        let '(o, s) := number_solids n ((cid m, n) :: d) r in (Line m n None :: o, s)
  end.
(** co 582-593: void cells *)
Fixpoint number_voids (icount : Z) (d : labels) (l : list cell) : res (list line) :=
  match l with
  | [] => Ok []
  | m :: r =>
      if null m then number_voids icount d r
      else
        let n := icount + 1 in
        do c <- update_comment d m;
        do o <- number_voids n d r; Ok (Line m n c :: o)
  end.
(** co 550-593, else branch *)
Definition number_plain (startCell : Z) (metas voids : list cell) : res (list line) :=
  let '(o, (n, d)) := number_solids (startCell - 1) [(0, 0)] metas in
  do v <- number_voids n d voids; Ok (o ++ Sep :: v).

(** sort_enclosure, co 783-848 *)
(** co 785-790: the voids of an enclosure, in order; newList[k] raises KeyError when
    there are none *)
Definition voids_of (k : Z) (voids : list cell) : res (list cell) :=
  match filter (fun v => encid v =? k) voids with [] => Err KeyError | l => Ok l end.
(** labels for a list of cells that are not NullCell; co 805-811, 833-839 *)
Fixpoint give_labels (icount : Z) (d : labels) (l : list cell) : list line * (Z * labels) :=
  match l with
  | [] => ([], (icount, d))
  | m :: r =>
      if null m then give_labels icount d r
      else
        let n := icount + 1 in
        let '(o, s) := give_labels n ((cid m, n) :: d) r in (Line m n None :: o, s)
  end.
(** co 792-823 *)
Fixpoint sort_metas (voids : list cell) (icount : Z) (d : labels) (l : list cell) : res (list line * (Z * labels)) :=
  match l with
  | [] => Ok ([], (icount, d))
  | m :: r =>
      if null m then sort_metas voids icount d r
      else if isenc m then
        do vs <- voids_of (encid m) voids;
        let '(o1, (n, d1)) := give_labels icount d vs in
        do x <- sort_metas voids n d1 r;
        let '(o2, s) := x in Ok (Sep :: o1 ++ Sep :: o2, s)
      else
        let n := icount + 1 in
        do x <- sort_metas voids n ((cid m, n) :: d) r;
        let '(o, s) := x in Ok (Line m n None :: o, s)
  end.
(** co 841-846: comments of the void cells *)
Fixpoint add_comments (d : labels) (l : list line) : res (list line) :=
  match l with
  | [] => Ok []
  | Sep :: r => do o <- add_comments d r; Ok (Sep :: o)
  | Line c n _ :: r =>
      do k <- (if isvoid c && negb (isenc c) then update_comment d c else Ok None);
      do o <- add_comments d r; Ok (Line c n k :: o)
  end.
Definition number_sorted (startCell : Z) (metas voids : list cell) : res (list line) :=
  do x <- sort_metas voids (startCell - 1) [(0, 0)] metas;
  let '(o, (n, d)) := x in
  do v0 <- voids_of 0 voids;
  let '(o0, (_, d0)) := give_labels n d v0 in
  add_comments d0 (o ++ Sep :: o0).

(** co 551-557 *)
Definition number_cells (sort : bool) (enclosures : bool) (startCell : Z) (metas voids : list cell) : res (list line) :=
  if enclosures && sort then number_sorted startCell metas voids else number_plain startCell metas voids.

(** update_void_list, vf 62-109: __id__ and EnclosureID of the void cells.
    [voidList]: those of the universe, of each non-envelope enclosure, graveyard. *)
Fixpoint renum (i e : Z) (l : list cell) : list cell :=
  match l with
  | [] => []
  | c :: r => Cell i (null c) (isenc c) (isvoid c) e (cin c) :: renum (i + 1) e r
  end.
Fixpoint renum_encl (i : Z) (es : list encl) (vl : list (list cell)) : res (list cell) :=
  match es with
  | [] => Ok []
  | e :: r =>
      match vl with
      | [] => Err IndexError
      | v :: vl' => do o <- renum_encl (i + Z.of_nat (length v)) r vl'; Ok (renum i (eid e) v ++ o)
      end
  end.
Definition update_void_list (init : Z) (voidList : list (list cell)) (levels : list (list encl)) : res (list cell) :=
  match voidList with
  | [] => Err IndexError
  | v0 :: r =>
      let i := init + 1 in
      let i1 := i + Z.of_nat (length v0) in
      do mid <- renum_encl i1 (filter (fun e => negb (envel e)) (concat levels)) r;
      Ok (renum i 0 v0 ++ mid ++ renum (i1 + Z.of_nat (length mid)) 0 (last voidList []))
  end.
(** co 511-514: the number before the first void *)
Definition void_init (metas : list cell) (n_encl : Z) : Z :=
  match rev metas with [] => 0 | m :: _ => cid m - n_encl end.
