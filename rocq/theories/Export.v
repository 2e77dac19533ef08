(** Model of the export of the geometry:
    /repo/src/geouned/GEOUNED/write/write_files.py 8-138 ("wr"), and the writers
    mcnp_format.py ("mc"), openmc_format.py ("om"), serpent_format.py ("se"),
    phits_format.py ("ph"): what each one changes in the cells and surfaces it is
    given (the same objects for every format and every call of export_csg), and
    what it writes.  Texts of definitions are in Writers.v: here the output
    contains the definition that is printed. *)
From Coq Require Import String.
From Verif Require Import Prelude BoolSpec BoolSeq BoolEdit SurfDict Vec3 Geom.
Open Scope Z_scope.

(** Geometry of a surface; [GOther] stands for the cylinders, cones, spheres and
    tori, that the writers do not change (simplification: serpent_surface
    normalises the axis of cylinders in place). *)
Inductive geom := GPlane (p : plane) | GOther (k : Z).

(** A GeounedSolid, fields used by the writers.  [has_id]: __id__ is not None.
    [label], [mat], [isvoid] are never changed by a writer (so are Density, Volume,
    fill, ..., not shown). *)
Record cell := Cell {
  has_id : bool; label : Z; mat : Z; isvoid : bool;
  info : string; (* MatInfo *)
  comments : string;
  def : node }.

Definition set_def (c : cell) (n : node) : cell :=
  Cell (has_id c) (label c) (mat c) (isvoid c) (info c) (comments c) n.
Definition set_info (c : cell) (s : string) : cell :=
  Cell (has_id c) (label c) (mat c) (isvoid c) s (comments c) (def c).
Definition set_comments (c : cell) (s : string) : cell :=
  Cell (has_id c) (label c) (mat c) (isvoid c) (info c) s (def c).

Record state := St { cells : list cell; surfaces : sdict geom }.

(** get_surface_table, mc 300-321 (om 211-232, se 301-322, ph 502-523): for each
    surface number the positions of the cells that use it *)
Fixpoint tab_add (ix : Z) (i : nat) (t : list (Z * list nat)) : list (Z * list nat) :=
  match t with
  | [] => [(ix, [i])]
  | (k, l) :: r => if k =? ix then (k, l ++ [i]) :: r else (k, l) :: tab_add ix i r
  end.
Fixpoint tab_cells (i : nat) (cs : list cell) (t : list (Z * list nat)) : list (Z * list nat) :=
  match cs with
  | [] => t
  | c :: r =>
      tab_cells (S i) r (if has_id c then fold_left (fun t ix => tab_add ix i t) (surfs (def c)) t else t)
  end.
Definition surface_table (cs : list cell) : list (Z * list nat) := tab_cells 0 cs [].

Fixpoint lookup (ix : Z) (t : list (Z * list nat)) : option (list nat) :=
  match t with
  | [] => None
  | (k, l) :: r => if k =? ix then Some l else lookup ix r
  end.

Fixpoint update_nth {A} (i : nat) (f : A -> res A) (l : list A) : res (list A) :=
  match l, i with
  | [], _ => Err IndexError
  | x :: r, O => do y <- f x; Ok (y :: r)
  | x :: r, S j => do r' <- update_nth j f r; Ok (x :: r')
  end.

(** mc 366-369: one cell of the table *)
Definition flip_cell (ix : Z) (c : cell) : res cell :=
  if existsb (Z.eqb ix) (surfs (def c)) then do n <- change_surf_sign ix (def c); Ok (set_def c n) else Ok c.
(** change_surf_sign, mc 360-369 (om 263-272, se 361-370, ph 561-570) *)
Fixpoint flip_all (ix : Z) (is : list nat) (cs : list cell) : res (list cell) :=
  match is with
  | [] => Ok cs
  | i :: r => do cs' <- update_nth i (flip_cell ix) cs; flip_all ix r cs'
  end.
Definition flip_surface (t : list (Z * list nat)) (ix : Z) (cs : list cell) : res (list cell) :=
  match lookup ix t with None => Ok cs | Some is => flip_all ix is cs end.

(** simplify_planes, mc 325-338: the loop over one group; [neg] tests the
    coordinate of the axis, [unit] is the new axis.  Entries that are not planes
    do not occur in these groups (the model leaves them unchanged). *)
Fixpoint fix_group (t : list (Z * list nat)) (neg : vec -> bool) (unit : vec)
    (l : list (surf geom)) (cs : list cell) : res (list (surf geom) * list cell) :=
  match l with
  | [] => Ok ([], cs)
  | Surf ix (GPlane p) :: r =>
      if neg (axis p) then
        do cs' <- flip_surface t ix cs;
        do (r', cs'') <- fix_group t neg unit r cs';
        Ok (Surf ix (GPlane (Plane unit (pos p) (points p))) :: r', cs'')
      else do (r', cs') <- fix_group t neg unit r cs; Ok (Surf ix (GPlane p) :: r', cs')
  | s :: r => do (r', cs') <- fix_group t neg unit r cs; Ok (s :: r', cs')
  end.
(** mc 340-345 (se, ph; not in om): the axis is not changed *)
Fixpoint fix_points (t : list (Z * list nat)) (l : list (surf geom)) (cs : list cell) : res (list cell) :=
  match l with
  | [] => Ok cs
  | Surf ix (GPlane (Plane ax _ (Some (p1, p2, p3)))) :: r =>
      do (a, _) <- points_to_coeffs p1 p2 p3;
      do cs' <- (if is_opposite a ax then flip_surface t ix cs else Ok cs);
      fix_points t r cs'
  | _ :: r => fix_points t r cs
  end.

Definition negb_R (x : R) : bool := if Rlt_dec x 0 then true else false.
Definition set_group (d : sdict geom) (k : key) (l : list (surf geom)) : sdict geom :=
  SD (offset d) (fun x => if key_eqb x k then l else group d x) (ids d) (number d) (last d).

(** mc 323-347 (se, ph); om 234-250 is the case [three] = false *)
Definition simplify_planes (three : bool) (st : state) : res state :=
  let t := surface_table (cells st) in
  let d := surfaces st in
  do (lx, c1) <- fix_group t (fun a => negb_R (vx a)) (V 1 0 0) (group d PX) (cells st);
  do (ly, c2) <- fix_group t (fun a => negb_R (vy a)) (V 0 1 0) (group d PY) c1;
  do (lz, c3) <- fix_group t (fun a => negb_R (vz a)) (V 0 0 1) (group d PZ) c2;
  do c4 <- (if three then fix_points t (group d PP) c3 else Ok c3);
  Ok (St c4 (set_group (set_group (set_group d PX lx) PY ly) PZ lz)).

(** What a file says. *)
Inductive ocell :=
| OComment (s : string)
(** [lab] label, [m] material, [out] marked as outside world (MCNP importance 0,
    PHITS -1, Serpent outside), [d] definition, [excl] cells removed with #,
    [com], [inf] comments *)
| OCell (lab m : Z) (out : bool) (d : node) (excl : list Z) (com inf : string).
Inductive ocard := OPlane (c : card) | OOther (k : Z).
Record output := Out { o_cells : list ocell; o_surfs : list (Z * ocard) }.

Inductive code := MCNP | OPENMC | SERPENT | PHITS.

Record opts := Opts {
  prnt3 : bool;      (* options.prnt3PPlane *)
  pln_tol : R;       (* tolerances.pln_angle *)
  ucard : bool;      (* UCARD is not None *)
  void_gen : bool;   (* settings.voidGen *)
  start_cell : Z;    (* settings.startCell *)
  uni_void : bool;   (* result of step_filename_label_chk, ph 178-187: no enclosure or envelope in the STEP file *)
  supported : bool   (* wr 29-33: all the requested formats are supported *)
}.

(** surface cards *)
Definition write_surf (three : bool) (tol : R) (s : surf geom) : Z * ocard :=
  (index s, match geo s with GPlane p => OPlane (plane_card three tol p) | GOther k => OOther k end).

Definition is_graveyard (c : cell) : bool := String.eqb (info c) "Graveyard".

(** mc 147-175, 252-261 (importance) *)
Definition mcnp_cell (c : cell) : ocell :=
  if has_id c then OCell (label c) (mat c) (is_graveyard c) (def c) [] (comments c) (info c)
  else OComment (comments c).
(** om 48-53, 60-79, 172-208: comments of MatInfo are not printed *)
Definition openmc_cell (c : cell) : list ocell :=
  if is_graveyard c then [] else
  if has_id c then [OCell (label c) (mat c) false (def c) [] (comments c) ""%string] else [].
(** se 142-182: with a universe number each cell is written twice and the
    outside cell is not marked *)
Definition serpent_cell (u : bool) (c : cell) : list ocell :=
  if has_id c then
    let o := OCell (label c) (mat c) (negb u && (mat c =? 0) && is_graveyard c) (def c) [] (comments c) (info c) in
    if u then [o; o] else [o]
  else [OComment (comments c)].
(** ph 205-254 write_phits_cells *)
Definition phits_cell (c : cell) : cell * list ocell :=
  if has_id c then
    let c' := if mat c =? 0 then
                if is_graveyard c then set_info c "Outer void"
                else if String.eqb (info c) "Graveyard_in" then set_info c "Inner void" else c
              else c in
    (c', [OCell (label c) (mat c) ((mat c =? 0) && is_graveyard c) (def c') [] (comments c') (info c')])
  else (c, [OComment (comments c)]).

(** range(a, b) *)
Definition zrange (a b : Z) : list Z := map (fun n => a + Z.of_nat n) (seq 0 (Z.to_nat (b - a))).
(** ph 280-282: elements[:1] (TypeError when elements is a bool) *)
Definition first_element (n : node) : res node :=
  match n with
  | Seq _ lev l => Ok (Seq AND lev (firstn 1 l))
  | _ => Err TypeError
  end.
(** ph 256-355 write_phits_cells_uni_void_def; [nsol] = __solidCells__.
    Simplification: the text of the new comment is a constant. *)
Definition phits_cell_uni (start nsol : Z) (c : cell) : res (cell * list ocell) :=
  if has_id c then
    if isvoid c then
      if String.eqb (info c) "Graveyard_in" then
        do n <- first_element (def c);
        let c' := set_comments (set_info (set_def c n) "Inner void") "VOID CELLs merged" in
        Ok (c', [OCell (label c) (mat c) false n (zrange start (nsol + start)) (comments c') (info c')])
      else if is_graveyard c then
        let c' := set_info c "Outer void" in
        Ok (c', [OCell (label c) (mat c) true (def c) [] (comments c') (info c')])
      else Ok (c, [])
    else Ok (c, [OCell (label c) (mat c) false (def c) [] (comments c) (info c)])
  else Ok (c, [OComment (comments c)]).

(** mc 314-315 (count of the cells with an id that are not void) *)
Definition solid_cells (cs : list cell) : Z :=
  Z.of_nat (length (filter (fun c => has_id c && negb (isvoid c)) cs)).

(** one writer: simplify_planes, then the file.  wr 57-60, 88-91, 116-122: with
    voidGen the last sphere is read (IndexError when there is none).
    Simplification: for OpenMC the xml and py outputs come from one object and are
    not distinguished; Surfaces[-1] of an empty list is not modelled. *)
Definition write_one (o : opts) (w : code) (st : state) : res (output * state) :=
  do _ <- (match w with
           | OPENMC => Ok tt
           | _ => if void_gen o && match group (surfaces st) Sph with [] => true | _ => false end
                  then Err IndexError else Ok tt
           end);
  let three := match w with OPENMC => false | _ => prnt3 o end in
  do st1 <- simplify_planes three st;
  do ss <- sorted_surfaces (surfaces st1);
  let cards := map (write_surf three (pln_tol o)) ss in
  match w with
  | MCNP => Ok (Out (map mcnp_cell (cells st1)) cards, st1)
  | OPENMC => Ok (Out (flat_map openmc_cell (cells st1)) cards, st1)
  | SERPENT => Ok (Out (flat_map (serpent_cell (ucard o)) (cells st1)) cards, st1)
  | PHITS =>
      do l <- (if uni_void o then mapM (phits_cell_uni (start_cell o) (solid_cells (cells st1))) (cells st1)
               else Ok (map phits_cell (cells st1)));
      Ok (Out (flat_map snd l) cards, St (map fst l) (surfaces st1))
  end.

(** write_geometry, wr 8-138: the formats are written in this order, each at most
    once *)
Definition code_eqb (a b : code) : bool :=
  match a, b with
  | MCNP, MCNP | OPENMC, OPENMC | SERPENT, SERPENT | PHITS, PHITS => true
  | _, _ => false
  end.
Fixpoint write_list (o : opts) (ws : list code) (st : state) : res (list (code * output) * state) :=
  match ws with
  | [] => Ok ([], st)
  | w :: r => do (f, st1) <- write_one o w st; do (fs, st2) <- write_list o r st1; Ok ((w, f) :: fs, st2)
  end.
Definition requested (fs : list code) : list code :=
  filter (fun w => existsb (code_eqb w) fs) [MCNP; OPENMC; SERPENT; PHITS].
Definition write_geometry (o : opts) (fs : list code) (st : state) : res (list (code * output) * state) :=
  if supported o then write_list o (requested fs) st else Err ValueError.

(** a history of calls of export_csg on one CadToCsg object *)
Fixpoint exports (o : opts) (calls : list (list code)) (st : state) : res state :=
  match calls with
  | [] => Ok st
  | fs :: r => do (_, st1) <- write_geometry o fs st; exports o r st1
  end.
