(** Model of the conversion of a geometry without enclosures,
    /repo/src/geouned/GEOUNED/core.py ("co") 440-620, after the solids have been cut and the
    surfaces of the pieces have been registered (co 625-674, the dictionary [d]): the cells of
    the solids, the void cells, the graveyard cells, and the apex planes of cones.
    Settings: voidGen = True, voidExclude empty, simplify is not "full"; options:
    forceNoOverlap = False.  The functions that are called are those of CellDef.v, VoidAll.v,
    BoxDef.v and ConePlanes.v. *)
From Coq Require Import QArith.
From Verif Require Import Prelude BoolSpec BoolSeq CtSpec Ctable VoidCell SurfDict CellDef ConePlanes VoidBoxes BoxDef VoidAll.
Open Scope Z_scope.

Section Start.
  Variable T : Type.
  Notation G := (surface T).
  Notation D := (sdict G).
  Variable cls : G -> key.
  Variable same : G -> G -> bool.
  Variable opp opp_x opp_c : G -> G -> bool.     (* is_opposite, see CellDef.v and ConePlanes.v *)
  Variable aligned : G -> bool.                  (* axis of a cone along X, Y or Z, cd 917-921 *)
  Variable apex : G -> G.
  Variable sord : list Z -> list Z.              (* orders of sets *)
  Variable iord : list Z -> list Z.
  Variable pbox : piece G -> box.                (* BoundBox of a piece *)

  (** A solid: __id__ and the pieces of Solids. *)
  Definition solid := (Z * list (piece G))%type.

  (** co 441-456: cellDef for every solid; coneInfo.  The result of a solid: all its pieces,
      the pieces that are kept, the definition. *)
  Record cell := Cell { c_id : Z; c_all : list (piece G); c_kept : list (piece G); c_def : node }.
  Fixpoint cell_defs (l : list solid) (d : D) : res (D * list cell * cinfo) :=
    match l with
    | [] => Ok (d, [], [])
    | (i, ps) :: r =>
        do x <- cell_def G cls same opp opp_x sord ps d;
        let '(d1, kept, def, cones) := x in
        do y <- cell_defs r d1;
        let '(d2, cs, ci) := y in
        Ok (d2, Cell i ps kept def :: cs, match cones with [] => ci | _ => (i, cones) :: ci end)
    end.

  (** What the void generation uses of a cell, see VoidBoxes.v: BoundBox is the box of all the
      pieces (update_solids, uf 97-103, called before cellDef), Solids those that are kept. *)
  Definition void_meta (c : cell) : meta :=
    Meta (c_id c) (match map pbox (c_all c) with [] => None | b :: r => Some (hull b r) end)
      (Some (map pbox (c_kept c))) (c_def c) (set_ns (c_def c) 0) false.

  Variable strict : bool.         (* ghost: see Prelude.err *)
  Variable k : nat.
  Variable ord : node -> list Z.
  Variable mk : box -> D -> list Z -> res ctab.
  Variable mode : smode.
  Variables maxsurf maxbracket : Z.
  Variable minSize : Q.

  (** void.py ("vo") 147-150: beside each void cell, the ids of the cells of its box.  The ids
      are collected in the second part of the state, in the order of the cells. *)
  Definition void_noted (z : vbox Empty_set) (x : D * list (option (list Z))) :
      res ((D * list (option (list Z))) * option node) :=
    do (d1, c) <- void_box T cls same strict k ord mk mode z (fst x);
    Ok ((d1, match c with
             | Some _ => snd x ++ [cells_in (map (fun m => (mencl m, mid m)) (vobj z))]
             | None => snd x
             end), c).
  (** vo 96-177, Lev0=True *)
  Definition void_noted0 (ms : list meta) (u : box) (d : D) :
      res ((D * list (option (list Z))) * (list node * list (vbox Empty_set))) :=
    get_void_def Empty_set (fun e => match e with end) (fun e _ => match e with end)
      maxsurf maxbracket minSize (D * list (option (list Z))) void_noted ms (RBox u) (d, []).

  (** set_definition, uf 116-130: NullCell *)
  Definition null (n : node) : bool :=
    match n with Seq _ _ [] | Cst _ _ false => true | _ => false end.
  (** co 561-569: cells without definition are left out *)
  Definition solid_cells (l : list cell) : list mcell :=
    map (fun c => MC (Some (c_id c)) false None (Some (c_def c))) (filter (fun c => negb (null (c_def c))) l).
  (** void_functions.py 63-108: numbering of the void cells from [i] *)
  Fixpoint void_mcells (i : Z) (vs : list node) (infos : list (option (list Z))) : list mcell :=
    match vs, infos with
    | n :: vs, x :: infos => MC (Some i) true (Some x) (Some n) :: void_mcells (i + 1) vs infos
    | _, _ => []
    end.
  (** co 500-503 *)
  Definition last_id (l : list solid) : Z := fst (List.last l (0, [])).

  (** co 440-585: all but the apex planes: surfaces, coneInfo, cells *)
  Definition start0 (l : list solid) (u : box) (sph : T) (d : D) : res (D * cinfo * list mcell) :=
    do x <- cell_defs l d;
    let '(d1, cs, ci) := x in
    do y <- void_noted0 (map void_meta cs) u d1;
    let '((d2, infos), (vs, _)) := y in
    do z <- graveyard T cls same u sph d2;
    let '(d3, (inn, out)) := z in
    let i := last_id l + 1 in
    let j := i + Z.of_nat (length vs) in
    Ok (d3, ci,
      solid_cells cs ++ [MC None false None None] ++ void_mcells i vs infos ++
       [MC (Some j) true None (Some inn); MC (Some (j + 1)) true None (Some out)]).
  (** co 440-609 *)
  Definition start (l : list solid) (u : box) (sph : T) (d : D) : res (D * list mcell) :=
    do x <- start0 l u sph d;
    let '(d3, ci, ms) := x in
    process_cones G cls same opp_c aligned apex iord ci ms d3.
End Start.
Arguments Cell {T}. Arguments c_id {T}. Arguments c_all {T}. Arguments c_kept {T}. Arguments c_def {T}.
