(** The void cells of the level 0 enclosure: get_void_def (void.py 96-177) with
    get_void_complementary (void_box_class.py "vb" 167-364) for boxes, and the
    graveyard cells. *)
From Coq Require Import QArith.
From Verif Require Import Prelude BoolSpec BoolSeq CtSpec Ctable VoidCell SurfDict VoidBoxes BoxDef.
Open Scope Z_scope.

Section VoidAll.
  Variable T : Type.
  Variable cls : surface T -> key.
  Variable same : surface T -> surface T -> bool.
  Notation D := (sdict (surface T)).
  Variable strict : bool.         (* ghost: see Prelude.err *)
  Variable k : nat.               (* recursion bound for simplify *)
  Variable ord : node -> list Z.  (* iteration order of sets of surfaces *)
  (** build_c_table_from_solids for the (enlarged) box, vb 217-223, 270-274 *)
  Variable mk : box -> D -> list Z -> res ctab.
  Variable mode : smode.

  (** vb 167-364 for a VoidBox without PieceEnclosure *)
  Definition void_box (z : vbox Empty_set) (d : D) : res (D * option node) :=
    match vreg z with
    | RBox b =>
        do (d1, bd) <- box_def T cls same b d;
        do c <- get_void strict k ord (mk b d1) mode false bd (map mdef (vobj z));
        Ok (d1, c)
    | RPiece e => match e with end
    end.

  Variables maxsurf maxbracket : Z.
  Variable minSize : Q.
  (** get_void_def with Lev0=True *)
  Definition void_level0 (ms : list meta) (u : box) (d : D) : res (D * (list node * list (vbox Empty_set))) :=
    get_void_def Empty_set (fun e => match e with end) (fun e _ => match e with end)
      maxsurf maxbracket minSize D void_box ms (RBox u) d.
End VoidAll.
