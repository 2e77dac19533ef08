(** Model of build_c_table_from_solids,
    /repo/src/geouned/GEOUNED/utils/boolean_solids.py 245-321 ("bs").
    The CAD kernel calls (split_solid_fast) are parameters:
    - [cut s]: split_solid_fast(Box, surfaces[s], True): the diagonal value and
      the pieces of the box on the positive and on the negative side of [s],
      or no pieces when [s] does not cut the box;
    - [side r s]: split_solid_fast(r, surfaces[s], False): whether piece [r] has
      points on the positive side of [s], on its negative side. *)
From Verif Require Import Prelude BoolSpec CtSpec Ctable.

Section Build.
  Variable R : Type.
  Variable cut : Z -> Z * option (list R * list R).
  Variable side : R -> Z -> bool * bool.

  Definition bb_eqb (p q : bool * bool) : bool := eqb (fst p) (fst q) && eqb (snd p) (snd q).

  (** bs 281-294 and 296-307: loop over the pieces.  [last] is the value the
      Python variable pos (neg) has before the loop: it survives from the
      previous pair of surfaces, and is unbound ([None]) at the start. *)
  Fixpoint scan (s2 : Z) (l : list R) (pos0 last : option (bool * bool)) : option (bool * bool) :=
    match l with
    | [] => last
    | r :: rest =>
        let pos := side r s2 in
        if bb_eqb pos (true, true) then Some pos
        else match pos0 with
             | None => scan s2 rest (Some pos) (Some pos)
             | Some p0 => if bb_eqb pos p0 then scan s2 rest pos0 (Some pos)
                          else Some (true, true)
             end
    end.

  Definition state := (option (bool * bool) * option (bool * bool))%type.

  (** bs 278-310: loop over the surfaces after s1. *)
  Fixpoint build_row (s1 : Z) (ps ns : list R) (l : list Z) (st : state) (t : ctab) : res (state * ctab) :=
    match l with
    | [] => Ok (st, t)
    | s2 :: r =>
        let pos := scan s2 ps None (fst st) in
        let neg := scan s2 ns None (snd st) in
        match pos, neg with
        | Some (p0, p1), Some (n0, n1) =>
            build_row s1 ps ns r (pos, neg) (add_element t s1 s2 (CQuad p0 p1 n1 n0))
        | _, _ => Err UnboundLocal
        end
    end.

  (** bs 269-310 *)
  Fixpoint build_loop (diag : bool) (l : list Z) (st : state) (t : ctab) : res ctab :=
    match l with
    | [] => Ok t
    | s1 :: r =>
        let (d, regions) := cut s1 in
        let t1 := add_element t s1 s1 (CDiag d) in
        if diag then build_loop diag r st t1
        else match regions with
             | None => build_loop diag r st t1
             | Some (ps, ns) => do (st', t2) <- build_row s1 ps ns r st t1; build_loop diag r st' t2
             end
    end.

  (** bs 245-315; an empty surface list fails at bs 256 (surfaceList[0]). *)
  Definition build_ctable (diag : bool) (surfaceList : list Z) : res ctab :=
    match surfaceList with
    | [] => Err IndexError
    | _ => do t <- build_loop diag surfaceList (None, None) [];
           if diag then Ok t else fill_missing t
    end.
End Build.
