(** Model of the definition of a box by its six planes:
    /repo/src/geouned/GEOUNED/void/void_box_class.py ("vb") 168-182, 379-453 and
    void/void.py ("vo") 180-233 (graveyard cells). *)
From Coq Require Import QArith.
From Verif Require Import Prelude BoolSpec BoolSeq SurfDict VoidBoxes.
Open Scope Z_scope.

(** A plane normal to an axis: axis, orientation (true: the normal points to
    growing coordinates), coordinate. *)
Record plane := Plane { paxis : axis; pdir : bool; pco : Q }.

(** get_bound_planes, vb 379-453: normals point into the box. *)
Definition bound_planes (b : box) : list plane :=
  [Plane AX true (lo b AX); Plane AX false (hi b AX);
   Plane AY true (lo b AY); Plane AY false (hi b AY);
   Plane AZ true (lo b AZ); Plane AZ false (hi b AZ)].

Section BoxDef.
  (** Surfaces: axis planes, and others. *)
  Variable T : Type.
  Definition surface := (plane + T)%type.
  (** groups of the other surfaces, and the tests "is the same" *)
  Variable cls : surface -> key.
  Variable same : surface -> surface -> bool.
  Notation sdict := (sdict surface).

  (** is_opposite of the two normals, for planes of the same group *)
  Definition opposite (p : plane) (s : surface) : bool :=
    match s with inl q => negb (eqb (pdir p) (pdir q)) | inr _ => false end.

  (** vb 172-181.  [is_opposite(axis, position - center)]: the centre is on
      the positive side iff the box has a length along the axis.
      Simplification: angles are compared exactly. *)
  Definition box_literal (b : box) (p : plane) (d : sdict) : res (sdict * Z) :=
    let '(d1, (id, found)) := add surface cls same (inl p) d in
    do (d2, id2) <-
      (if found then
         do (d2, s) <- get_surface id d1;
         match s with
         | None => Err AttributeError
         | Some s => Ok (d2, if opposite p (geo s) then - id else id)
         end
       else Ok (d1, id));
    Ok (d2, if Qltb 0 (len b (paxis p)) then id2 else - id2).

  Fixpoint box_literals (b : box) (ps : list plane) (d : sdict) : res (sdict * list node) :=
    match ps with
    | [] => Ok (d, [])
    | p :: r =>
        do (d1, z) <- box_literal b p d;
        do (d2, l) <- box_literals b r d1; Ok (d2, Lit z :: l)
    end.

  (** boxDef, vb 168-182 *)
  Definition box_def (b : box) (d : sdict) : res (sdict * node) :=
    do (d', l) <- box_literals b (bound_planes b) d; Ok (d', Seq AND 0 l).

  (** get_universe_complementary, vo 220-233 *)
  Definition compl_literal (p : plane) (d : sdict) : res (sdict * Z) :=
    let '(d1, (id, found)) := add surface cls same (inl p) d in
    if found then
      do (d2, s) <- get_surface id d1;
      match s with
      | None => Err AttributeError
      | Some s => Ok (d2, if opposite p (geo s) then id else - id)
      end
    else Ok (d1, - id).
  Fixpoint compl_literals (ps : list plane) (d : sdict) : res (sdict * list node) :=
    match ps with
    | [] => Ok (d, [])
    | p :: r =>
        do (d1, z) <- compl_literal p d;
        do (d2, l) <- compl_literals r d1; Ok (d2, Lit z :: l)
    end.
  Definition universe_compl (b : box) (d : sdict) : res (sdict * node) :=
    do (d', l) <- compl_literals (bound_planes b) d; Ok (d', Seq OR 0 l).

  (** set_graveyard_cell, vo 180-217: [sph] is the sphere.  The two cells:
      inside the sphere and outside the box; outside the sphere.
      BoolSequence(str(i)) is a list of one int with operator AND
      (boolean_function.py 18-25, 576-607). *)
  Definition graveyard (b : box) (sph : T) (d : sdict) : res (sdict * (node * node)) :=
    do (d1, ext) <- universe_compl b d;
    let '(d2, (id, _)) := add surface cls same (inr sph) d1 in
    do inn <- append (Seq AND 0 [Lit (- id)]) [AN ext];
    Ok (d2, (inn, Seq AND 0 [Lit id])).
End BoxDef.
