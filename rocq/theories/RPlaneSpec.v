(** Specification for the planes that replace a curved surface (C38). *)
From Verif Require Import Prelude BoolSpec Vec3 Prim PrimSpec RBox RPlanes.
Open Scope R_scope.

(** positive side of a plane, as isInside decides it (without tolerance) *)
Definition pl_pos_side (x : vec) (p : pl) : bool := rltb 0 (pl_dist p x).
(** the point is inside the solid made of the planes *)
Definition within (sp : shape_planes) (x : vec) : bool :=
  let w := pl_pos_side x in
  match sp with
  | SList l | SCone false l => forallb w l
  | SCone true l => forallb w l || forallb (fun p => negb (w p)) l
  | STorus e [] => forallb w e
  | STorus e i => forallb w e && existsb w i
  end.
(** the kinds of surfaces with a correct replacement *)
Definition boxable (s : prim) : Prop :=
  match s with
  | PCyl _ _ _ | PCan _ _ _ | PCone _ _ _ _ | PSphere _ _ | PPara _ _ _ | PBox _ _ _ _ => True
  | PTorus _ a _ rb rc => rb = rc /\ (a = ex \/ a = vopp ex \/ a = ey \/ a = vopp ey \/ a = ez \/ a = vopp ez)
  | _ => False
  end.

(** a definition with no constant part and no surface 0 *)
Fixpoint plain (n : node) : Prop :=
  match n with
  | Lit z => z <> 0%Z
  | Cst _ _ _ => False
  | Seq _ _ l => fold_right (fun c p => plain c /\ p) True l
  end.
(** a surface that has a correct replacement: a plane with a unit normal, or a boxable kind *)
Definition unit_plane (s : prim) : Prop := match s with PPlane n _ => vlen n = 1 | _ => False end.
(** [v] gives the side of the point [x] for each surface of the definition: true is positive *)
Definition sides (surfaces : Z -> option prim) (n : node) (x : vec) (v : point) : Prop :=
  forall z s, In z (lits n) -> surfaces (Z.abs z) = Some s -> if v (Z.abs z) then outside s x else inside s x.
(** sides of the planes of a dictionary *)
Definition plane_sides (planes : list (Z * pl)) (x : vec) : point :=
  fun z => match dget z planes with Some p => pl_pos_side x p | None => false end.
