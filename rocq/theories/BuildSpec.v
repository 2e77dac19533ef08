(** What the solid of a cell must be (C50), apart from the algorithm of Build.v. *)
From Verif Require Import Prelude BoolSpec BoolSeq RBool RBox RPlanes Build.
Open Scope Z_scope.

(** A reading of the shapes of the CAD kernel: [pt] are the points of space that lie on no surface
    and on no face, [mem s] the interior of a shape, [inb b] the interior of a box, [sd x] the side
    of the point for every surface. *)
Record reading (C : cad) := Reading {
  pt : Type;
  mem : shape C -> pt -> Prop;
  inb : bx C -> pt -> Prop;
  sd : pt -> point }.
Arguments pt {C}. Arguments mem {C}. Arguments inb {C}. Arguments sd {C}.

(** The kernel does what its manual says: [make] fills the box, [slice] partitions a shape into
    parts on one side of the surface, [side_at] is that side, [fuse] is the union, what is too thin
    has no interior, and boxes without a common box have no common point. *)
Record good_cad (C : cad) (R : reading C) : Prop := GoodCad {
  make_ok : forall b s, make C b = Some s -> forall x, mem R s x <-> inb R b x;
  make_none : forall b, make C b = None -> forall x, ~ inb R b x;
  flat_ok : forall s, flat C s = true -> forall x, ~ mem R s x;
  thin_ok : forall s, thin C s = true -> forall x, ~ mem R s x;
  small_ok : forall s, small C s = true -> forall x, ~ mem R s x;
  slice_ok : forall s z x, mem R s x <-> exists t, In t (slice C s z) /\ mem R t x;
  side_ok : forall s z t, In t (slice C s z) -> forall x, mem R t x -> sd R x z = side_at C t z;
  fuse_ok : forall l x, mem R (fuse C l) x <-> exists s, In s l /\ mem R s x;
  meets_ok : forall b s, meets C b s = false -> forall x, inb R b x -> ~ mem R s x }.

(** The box of a definition, as C38 has it: Forward, the definition is inside the box (no box: it
    is empty); Reversed, what is outside the definition is inside the box. *)
Definition covers {C : cad} (R : reading C) (ext : bx C) (m : abox (bx C)) (d : pt R -> Prop) : Prop :=
  forall x, inb R ext x ->
    match a_or m, a_box m with
    | Fwd, Some b => d x -> inb R b x
    | Fwd, None => ~ d x
    | Rev, Some b => ~ d x -> inb R b x
    | Rev, None => d x
    end.
Definition holds {C : cad} (R : reading C) (n : node) (x : pt R) : Prop := eval (sd R x) n = true.
(** for the parts of the definition [n] *)
Definition boxes_ok {C : cad} (R : reading C) (ext : bx C) (boxer : node * bx C -> Z -> res (abox (bx C))) (n : node) : Prop :=
  forall d out k m, incl (surfs d) (surfs n) -> wf d -> boxer (d, out) k = Ok m -> covers R ext m (holds R d).
(** the surfaces of a definition, in some order *)
Definition orders (order : node -> list Z) : Prop := forall n z, In z (order n) <-> In z (surfs n).

(** The sides of a union are joined (joinBase): a surface of a union of sub-sequences may not come
    back in a later part of an intersection.  [single]: put at the front by group_single. *)
Definition single (n : node) : Prop :=
  match n with Lit _ => True | Seq _ lev [_] => lev = 0 | _ => False end.
Fixpoint joined (n : node) : list Z :=
  match n with
  | Seq OR lev l => if lev =? 0 then [] else surfs n
  | Seq AND lev l => if lev =? 0 then [] else flat_map joined l
  | _ => []
  end.
Definition apart (l m : list Z) : Prop := forall z, In z l -> ~ In z m.
Fixpoint separate (n : node) : Prop :=
  match n with
  | Seq op lev l =>
      lev = 0 \/
      ((op = AND -> ForallOrdPairs (fun e f => single f \/ apart (joined e) (surfs f)) l) /\
       fold_right (fun c p => separate c /\ p) True l)
  | _ => True
  end.

(** The result: in the external box, a point is in the solid exactly when it is in the cell. *)
Definition in_solid {C : cad} (R : reading C) (s : option (shape C)) (x : pt R) : Prop :=
  match s with Some s => mem R s x | None => False end.
