(** Specification of bounding boxes (C38). *)
From Verif Require Import Prelude Vec3 RBox.
Open Scope R_scope.

Definition in_box (b : bbox) (x : vec) : Prop :=
  xmin b <= vx x <= xmax b /\ ymin b <= vy x <= ymax b /\ zmin b <= vz x <= zmax b.

(** What a box says of a region [S] seen in the universe box [U]: Forward, the region is
    in the box (no box: nothing of it is in the universe); Reversed, what is not in the
    region is in the box (no box: the region is the whole universe). *)
Definition bounds (U : bbox) (m : mybox) (S : vec -> Prop) : Prop :=
  forall x, in_box U x ->
  match mb_or m, mb_box m with
  | Fwd, Some b => S x -> in_box b x
  | Fwd, None => ~ S x
  | Rev, Some b => ~ S x -> in_box b x
  | Rev, None => S x
  end.
