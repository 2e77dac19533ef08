(** Specification: points of boxes, and solids that lie in their boxes. *)
From Coq Require Import QArith.
From Verif Require Import Prelude BoolSpec BoolSeq VoidBoxes.

(** Closed box, its interior. *)
Definition inside (b : box) (p : place) : Prop := forall a, (lo b a <= p a <= hi b a)%Q.
Definition interior (b : box) (p : place) : Prop := forall a, (lo b a < p a < hi b a)%Q.
(** Half open box: the lower faces belong to it, the upper ones do not. *)
Definition halfb (b : box) (p : place) : bool :=
  forallb (fun a => Qle_bool (lo b a) (p a) && Qltb (p a) (hi b a)) axes.

(** The solid [m] at place [p], where surfaces have the sides [v]: it lies in
    its bounding box, and its definition is either the union of the definitions
    of its pieces, each lying in the bounding box of the piece with the same
    number, or it has only one piece.  (A solid without bounding box has no
    points.) *)
Definition aligned (p : place) (v : point) (m : meta) : Prop :=
  (wf (mdef m) /\ is_seq (mdef m)) /\
  (eval v (mdef m) = true -> exists b, mbb m = Some b /\ inside b p) /\
  (mbb m <> None -> exists op lev l sols, mdef m = Seq op lev l /\ msol m = Some sols /\
    (op = OR /\ Forall2 (fun n s => (exists o k xs, n = Seq o k xs) /\ (eval v n = true -> inside s p)) l sols
     \/ exists s, sols = [s] /\ l <> [] /\ (eval v (mdef m) = true -> inside s p))).

(** Boxes obtained from [u] by [n] splits. *)
Inductive desc (m : Q) (u : box) : nat -> box -> Prop :=
| desc_0 : desc m u 0 u
| desc_l n b b1 b2 : desc m u n b -> split m b = Some (b1, b2) -> desc m u (S n) b1
| desc_r n b b1 b2 : desc m u n b -> split m b = Some (b1, b2) -> desc m u (S n) b2.

(** Size of a box in units of the smallest size, dimensions below it count as it. *)
Definition big_len (m l : Q) : Q := if Qle_bool m l then l else m.
Definition weight (m : Q) (b : box) : Q := (big_len m (len b AX) * big_len m (len b AY) * big_len m (len b AZ))%Q.
