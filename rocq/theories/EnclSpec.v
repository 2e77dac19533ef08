(** Specification: enclosure trees. *)
From Verif Require Import Prelude Enclosures.

(** Labels from which a chain of parents leads to the root 0. *)
Inductive rooted (l : list encl) : Z -> Prop :=
| rooted_0 : rooted l 0
| rooted_s e : In e l -> rooted l (pid e) -> rooted l (eid e).
(** ... of length n *)
Inductive depth (l : list encl) : nat -> Z -> Prop :=
| depth_0 : depth l 0 0
| depth_s n e : In e l -> depth l n (pid e) -> depth l (S n) (eid e).

(** A set of enclosures is a tree under the root 0. *)
Definition tree (l : list encl) : Prop :=
  NoDup (map eid l) /\ ~ In 0 (map eid l) /\ forall e, In e l -> rooted l (pid e).
