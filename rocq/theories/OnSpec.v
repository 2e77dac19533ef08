(** Specification for C56: the surfaces a cell refers to. *)
From Verif Require Import Prelude BoolSpec SurfDict CellDefSpec.

(** The number [i] is that of exactly one registered surface. *)
Definition names_one {G} (d : sdict G) (i : Z) : Prop :=
  exists s, registered_in d s /\ index s = i /\ forall s', registered_in d s' -> index s' = i -> s' = s.
(** All the surfaces of the definition [n] are registered. *)
Definition known {G} (d : sdict G) (n : node) : Prop := forall z, In z (lits n) -> names_one d (Z.abs z).
(** All the surface numbers of [n] (without sign) are numbers of one of the definitions [l]. *)
Definition from (l : list node) (n : node) : Prop :=
  forall z, In z (lits n) -> exists m y, In m l /\ In y (lits m) /\ Z.abs y = Z.abs z.
