(** Specification: cell texts with complement operators and what they mean.
    Independent of the code.  "#n" is the complement of cell n, "#( ... )" the
    complement of a region. *)
From Coq Require Import Ascii String Decimal DecimalZ.
From Verif Require Import Prelude BoolSpec CellText.

Inductive htree :=
| HNum (pre : nat) (sg : chars) (ds : Decimal.uint) (post : nat)
| HPar (pre : nat) (t : htree) (post : nat)
| HAnd (a b : htree)
| HOr (a b : htree)
| HCell (pre k : nat) (ds : Decimal.uint) (post : nat)
| HNot (pre k : nat) (t : htree) (post : nat).

Fixpoint htext (t : htree) : chars :=
  match t with
  | HNum pre sg ds post => blanks pre ++ sg ++ digits ds ++ blanks post
  | HPar pre t post => blanks pre ++ cs "(" ++ htext t ++ cs ")" ++ blanks post
  | HAnd a b => htext a ++ htext b
  | HOr a b => htext a ++ cs ":" ++ htext b
  | HCell pre k ds post => blanks pre ++ cs "#" ++ blanks k ++ digits ds ++ blanks post
  | HNot pre k t post => blanks pre ++ cs "#" ++ blanks k ++ cs "(" ++ htext t ++ cs ")" ++ blanks post
  end.

(** [cell n v]: point v is in cell n *)
Fixpoint hsem (cell : Z -> point -> bool) (v : point) (t : htree) : bool :=
  match t with
  | HNum _ sg ds _ => lit_val v (num_val sg ds)
  | HPar _ t _ => hsem cell v t
  | HAnd a b => hsem cell v a && hsem cell v b
  | HOr a b => hsem cell v a || hsem cell v b
  | HCell _ _ ds _ => negb (cell (Z.of_uint ds) v)
  | HNot _ _ t _ => negb (hsem cell v t)
  end.
(** cells referred to *)
Fixpoint refs (t : htree) : list Z :=
  match t with
  | HNum _ _ _ _ => []
  | HPar _ t _ | HNot _ _ t _ => refs t
  | HAnd a b | HOr a b => refs a ++ refs b
  | HCell _ _ ds _ => [Z.of_uint ds]
  end.

Definition h_is_or (t : htree) : Prop := match t with HOr _ _ => True | _ => False end.
Fixpoint hends_num (t : htree) : Prop :=
  match t with
  | HNum _ _ _ post | HCell _ _ _ post => post = 0%nat
  | HPar _ _ _ | HNot _ _ _ _ => False
  | HAnd _ b | HOr _ b => hends_num b
  end.
Fixpoint hstarts_num (t : htree) : Prop :=
  match t with
  | HNum pre _ _ _ => pre = 0%nat
  | HPar _ _ _ | HNot _ _ _ _ | HCell _ _ _ _ => False
  | HAnd a _ | HOr a _ => hstarts_num a
  end.
Fixpoint hgrammatical (t : htree) : Prop :=
  match t with
  | HNum _ sg ds _ => (sg = [] \/ sg = cs "+" \/ sg = cs "-") /\ ds <> Decimal.Nil /\ num_val sg ds <> 0
  | HPar _ t _ | HNot _ _ t _ => hgrammatical t
  | HAnd a b => hgrammatical a /\ hgrammatical b /\ ~ h_is_or a /\ ~ h_is_or b /\ ~ (hends_num a /\ hstarts_num b)
  | HOr a b => hgrammatical a /\ hgrammatical b
  | HCell _ _ ds _ => ds <> Decimal.Nil
  end.

(** [defined geometry cell n]: with the given cell texts, cell n has a meaning (it is
    not defined through its own complement) and [cell] gives it and those of the cells
    it refers to. *)
Inductive defined (geometry : Z -> option chars) (cell : Z -> point -> bool) : Z -> Prop :=
| defined_cell n s t :
    geometry n = Some s -> hgrammatical t -> htext t = s ->
    (forall m, In m (refs t) -> defined geometry cell m) ->
    (forall v, cell n v = hsem cell v t) ->
    defined geometry cell n.
