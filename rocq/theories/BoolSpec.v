(** Specification vocabulary for Boolean cell definitions: what a definition
    means at a point.  Kept apart from the model of the code's algorithms. *)
From Verif Require Import Prelude.

(** Operators of a BoolSequence ("AND"/"OR").
    /repo/src/geouned/GEOUNED/utils/boolean_function.py:17-25. *)
Inductive bop := AND | OR.

(** The object graph reachable from a BoolSequence, as a tree.
    boolean_function.py:17-25: [elements] is either a bool or a list whose items
    are ints or BoolSequence objects; [operator] and [level] are stored fields
    ([level] can be out of date, so it is stored, not computed).
    - [Lit z]       a Python int inside an [elements] list (signed surface number)
    - [Cst op l b]  a BoolSequence whose [elements] is the bool [b]
    - [Seq op l xs] a BoolSequence whose [elements] is the list [xs]
    Simplification: no object is shared between two positions of the tree. *)
Inductive node :=
| Lit (z : Z)
| Cst (op : bop) (lev : Z) (b : bool)
| Seq (op : bop) (lev : Z) (l : list node).

(** A point is described by the side it lies on for every surface:
    [v s = true] iff the point is on the positive side of surface [s]. *)
Definition point := Z -> bool.

(** Meaning of a signed surface number at a point. *)
Definition lit_val (v : point) (z : Z) : bool :=
  if z <? 0 then negb (v (- z)) else v z.

(** Meaning of a definition at a point: AND = intersection, OR = union. *)
Fixpoint eval (v : point) (n : node) : bool :=
  match n with
  | Lit z => lit_val v z
  | Cst _ _ b => b
  | Seq AND _ l => forallb (eval v) l
  | Seq OR _ l => existsb (eval v) l
  end.

(** Induction principle going through the lists. *)
Section NodeInd.
  Variable P : node -> Prop.
  Hypothesis HL : forall z, P (Lit z).
  Hypothesis HC : forall op l b, P (Cst op l b).
  Hypothesis HS : forall op lev l, Forall P l -> P (Seq op lev l).
  Fixpoint node_ind' (n : node) : P n :=
    match n with
    | Lit z => HL z
    | Cst op l b => HC op l b
    | Seq op lev l =>
        HS op lev l ((fix go (l : list node) : Forall P l :=
             match l with
             | [] => Forall_nil P
             | x :: r => @Forall_cons _ P x r (node_ind' x) (go r)
             end) l)
    end.
End NodeInd.

(** [In_lits z n]: the signed integer [z] occurs somewhere in [n]. *)
Fixpoint lits (n : node) : list Z :=
  match n with
  | Lit z => [z]
  | Cst _ _ _ => []
  | Seq _ _ l => flat_map lits l
  end.

(** Nesting depth as the code defines it: 0 for a list of ints,
    1 + the deepest sub-sequence otherwise. *)
Fixpoint depth (n : node) : Z :=
  match n with
  | Lit _ => -1
  | Cst _ _ _ => 0
  | Seq _ _ l => fold_right (fun c m => Z.max (depth c + 1) m) 0 l
  end.

(** The stored level of every list-valued sequence in the tree is its depth. *)
Fixpoint level_ok (n : node) : Prop :=
  match n with
  | Lit _ => True
  | Cst _ _ _ => True
  | Seq op lev l => lev = depth (Seq op lev l) /\ fold_right (fun c p => level_ok c /\ p) True l
  end.

(** No constant sequence occurs in the tree. *)
Fixpoint no_const (n : node) : Prop :=
  match n with
  | Lit _ => True
  | Cst _ _ _ => False
  | Seq _ _ l => fold_right (fun c p => no_const c /\ p) True l
  end.

(** All surface numbers are non zero (0 is not a surface number; -0 = 0). *)
Definition nonzero (n : node) : Prop := Forall (fun z => z <> 0) (lits n).

(** A BoolSequence object (as opposed to an int). *)
Definition is_seq (n : node) : Prop := match n with Lit _ => False | _ => True end.

(** Well formed definitions: literals are non zero, levels of lists are non
    negative, a list of level 0 holds ints only (so the stored level tells
    whether a sequence is a plain list of surfaces), and constants carry a level
    <= 0 (the code only ever gives them -1 or 0). *)
Definition is_lit (n : node) : Prop := match n with Lit _ => True | _ => False end.

Fixpoint wf (n : node) : Prop :=
  match n with
  | Lit z => z <> 0
  | Cst _ lev _ => lev <= 0
  | Seq _ lev l => 0 <= lev /\ (lev = 0 -> Forall is_lit l) /\ fold_right (fun c p => wf c /\ p) True l
  end.


(** Every Lit is gone after the grouping loop; survivors are old elements. *)
Definition grouped_elt (n : node) : Prop := match n with Lit _ => False | _ => True end.
(** No int directly inside a sequence of non zero level; whole tree. *)
Fixpoint gr (n : node) : Prop :=
  match n with
  | Seq _ lev l => (lev <> 0 -> Forall grouped_elt l) /\ fold_right (fun c p => gr c /\ p) True l
  | _ => True
  end.

(** Every list of the definition has an element and no sequence is constant:
    what a cell text can express. *)
Fixpoint full (n : node) : Prop :=
  match n with
  | Lit _ => True
  | Cst _ _ _ => False
  | Seq _ _ l => l <> [] /\ fold_right (fun c p => full c /\ p) True l
  end.
