(** Strong (Kleene) three-valued logic for C36: [None] is "unknown".  A surface without
    given side is unknown; the complement of unknown is unknown; False wins in an
    intersection and True in a union. *)
From Verif Require Import Prelude BoolSpec BoolSeq.

(** the side given for a surface *)
Fixpoint side (vs : vset) (x : Z) : option bool :=
  match vs with [] => None | (k, b) :: r => if k =? x then Some b else side r x end.
Definition kop (op : bop) (a b : option bool) : option bool :=
  match op, a, b with
  | AND, Some false, _ => Some false
  | AND, _, Some false => Some false
  | AND, Some true, x => x
  | AND, None, _ => None
  | OR, Some true, _ => Some true
  | OR, _, Some true => Some true
  | OR, Some false, x => x
  | OR, None, _ => None
  end.
Fixpoint kleene (vs : vset) (n : node) : option bool :=
  match n with
  | Lit z => match side vs (Z.abs z) with Some b => Some (if z <? 0 then negb b else b) | None => None end
  | Cst _ _ b => Some b
  | Seq op _ l => fold_right (fun c k => kop op (kleene vs c) k) (Some (neutral op)) l
  end.
