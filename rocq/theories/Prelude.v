(** Common vocabulary of the model: results with Python exceptions as values. *)
From Coq Require Export List ZArith Bool Lia Arith.
From Coq Require Export ZifyBool.
Export ListNotations.
Open Scope Z_scope.

(** Python exceptions that the modelled code can raise.  [NeutralUpdate] is a
    ghost outcome used only by "strict" runs (see BoolSeq.update); likewise
    [ConstSub] (see Ctable.remove_extra) and [AndVoid] (see VoidCell). *)
Inductive err :=
| TypeError | AttributeError | IndexError | KeyError | ValueError | ZeroDivision
| UnboundLocal
| NeutralUpdate | ConstSub | AndVoid.

(** Result of a modelled call: value, Python exception, or fuel exhausted. *)
Inductive res (A : Type) :=
| Ok (a : A)
| Err (e : err)
| Fuel.
Arguments Ok {A} a.
Arguments Err {A} e.
Arguments Fuel {A}.

Definition bind {A B} (r : res A) (f : A -> res B) : res B :=
  match r with Ok a => f a | Err e => Err e | Fuel => Fuel end.

Notation "'do' x <- r ; k" := (bind r (fun x => k))
  (at level 200, x pattern, r at level 100, k at level 200, right associativity).

(** Loop helper: run [f] on every element left to right. *)
Section MapM.
  Context {A B : Type}.
  Variable f : A -> res B.
  Fixpoint mapM (l : list A) : res (list B) :=
    match l with
    | [] => Ok []
    | x :: r => do y <- f x; do ys <- mapM r; Ok (y :: ys)
    end.
End MapM.

(** [del l[i]] *)
Fixpoint remove_at {A} (i : nat) (l : list A) : list A :=
  match l, i with
  | [], _ => []
  | _ :: r, O => r
  | x :: r, S j => x :: remove_at j r
  end.

Definition is_ok {A} (r : res A) : bool := match r with Ok _ => true | _ => false end.

Lemma bind_ok {A B} (r : res A) (f : A -> res B) b :
  bind r f = Ok b -> exists a, r = Ok a /\ f a = Ok b.
Proof. destruct r; simpl; intros H; try discriminate; eauto. Qed.

Ltac inv_bind :=
  repeat match goal with
  | H : bind _ _ = Ok _ |- _ =>
      let a := fresh "a" in let Ha := fresh "Ha" in
      apply bind_ok in H; destruct H as [a [Ha H]]
  end.
