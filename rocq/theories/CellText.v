(** Specification: the concrete grammar of cell expressions and what a text
    means.  Independent of the parser and writers.

    A [tree] is a parse tree of a text with its layout (blanks); [text] is the
    text it stands for, [sem] the Boolean function it denotes.  Intersection is
    juxtaposition (or an explicit sign), union an explicit sign of lower
    precedence, parentheses group. *)
From Coq Require Import Ascii String DecimalString Decimal DecimalZ.
From Verif Require Import Prelude BoolSpec.

Notation chars := (list ascii).
Definition cs (s : string) : chars := list_ascii_of_string s.

(** Parse trees.  [pre]/[post]: number of blanks before/after the item. *)
Inductive tree :=
| TNum (pre : nat) (sg : chars) (ds : Decimal.uint) (post : nat)
| TPar (pre : nat) (t : tree) (post : nat)
| TAnd (a b : tree)
| TOr (a b : tree).

(** Decimal digits as characters. *)
Fixpoint digits (d : Decimal.uint) : chars :=
  match d with
  | Decimal.Nil => []
  | Decimal.D0 d => "0"%char :: digits d
  | Decimal.D1 d => "1"%char :: digits d
  | Decimal.D2 d => "2"%char :: digits d
  | Decimal.D3 d => "3"%char :: digits d
  | Decimal.D4 d => "4"%char :: digits d
  | Decimal.D5 d => "5"%char :: digits d
  | Decimal.D6 d => "6"%char :: digits d
  | Decimal.D7 d => "7"%char :: digits d
  | Decimal.D8 d => "8"%char :: digits d
  | Decimal.D9 d => "9"%char :: digits d
  end.

Definition blanks (n : nat) : chars := repeat " "%char n.

(** Notation of a format: sign of intersection (may be empty), sign of union,
    and the prefix put between the sign and the digits of a surface. *)
Record notation := { and_sign : chars; or_sign : chars; surf_prefix : chars }.

Definition mcnp : notation := {| and_sign := []; or_sign := cs ":"; surf_prefix := [] |}.
Definition openmc_xml : notation := {| and_sign := []; or_sign := cs "|"; surf_prefix := [] |}.
Definition openmc_py : notation := {| and_sign := cs "&"; or_sign := cs "|"; surf_prefix := cs "S" |}.

Fixpoint text (nt : notation) (t : tree) : chars :=
  match t with
  | TNum pre sg ds post => blanks pre ++ sg ++ surf_prefix nt ++ digits ds ++ blanks post
  | TPar pre t post => blanks pre ++ cs "(" ++ text nt t ++ cs ")" ++ blanks post
  | TAnd a b => text nt a ++ and_sign nt ++ text nt b
  | TOr a b => text nt a ++ or_sign nt ++ text nt b
  end.

(** Value of a number token. *)
Definition num_val (sg : chars) (ds : Decimal.uint) : Z :=
  if match sg with c :: _ => Ascii.eqb c "-" | [] => false end
  then - Z.of_uint ds else Z.of_uint ds.

Fixpoint sem (v : point) (t : tree) : bool :=
  match t with
  | TNum _ sg ds _ => lit_val v (num_val sg ds)
  | TPar _ t _ => sem v t
  | TAnd a b => sem v a && sem v b
  | TOr a b => sem v a || sem v b
  end.

Definition is_or (t : tree) : Prop := match t with TOr _ _ => True | _ => False end.

(** The text of [t] starts/ends with a bare number (no blank, no sign). *)
Fixpoint ends_num (t : tree) : Prop :=
  match t with
  | TNum _ _ _ post => post = 0%nat
  | TPar _ _ _ => False
  | TAnd _ b => ends_num b
  | TOr _ b => ends_num b
  end.
Fixpoint starts_num (t : tree) : Prop :=
  match t with
  | TNum pre sg _ _ => pre = 0%nat
  | TPar _ _ _ => False
  | TAnd a _ => starts_num a
  | TOr a _ => starts_num a
  end.

(** Grammatical trees: signs are "", "+" or "-", numbers have digits and are non
    zero, a union directly under an intersection is parenthesised, and two
    numbers are not glued together when juxtaposition means intersection. *)
Fixpoint grammatical (nt : notation) (t : tree) : Prop :=
  match t with
  | TNum _ sg ds _ =>
      (sg = [] \/ sg = cs "+" \/ sg = cs "-") /\ ds <> Decimal.Nil /\ num_val sg ds <> 0
  | TPar _ t _ => grammatical nt t
  | TAnd a b => grammatical nt a /\ grammatical nt b /\ ~ is_or a /\ ~ is_or b /\
                (and_sign nt = [] -> ~ (ends_num a /\ starts_num b))
  | TOr a b => grammatical nt a /\ grammatical nt b
  end.

(** The surface numbers of an expression, with their signs. *)
Fixpoint numbers (t : tree) : list Z :=
  match t with
  | TNum _ sg ds _ => [num_val sg ds]
  | TPar _ t _ => numbers t
  | TAnd a b | TOr a b => numbers a ++ numbers b
  end.
(** [s] is a cell expression, and its surface numbers (without sign) are in [Q]. *)
Definition mentions (nt : notation) (s : chars) (Q : Z -> Prop) : Prop :=
  exists t, grammatical nt t /\ text nt t = s /\ forall z, In z (numbers t) -> Q (Z.abs z).

(** [s] is a cell expression that denotes [f]. *)
Definition denotes (nt : notation) (s : chars) (f : point -> bool) : Prop :=
  exists t, grammatical nt t /\ text nt t = s /\ forall v, sem v t = f v.
