(** Specification: the tokens of a cell text.  A token is "(", ")", ":" or a
    maximal run of other non blank characters (a word).  Blanks only separate
    words.  Independent of the writers. *)
From Coq Require Import Ascii String.
From Verif Require Import Prelude BoolSpec CellText.

Inductive token := TOpen | TClose | TColon | TWord (w : chars).

Definition special (c : ascii) : option token :=
  if Ascii.eqb c "(" then Some TOpen
  else if Ascii.eqb c ")" then Some TClose
  else if Ascii.eqb c ":" then Some TColon
  else None.

Definition wordc (c : ascii) : bool :=
  negb (Ascii.eqb c " ") && match special c with None => true | Some _ => false end.

Definition head_word (s : chars) : bool := match s with c :: _ => wordc c | [] => false end.

Fixpoint tokens (s : chars) : list token :=
  match s with
  | [] => []
  | c :: r =>
      match special c with
      | Some t => t :: tokens r
      | None =>
          if Ascii.eqb c " " then tokens r
          else if head_word r
               then match tokens r with TWord w :: ts => TWord (c :: w) :: ts | ts => TWord [c] :: ts end
               else TWord [c] :: tokens r
      end
  end.

(** Reading a wrapped card: a line end separates words like a blank. *)
Definition newline : ascii := "010".
Definition unwrap (s : chars) : chars := map (fun c => if Ascii.eqb c newline then " "%char else c) s.

(** Lines of a text. *)
Fixpoint lines (s : chars) : list chars :=
  match s with
  | [] => [[]]
  | c :: r =>
      if Ascii.eqb c newline then [] :: lines r
      else match lines r with
           | [] => [[c]]
           | l :: ls => (c :: l) :: ls
           end
  end.

(** A line may be broken after ")", ":" or " ". *)
Definition brk (c : ascii) : bool := Ascii.eqb c ")" || Ascii.eqb c ":" || Ascii.eqb c " ".
Definition has_break (s : chars) : Prop := exists c, In c s /\ brk c = true.

(** The first [first] characters contain a break position and so does every
    window of [width] characters. *)
Definition breakable (first width : nat) (s : chars) : Prop :=
  has_break (firstn first s) /\
  forall a b c, s = a ++ b ++ c -> length b = width -> has_break b.
