(** Model of the text side of BoolSequence:
    /repo/src/geouned/GEOUNED/utils/boolean_function.py ("bf") 11-13, 576-606
    (set_def), 682-736 (outer_terms), 739-777 (redundant), 780-785 (is_integer),
    and of /repo/src/geouned/GEOUNED/write/string_functions.py ("sf") 84-160
    (redundant, remove_redundant; same algorithm). *)
From Coq Require Import Ascii String Decimal DecimalZ.
From Verif Require Import Prelude BoolSpec BoolSeq CellText.

(** outer_terms keeps two strings of equal length, [expression] and the edited
    [expr]; every replacement keeps the length.  They are modelled as one list
    of pairs (character of expression, character of expr). *)
Notation pc := (ascii * ascii)%type.

Definition is_c (c : ascii) (p : pc) : bool := Ascii.eqb (snd p) c.

(** bf 11 mostinner: "(" then no "(", "^", ")" then ")".  [scan_close] reads up to
    the closing parenthesis. *)
Fixpoint scan_close (l : list pc) : option (list pc * pc * list pc) :=
  match l with
  | [] => None
  | p :: r =>
      if is_c ")" p then Some ([], p, r)
      else if is_c "(" p || is_c "^" p then None
      else match scan_close r with
           | Some (i, c, a) => Some (p :: i, c, a)
           | None => None
           end
  end.

(** mostinner.search: text before, "(", inside, ")", text after. *)
Fixpoint find_inner (l : list pc) : option (list pc * pc * list pc * pc * list pc) :=
  match l with
  | [] => None
  | p :: r =>
      let next := match find_inner r with
                  | Some (b, o, i, c, a) => Some (p :: b, o, i, c, a)
                  | None => None
                  end in
      if is_c "(" p then
        match scan_close r with
        | Some (i, c, a) => Some ([], p, i, c, a)
        | None => next
        end
      else next
  end.

(** bf 747/762: characters ignored next to a parenthesis. *)
Definition skipped (p : pc) : bool :=
  is_c "010" p || is_c "C" p || is_c "$" p || is_c " " p.

Fixpoint first_valid (l : list pc) : option pc :=
  match l with
  | [] => None
  | p :: r => if skipped p then first_valid r else Some p
  end.

(** bf 743-752 and 759-768 *)
Definition left_ok (before : list pc) : bool :=
  match first_valid (rev before) with
  | None => true
  | Some p => is_c "(" p || is_c ":" p
  end.
Definition right_ok (after : list pc) : bool :=
  match first_valid after with
  | None => true
  | Some p => is_c ")" p || is_c ":" p
  end.

(** bf 739-777 redundant, sf 84-122 *)
Definition redundant (before inside after : list pc) : bool :=
  if existsb (is_c ":") inside then left_ok before && right_ok after else true.

Definition setc (c : ascii) (p : pc) : pc := (fst p, c).

(** bf 696-715 / sf 130-146: one pass over the most inner parentheses, from
    position [length done] on.  [fill]: what a character inside non redundant
    parentheses becomes. *)
Fixpoint pass (fill : ascii -> ascii) (fuel : nat) (done rest : list pc) : list pc * bool :=
  match fuel with
  | O => (done ++ rest, false)
  | S k =>
      match find_inner rest with
      | None => (done ++ rest, false)
      | Some (b, o, i, c, a) =>
          let mid :=
            if redundant (done ++ b) i a
            then setc " " o :: i ++ [setc " " c]
            else setc "[" o :: map (fun p => setc (fill (snd p)) p) i ++ [setc "]" c] in
          (fst (pass fill k (done ++ b ++ mid) a), true)
      end
  end.

(** bf 693-715 / sf 128-146: passes until no parenthesis is found. *)
Fixpoint passes (fill : ascii -> ascii) (fuel : nat) (l : list pc) : res (list pc) :=
  match fuel with
  | O => Fuel
  | S k =>
      let (l', cont) := pass fill (S (length l)) [] l in
      if cont then passes fill k l' else Ok l'
  end.

Definition twice (s : chars) : list pc := map (fun c => (c, c)) s.
Definition zero_fill (c : ascii) : ascii := "0".

(** str.strip() and str.strip(ch). *)
Fixpoint drop_while (p : ascii -> bool) (l : chars) : chars :=
  match l with [] => [] | c :: r => if p c then drop_while p r else l end.
Definition strip (p : ascii -> bool) (l : chars) : chars :=
  rev (drop_while p (rev (drop_while p l))).
(** ASCII white space: space, \t \n \v \f \r and 0x1c-0x1f. *)
Definition is_space (c : ascii) : bool :=
  let n := nat_of_ascii c in
  Nat.eqb n 32 || (Nat.leb 9 n && Nat.leb n 13) || (Nat.leb 28 n && Nat.leb n 31).

Definition digit_of (c : ascii) : option (Decimal.uint -> Decimal.uint) :=
  if Ascii.eqb c "0" then Some Decimal.D0
  else if Ascii.eqb c "1" then Some Decimal.D1
  else if Ascii.eqb c "2" then Some Decimal.D2
  else if Ascii.eqb c "3" then Some Decimal.D3
  else if Ascii.eqb c "4" then Some Decimal.D4
  else if Ascii.eqb c "5" then Some Decimal.D5
  else if Ascii.eqb c "6" then Some Decimal.D6
  else if Ascii.eqb c "7" then Some Decimal.D7
  else if Ascii.eqb c "8" then Some Decimal.D8
  else if Ascii.eqb c "9" then Some Decimal.D9
  else None.
Definition is_digit (c : ascii) : bool := match digit_of c with Some _ => true | None => false end.
Definition is_sign (c : ascii) : bool := Ascii.eqb c "-" || Ascii.eqb c "+".

Fixpoint parse_digits (l : chars) : option Decimal.uint :=
  match l with
  | [] => Some Decimal.Nil
  | c :: r => match digit_of c, parse_digits r with
              | Some f, Some d => Some (f d)
              | _, _ => None
              end
  end.

(** Python int(str): surrounding white space, optional sign, digits.
    Simplification: underscores between digits and non ASCII digits are not
    modelled. *)
Definition int_of (s : chars) : option Z :=
  let s' := strip is_space s in
  let (neg, ds) := match s' with
                   | c :: r => if is_sign c then (Ascii.eqb c "-", r) else (false, s')
                   | [] => (false, [])
                   end in
  match ds, parse_digits ds with
  | [], _ => None
  | _, Some d => Some (if neg then - Z.of_uint d else Z.of_uint d)
  | _, None => None
  end.

(** bf 780-785 is_integer together with the int(...) of bf 587:
    x.strip("(").strip(")") *)
Definition as_integer (s : chars) : option Z :=
  int_of (strip (fun c => Ascii.eqb c ")") (strip (fun c => Ascii.eqb c "(") s)).

(** bf 717-727: pieces of [expression] between the ":" of [expr]. *)
Fixpoint split_colon (l : list pc) : list chars :=
  match l with
  | [] => [[]]
  | p :: r =>
      if is_c ":" p then [] :: split_colon r
      else match split_colon r with
           | [] => [[fst p]]
           | t :: ts => (fst p :: t) :: ts
           end
  end.

(** bf 12 mix: [-+]?\d+ | \[0+\] anchored at the start of the list. *)
Fixpoint span (p : pc -> bool) (l : list pc) : list pc * list pc :=
  match l with
  | [] => ([], [])
  | x :: r => if p x then let (a, b) := span p r in (x :: a, b) else ([], l)
  end.
Definition match_at (l : list pc) : option (list pc * list pc) :=
  let dig p := is_digit (snd p) in
  let num (pre r : list pc) := match span dig r with
                               | ([], _) => None
                               | (ds, r') => Some (pre ++ ds, r')
                               end in
  match l with
  | [] => None
  | p :: r =>
      let m1 := if is_sign (snd p) then num [p] r else num [] l in
      match m1 with
      | Some x => Some x
      | None =>
          if is_c "[" p then
            match span (is_c "0") r with
            | (z :: zs, c :: r') => if is_c "]" c then Some (p :: z :: zs ++ [c], r') else None
            | _ => None
            end
          else None
      end
  end.

(** bf 728-736: reValue.search repeated.  Fuel: length of the text. *)
Fixpoint scan_terms (fuel : nat) (l : list pc) : list chars :=
  match fuel with
  | O => []
  | S k =>
      match l with
      | [] => []
      | _ :: r =>
          match match_at l with
          | Some (m, r') => map fst m :: scan_terms k r'
          | None => scan_terms k r
          end
      end
  end.

(** bf 682-736 outer_terms(expression) *)
Definition outer_terms (s : chars) : res (list chars * bop) :=
  do l <- passes zero_fill (S (length s)) (twice s);
  if existsb (is_c ":") l
  then Ok (map (strip is_space) (split_colon l), OR)
  else Ok (scan_terms (length l) l, AND).

(** bf 576-606 set_def on a fresh instance.  [sord]: the order in which Python
    iterates over the set of ints.  bf 20: an empty string builds a sequence
    without operator; not modelled, reported as an error. *)
Definition set_level (lev : Z) (n : node) : node :=
  match n with
  | Lit z => Lit z
  | Cst op _ b => Cst op lev b
  | Seq op _ l => Seq op lev l
  end.

Section SetDefLoop.
  Variable rec : chars -> res node.
  Fixpoint def_loop (terms : list chars) (self : node) (ints : list Z) : res (node * list Z) :=
    match terms with
    | [] => Ok (self, ints)
    | t :: ts =>
        match as_integer t with
        | Some z => def_loop ts self (ints ++ [z])
        | None =>
            match t with
            | [] => Err ValueError
            | _ =>
                do x <- rec t;
                do s' <- append (set_level (Z.max (level_of x + 1) (level_of self)) self) [AN x];
                def_loop ts s' ints
            end
        end
    end.
End SetDefLoop.

Fixpoint set_def (sord : list Z -> list Z) (fuel : nat) (s : chars) : res node :=
  match fuel with
  | O => Fuel
  | S k =>
      do (terms, op) <- outer_terms s;
      do (self, ints) <- def_loop (set_def sord k) terms (Seq op 0 []) [];
      let ints' := nodup Z.eq_dec ints in
      do self' <-
        (if Nat.eqb (length ints') (length (nodup Z.eq_dec (map Z.abs ints)))
         then append self (map (fun z => AN (Lit z)) (sord ints'))
         else Ok (Cst op (-1) (absorbing op)));
      group_single self'
  end.

(** BoolSequence(definition) *)
Definition parse (sord : list Z -> list Z) (s : chars) : res node := set_def sord (S (length s)) s.

(** sf 125-160 remove_redundant.  The three substitutions on new lines (sf 152-158)
    do nothing on a text without new line and are omitted. *)
Definition semi_fill (c : ascii) : ascii := if Ascii.eqb c ":" then ";" else c.
Definition restore (c : ascii) : ascii :=
  if Ascii.eqb c "[" then "(" else if Ascii.eqb c "]" then ")"
  else if Ascii.eqb c ";" then ":" else c.
Definition remove_redundant (s : chars) : res chars :=
  do l <- passes semi_fill (S (length s)) (twice s);
  Ok (map (fun p => restore (snd p)) l).
