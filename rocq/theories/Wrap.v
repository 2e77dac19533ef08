(** Model of CellString and write_mcnp_cell_def,
    /repo/src/geouned/GEOUNED/write/functions.py ("wf") 35-82 and 99-120. *)
From Coq Require Import Ascii String.
From Verif Require Import Prelude BoolSpec CellText LexSpec Writers ParenModel.

(** wf 50: re.sub(" +", " ", s).  [b]: the previous character was a blank. *)
Fixpoint collapse (b : bool) (s : chars) : chars :=
  match s with
  | [] => []
  | c :: r =>
      if Ascii.eqb c " " then (if b then collapse true r else c :: collapse true r)
      else c :: collapse false r
  end.

(** wf 51-53: re.sub(" *c *", "c", s).  [after]: inside the trailing " *" of a
    match; [k]: blanks read that may belong to the leading " *" of a match. *)
Fixpoint tight (x : ascii) (after : bool) (k : nat) (s : chars) : chars :=
  match s with
  | [] => blanks k
  | c :: r =>
      if Ascii.eqb c " " then (if after then tight x true 0 r else tight x false (S k) r)
      else if Ascii.eqb c x then x :: tight x true 0 r
      else blanks k ++ c :: tight x false 0 r
  end.

(** wf 54-57: re.sub("cd", "c d", s) for the characters p c, q d (p and q are
    disjoint in the four calls, so matches do not overlap). *)
Fixpoint spread (p q : ascii -> bool) (s : chars) : chars :=
  match s with
  | [] => []
  | c :: r => c :: (if p c && match r with d :: _ => q d | [] => false end
                    then " "%char :: spread p q r else spread p q r)
  end.

(** wf 49-57 *)
Definition normal (s : chars) : chars :=
  let isc x := Ascii.eqb x in
  let s := strip is_space s in
  let s := collapse false s in
  let s := tight "(" false 0 s in
  let s := tight ")" false 0 s in
  let s := tight ":" false 0 s in
  let s := spread (isc ")"%char) (isc "("%char) s in
  let s := spread is_digit (isc "("%char) s in
  let s := spread (isc ")"%char) is_digit s in
  spread (isc ")"%char) (isc "-"%char) s.

(** Python s[i] and s[a:b] (step 1). *)
Definition py_index (s : chars) (i : Z) : res ascii :=
  let n := Z.of_nat (length s) in
  let j := if i <? 0 then i + n else i in
  if (j <? 0) || (n <=? j) then Err IndexError
  else match nth_error s (Z.to_nat j) with Some c => Ok c | None => Err IndexError end.
Definition py_slice (s : chars) (a b : Z) : chars :=
  let n := Z.of_nat (length s) in
  let fix1 i := let j := if i <? 0 then i + n else i in Z.max 0 (Z.min n j) in
  let a' := fix1 a in let b' := fix1 b in
  firstn (Z.to_nat (b' - a')) (skipn (Z.to_nat a') s).

(** [brk] (LexSpec): the characters of wf 68. *)
(** wf 68-69: inner loop.  It ends at the latest with an IndexError below -len. *)
Fixpoint back (fuel : nat) (s : chars) (i : Z) : res Z :=
  match fuel with
  | O => Fuel
  | S k => do c <- py_index s i;
           if brk c then Ok i else back k s (i - 1)
  end.

(** wf 67-80: outer loop; it need not terminate, hence the fuel. *)
Fixpoint breaks (fuel : nat) (size tab : Z) (s out : chars) (init icount lenleft : Z) : res chars :=
  match fuel with
  | O => Fuel
  | S k =>
      do i <- back (S (length s + length s)) s icount;
      let out := out ++ py_slice s init (i + 1) in
      let lenleft := lenleft - (i - init + 1) in
      let init := i + 1 in
      let icount := i + (size - tab) in
      if lenleft =? 0 then Ok out
      else if icount <? Z.of_nat (length s)
           then breaks k size tab s (out ++ newline :: blanks (Z.to_nat tab)) init icount lenleft
           else Ok (out ++ newline :: blanks (Z.to_nat tab) ++ py_slice s init (Z.of_nat (length s)))
  end.

(** wf 47-82 wrap_line *)
Definition wrap_line (fuel : nat) (size tab offset : Z) (str : chars) : res chars :=
  let s := normal str in
  let n := Z.of_nat (length s) in
  if n + offset <=? size then Ok s
  else breaks fuel size tab s [] 0 (size - 1 - offset) n.

(** wf 99-120: write_mcnp_cell_def, write_serpent_cell_def, write_phits_cell_def;
    [seq] is the sequence writer, 80 the default line size of CellString. *)
Definition write_cell_def (seq : node -> res chars) (fuel : nat) (tab offset : Z) (n : node) : res chars :=
  do s <- seq n;
  do s' <- remove_redundant s;
  wrap_line fuel 80 tab offset s'.
