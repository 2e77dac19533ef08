(** Model of the removal of complements from MCNP cell texts:
    /repo/src/geouned/GEOReverse/Modules/remh.py ("rh") 90-132 (redundant), 138-165
    (chgsign, repl_inter_union), 184-227 (complementary), 340-398
    (Cline.remove_redundant), 400-413 (get_hashcell), 677-727 (remove_hash).
    Simplification: cell texts without new lines and comments, on which
    remove_comments, restore_comments and the substitutions on blank lines,
    continuation lines and "$" change nothing. *)
From Coq Require Import Ascii String Decimal DecimalZ.
From Verif Require Import Prelude BoolSpec CellText ParenModel.

(** rh 90-132 redundant: as GEOUNED's, except that parentheses after "#" are kept *)
Definition redundant_h (before inside after : list pc) : bool :=
  if match first_valid (rev before) with Some p => is_c "#" p | None => false end then false
  else redundant before inside after.
(** rh 352-373: as [pass] and [passes] *)
Fixpoint pass_h (fill : ascii -> ascii) (fuel : nat) (done rest : list pc) : list pc * bool :=
  match fuel with
  | O => (done ++ rest, false)
  | S k =>
      match find_inner rest with
      | None => (done ++ rest, false)
      | Some (b, o, i, c, a) =>
          let mid :=
            if redundant_h (done ++ b) i a
            then setc " " o :: i ++ [setc " " c]
            else setc "[" o :: map (fun p => setc (fill (snd p)) p) i ++ [setc "]" c] in
          (fst (pass_h fill k (done ++ b ++ mid) a), true)
      end
  end.
Fixpoint passes_h (fill : ascii -> ascii) (fuel : nat) (l : list pc) : res (list pc) :=
  match fuel with
  | O => Fuel
  | S k =>
      let (l', cont) := pass_h fill (S (List.length l)) [] l in
      if cont then passes_h fill k l' else Ok l'
  end.

Definition has (c : ascii) (s : chars) : bool := existsb (Ascii.eqb c) s.
Definition blank (c : ascii) : bool := Ascii.eqb c " ".
Fixpoint take_while (p : ascii -> bool) (l : chars) : chars :=
  match l with [] => [] | c :: r => if p c then c :: take_while p r else [] end.

(** startgeom, rh 55: "(" before the number that starts the text *)
Definition start_geom (s : chars) : chars :=
  match drop_while blank s with
  | c :: r => if is_digit c || is_sign c then take_while blank s ++ "("%char :: c :: r else s
  | [] => s
  end.
(** endgeom, rh 56: ")" after the digit that ends the text *)
Definition end_geom (s : chars) : chars :=
  match drop_while blank (rev s) with
  | c :: r => if is_digit c then rev (take_while blank (rev s) ++ ")"%char :: c :: r) else s
  | [] => s
  end.
(** rh 340-398 remove_redundant with remopt = "nochg" *)
Definition remove_redundant_h (s : chars) : res chars :=
  if negb (has ")" s) then Ok s
  else
    do l <- passes_h semi_fill (S (List.length s)) (twice s);
    let g := map (fun p => restore (snd p)) l in
    Ok (if has ":" g || has "#" g then g else end_geom (start_geom g)).

(** ** complementary *)
(** leftp, rh 33: "(" before the first valid character *)
Definition valid (c : ascii) : bool := is_sign c || is_digit c || Ascii.eqb c "(" || Ascii.eqb c "#".
Fixpoint open_first (s : chars) : chars :=
  match s with
  | [] => []
  | c :: r => if valid c then "("%char :: s else c :: open_first r
  end.
(** rightp, rh 34: ")" before the characters  blank, c, $  at the end *)
Definition tail_c (c : ascii) : bool :=
  blank c || Ascii.eqb c "c" || Ascii.eqb c "C" || Ascii.eqb c "$".
Definition close_last (s : chars) : chars :=
  rev (take_while tail_c (rev s) ++ ")"%char :: drop_while tail_c (rev s)).

(** rh 39-50: re.sub of a character followed by [nxt], "&" in between; a match
    consumes what [nxt] reads *)
Fixpoint amp_sub (ok : ascii -> bool) (nxt : chars -> option (chars * chars)) (fuel : nat) (s : chars) : chars :=
  match fuel, s with
  | S k, c :: r =>
      if ok c then
        match nxt r with
        | Some (m, r') => c :: "&"%char :: m ++ amp_sub ok nxt k r'
        | None => c :: amp_sub ok nxt k r
        end
      else c :: amp_sub ok nxt k r
  | _, _ => s
  end.
(** blanks (at least [least]) and the sign and first digit of a number *)
Definition nxt_num (least : nat) (s : chars) : option (chars * chars) :=
  let b := take_while blank s in
  if Nat.ltb (List.length b) least then None
  else match drop_while blank s with
       | c :: r => if is_digit c then Some (b ++ [c], r)
                   else if is_sign c then
                     match r with
                     | d :: r' => if is_digit d then Some (b ++ [c; d], r') else None
                     | [] => None
                     end
                   else None
       | [] => None
       end.
Definition nxt_open (s : chars) : option (chars * chars) :=
  match drop_while blank s with
  | c :: r => if Ascii.eqb c "(" then Some (take_while blank s ++ [c], r) else None
  | [] => None
  end.
Definition sub_all (ok : ascii -> bool) nxt (s : chars) : chars := amp_sub ok nxt (List.length s) s.
Definition closing (c : ascii) : bool := Ascii.eqb c ")".
Definition interblk (s : chars) : chars := sub_all is_digit (nxt_num 1) s.
Definition intercls (s : chars) : chars := sub_all closing (nxt_num 0) s.
Definition interopn (s : chars) : chars := sub_all is_digit nxt_open s.
Definition intercop (s : chars) : chars := sub_all closing nxt_open s.

(** rh 155-159 repl_inter_union *)
Definition swap_ops (s : chars) : chars :=
  flat_map (fun c => if Ascii.eqb c ":" then [")"; "("]%char else if Ascii.eqb c "&" then [":"%char] else [c]) s.
(** number and chgsign, rh 31, 141-148.  [inn]: inside the digits of a number *)
Fixpoint chg_signs (inn : bool) (s : chars) : chars :=
  match s with
  | [] => []
  | c :: r =>
      if is_digit c then (if inn then [c] else ["-"%char; c]) ++ chg_signs true r
      else if is_sign c && match r with d :: _ => is_digit d | [] => false end
      then (if Ascii.eqb c "-" then [] else ["-"%char]) ++ chg_signs true r
      else c :: chg_signs false r
  end.

(** rh 184-227 complementary(ccell), outter=True *)
Definition complementary (s : chars) : res chars :=
  match s with
  | [] => Err IndexError
  | _ =>
      let s1 := close_last (open_first s) in
      let s2 := intercop (interopn (intercls (interblk (interblk s1)))) in
      do s3 <- remove_redundant_h (swap_ops s2);
      Ok (close_last (open_first (chg_signs false s3)))
  end.

(** ** remove_hash *)
(** rh 400-413 get_hashcell(start): the text after "#" up to the parenthesis that
    closes, and what follows.  [n] parentheses are open.  UnboundLocalError when there
    is none. *)
Fixpoint to_close (n : nat) (acc s : chars) : option (chars * chars) :=
  match s with
  | [] => None
  | c :: r =>
      if Ascii.eqb c "(" then to_close (S n) (acc ++ [c]) r
      else if Ascii.eqb c ")" then
        match n with
        | S O => Some (acc ++ [c], r)
        | S n => to_close n (acc ++ [c]) r
        | O => to_close O (acc ++ [c]) r
        end
      else to_close n (acc ++ [c]) r
  end.

(** rehash, rh 60: a complement operator; its position and the cell number and end of
    the match, or None for "(" *)
Definition hash_at (off : nat) (r : chars) : option (nat * option (Z * nat)) :=
  match drop_while blank r with
  | c :: r' =>
      if Ascii.eqb c "(" then Some (off, None)
      else match take_while is_digit (c :: r') with
           | [] => None
           | ds => match parse_digits ds with
                   | Some d => Some (off, Some (Z.of_uint d, (off + 1 + List.length (take_while blank r) + List.length ds)%nat))
                   | None => None
                   end
           end
  | [] => None
  end.
Fixpoint hashes (off : nat) (s : chars) : list (nat * option (Z * nat)) :=
  match s with
  | [] => []
  | c :: r =>
      match (if Ascii.eqb c "#" then hash_at off r else None) with
      | Some m => m :: hashes (S off) r
      | None => hashes (S off) r
      end
  end.

(** A cell card: hproc and geom.str.  cards: dict of cell cards by name. *)
Record card := Card { hproc : bool; geom : chars }.
Definition dict := list (Z * card).
Fixpoint card_of (n : Z) (cs : dict) : res card :=
  match cs with
  | [] => Err KeyError
  | (k, c) :: r => if k =? n then Ok c else card_of n r
  end.

Section Remove.
Variable rec : Z -> res chars.
(** rh 709-723: from the last operator to the first *)
Fixpoint subst_hashes (ms : list (nat * option (Z * nat))) (s : chars) : res chars :=
  match ms with
  | [] => Ok s
  | (start, None) :: r =>
      match to_close 0 [] (skipn (S start) s) with
      | None => Err UnboundLocal
      | Some (h, after) =>
          do c <- complementary h;
          subst_hashes r (firstn start s ++ c ++ after)
      end
  | (start, Some (n, e)) :: r =>
      do g <- rec n;
      do c <- complementary g;
      subst_hashes r (firstn start s ++ cs "      " ++ c ++ cs " " ++ skipn e s)
  end.
End Remove.
(** rh 678-725; the recursion on cells is on fuel *)
Fixpoint remove_hash (fuel : nat) (cards : dict) (cname : Z) : res chars :=
  match fuel with
  | O => Fuel
  | S k =>
      do c <- card_of cname cards;
      if negb (hproc c) || negb (has "#" (geom c)) then Ok (geom c)
      else subst_hashes (remove_hash k cards) (rev (hashes 0 (geom c))) (geom c)
  end.

(** MCNPinput.py 395-396: the definition of each selected cell, in turn, is replaced
    (the cell objects of the selection are those of the dictionary) *)
Fixpoint set_geom (n : Z) (g : chars) (cards : dict) : dict :=
  match cards with
  | [] => []
  | (k, c) :: r => if k =? n then (k, Card (hproc c) g) :: r else (k, c) :: set_geom n g r
  end.
Fixpoint expand_all (fuel : nat) (selected : list Z) (cards : dict) : res dict :=
  match selected with
  | [] => Ok cards
  | n :: r => do g <- remove_hash fuel cards n; expand_all fuel r (set_geom n g cards)
  end.
