(** Model of the cell expression writers,
    /repo/src/geouned/GEOUNED/write/functions.py 130-238. *)
From Coq Require Import Ascii String Decimal DecimalZ.
From Verif Require Import Prelude BoolSpec CellText.

(** Python str(int). *)
Definition str_int (z : Z) : chars :=
  match Z.to_int z with
  | Decimal.Pos d => digits d
  | Decimal.Neg d => "-"%char :: digits d
  end.

(** sep.join(terms) *)
Fixpoint join_str (sep : chars) (l : list chars) : chars :=
  match l with
  | [] => []
  | [x] => x
  | x :: r => x ++ sep ++ join_str sep r
  end.

(** Common shape of write_sequence_mcnp (130-149), write_sequence_phits
    (174-193), write_sequence_omc_xml (196-214) and write_sequence_omc_py
    (217-238): the level 0 branch and the general branch produce the same text,
    except that a non int element of a level 0 list is formatted by str().
    [lit] formats an int, [asep]/[osep] are the joining strings. *)
Fixpoint write_seq (lit : Z -> chars) (asep osep : chars) (n : node) : res chars :=
  match n with
  | Lit _ => Err AttributeError
  | Cst _ _ _ => Err TypeError                 (* join/iteration over a bool *)
  | Seq op lev l =>
      do terms <- mapM (fun e => match e with
                                 | Lit z => Ok (lit z)
                                 | _ => if lev =? 0 then Err TypeError  (* not modelled: repr *)
                                        else write_seq lit asep osep e
                                 end) l;
      Ok ("("%char :: join_str (match op with AND => asep | OR => osep end) terms ++ cs ")")
  end.

(** 130-149 write_sequence_mcnp; 174-193 write_sequence_phits is the same text. *)
Definition write_sequence_mcnp : node -> res chars := write_seq str_int (cs " ") (cs ":").

(** 152-171 write_sequence_serpent: own top level, then write_sequence_mcnp. *)
Definition write_sequence_serpent (n : node) : res chars :=
  match n with
  | Lit _ => Err AttributeError
  | Cst _ _ _ => Err TypeError
  | Seq op lev l =>
      do terms <- mapM (fun e => match e with
                                 | Lit z => Ok (str_int z)
                                 | _ => if lev =? 0 then Err TypeError
                                        else write_sequence_mcnp e
                                 end) l;
      Ok ("("%char :: join_str (match op with AND => cs " " | OR => cs ":" end) terms ++ cs ")")
  end.

(** 196-214 write_sequence_omc_xml *)
Definition write_sequence_omc_xml : node -> res chars := write_seq str_int (cs " ") (cs " | ").

(** 219: strSurf *)
Definition str_surf (z : Z) : chars :=
  if z <? 0 then cs "-S" ++ str_int (- z) else cs "+S" ++ str_int z.

(** 217-238 write_sequence_omc_py (prefix "S") *)
Definition write_sequence_omc_py : node -> res chars := write_seq str_surf (cs " & ") (cs " | ").
