(** Specification for universes. *)
From Verif Require Import Prelude Univ.

(** universe [b] fills a cell of universe [a]; 0 is not a filling universe *)
Definition nests (cs : list cell) (a b : Z) : Prop :=
  exists c, In c cs /\ val (c_u c) = a /\ c_fill c = Some b /\ b <> 0.
(** chains of fillings *)
Inductive path (cs : list cell) (root : Z) : nat -> Z -> Prop :=
| path_root : path cs root 0 root
| path_next n a b : path cs root n a -> nests cs a b -> path cs root (S n) b.
(** the least depth of a universe *)
Definition depth_of (cs : list cell) (root : Z) (n : nat) (u : Z) : Prop :=
  path cs root n u /\ forall m, (m < n)%nat -> ~ path cs root m u.
Definition universe (cs : list cell) (u : Z) : Prop := exists c, In c cs /\ val (c_u c) = u.
(** every universe has one depth *)
Definition graded (cs : list cell) (root : Z) : Prop := forall n m u, path cs root n u -> path cs root m u -> n = m.

(** ** LIKE n BUT: the value of an entry of a cell is its own, else that of the other cell *)
Inductive entry_of {A} (attr : cell -> option A) (cs : list cell) : cell -> option A -> Prop :=
| e_own c v : attr c = Some v -> entry_of attr cs c (Some v)
| e_like c l v : attr c = None -> In l cs -> c_like c = Some (c_name l) -> entry_of attr cs l v -> entry_of attr cs c v
| e_none c : attr c = None -> c_like c = None -> entry_of attr cs c None.
(** FILL = n (t) is one entry *)
Definition fill_entry (c : cell) : option (Z * option Z) := match c_fill c with Some f => Some (f, c_tr c) | None => None end.
(** a cell with LIKE has no entry with value 0 of its own; if it has FILL, then with (t) *)
Definition own_values (c : cell) : Prop :=
  c_like c <> None -> c_u c <> Some 0 /\ c_fill c <> Some 0 /\ c_mat c <> Some 0 /\ c_tr c <> Some 0 /\ c_trcl c <> Some 0.
Definition own_fill (c : cell) : Prop := c_like c <> None -> c_fill c <> None -> c_tr c <> None.
Definition tr_of_fill (c : cell) : Prop := c_fill c = None -> c_tr c = None.
Inductive text_of (cs : list cell) : cell -> list Z -> Prop :=
| t_own c : c_like c = None -> text_of cs c (c_surfs c)
| t_like c l s : In l cs -> c_like c = Some (c_name l) -> text_of cs l s -> text_of cs c s.
(** MCNP's rule: the other cell comes before; names are not 0 and not repeated *)
Definition likes_before (cs : list cell) : Prop :=
  forall pre c post n, cs = pre ++ c :: post -> c_like c = Some n -> n <> 0 /\ exists l, In l pre /\ c_name l = n.

(** ** Trees: the cells of a universe in their order; a cell filled by a universe is replaced
    by the tree of that universe, down to a depth (None: all the way) *)
Definition dec (d : option nat) : option nat := match d with Some n => Some (pred n) | None => None end.
Inductive shown (us : list (Z * cells)) : option nat -> Z * cell -> tree -> Prop :=
| sh_cell d n c : c_fill c = None \/ c_fill c = Some 0 -> shown us d (n, c) (Leaf n)
| sh_cut n c f : c_fill c = Some f -> f <> 0 -> shown us (Some O) (n, c) (Leaf n)
| sh_fill d n c f m ts : c_fill c = Some f -> f <> 0 -> d <> Some O -> zget f us = Some m ->
    Forall2 (shown us (dec d)) m ts -> shown us d (n, c) (Node (Some n) f ts).
(** ** nested universes: inside [u] at some depth; nothing inside [u] is inside itself *)
Definition inside (cs : list cell) (u v : Z) : Prop := exists n, path cs u (S n) v.
Definition acyclic (cs : list cell) (u : Z) : Prop := forall n v, path cs u n v -> ~ inside cs v v.
Definition closed (cs : list cell) (u : Z) : Prop := forall n v, path cs u n v -> universe cs v.
(** a cell with LIKE has the text of the other *)
Definition texts_agree (cs : list cell) : Prop :=
  forall c b, In c cs -> In b cs -> c_like c = Some (c_name b) -> c_surfs c = c_surfs b.
(** what a cell [q] made of the card [p] is: its surface numbers denote, in [ss], the surfaces
    of the card, moved by TRCL if there is one; the universe that fills it is moved by the
    transformation of FILL or, if there is none, by TRCL (nothing is said of a cell with both) *)
Definition made_of (ss : sdict) (p q : Z * cell) : Prop :=
  fst q = fst p /\ c_name (snd q) = c_name (snd p) /\ c_u (snd q) = c_u (snd p) /\ c_fill (snd q) = c_fill (snd p) /\ c_mat (snd q) = c_mat (snd p) /\
  (forall f, c_fill (snd p) = Some f -> f <> 0 -> c_tr (snd p) = None \/ c_trcl (snd p) = None -> c_tr (snd q) = match c_trcl (snd p) with Some t => Some t | None => c_tr (snd p) end) /\
  Forall2 (fun lab num => zget num ss = Some (Surf lab (match c_trcl (snd p) with Some t => [t] | None => [] end))) (c_surfs (snd p)) (c_surfs (snd q)).

(** ** filters: a value passes; the cell is chosen: cells that are filled are not tested for
    their material *)
Definition usable (f : filter_t) : Prop := f_type f = FAll \/ f_range f <> None.
Definition passes (f : filter_t) (v : option Z) : Prop :=
  match f_type f with
  | FAll => True
  | FInclude => exists l n, f_range f = Some l /\ v = Some n /\ In n l
  | FExclude => exists l, f_range f = Some l /\ forall n, v = Some n -> ~ In n l
  end.
Definition chosen (mat cel : filter_t) (c : cell) : Prop := (c_fill c = None -> passes mat (c_mat c)) /\ passes cel (Some (c_name c)).
(** the cells of universe [v] that are chosen, in their order, with their names *)
Definition cells_of (cs : list cell) (mat cel : filter_t) (v : Z) (l : cells) : Prop :=
  exists p, (forall c, p c = true <-> val (c_u c) = v /\ chosen mat cel c) /\ l = map (fun c => (c_name c, c)) (filter p cs).

(** ** the cell [c'] that a card [c] stands for *)
Definition solved (cards : list cell) (c c' : cell) : Prop :=
  c_name c' = c_name c /\ c_like c' = c_like c /\ (exists u, entry_of c_u cards c u /\ c_u c' = Some (val u)) /\
  entry_of c_fill cards c (c_fill c') /\ entry_of c_mat cards c (c_mat c') /\ entry_of c_tr cards c (c_tr c') /\ entry_of c_trcl cards c (c_trcl c') /\ text_of cards c (c_surfs c').
