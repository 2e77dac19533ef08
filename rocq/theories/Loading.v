(** Model of the loading of CAD files:
    /repo/src/geouned/GEOUNED/loadfile/load_step.py ("ls") 53-205,
    loadfile/load_functions.py ("lf") 12-80, core.py ("co") 318-346, 755-780.
    The CAD kernel is not modelled: a solid is a number, and what is read from the
    document tree is the list of its Part::Feature elements. *)
From Coq Require Import Ascii String.
From Verif Require Import Prelude CellText.

(** What is used of a GeounedSolid: the object identity, __id__, Solids (None for a
    null cell), the pair EnclosureID/ParentEnclosureID with IsEnclosure, CellType ==
    "envelope", and the attributes (Comments, Material, Rho, fill, transform,
    dilution) taken from a tree element: None until they are set, then the element. *)
Record meta := Meta { ob : nat; mid : Z; sols : option (list Z); encl_ids : option (Z * Z); envelope : bool; info : option nat }.
(** A Part::Feature element of the document: its identity, the number of solids of
    its shape, and the numbers found in its enclosure and envelope labels. *)
Record elem := Elem { en : nat; nsol : nat; encl_label : option (Z * Z); envel_label : option (Z * Z) }.

Definition set_id (i : Z) (m : meta) : meta := Meta (ob m) i (sols m) (encl_ids m) (envelope m) (info m).
(** l[i] = f(l[i]) on an object of the list *)
Fixpoint update_at (i : nat) (f : meta -> meta) (l : list meta) : res (list meta) :=
  match l, i with
  | [], _ => Err IndexError
  | m :: r, O => Ok (f m :: r)
  | m :: r, S i => do r' <- update_at i f r; Ok (m :: r')
  end.

(** ls 57-64: one meta object per solid of the file; [spline] is LF.spline and
    [loop] says that solids with splines are dropped.  ob of the k-th one is k. *)
Fixpoint initial (loop : bool) (spline : Z -> bool) (i : nat) (solids : list Z) : list meta :=
  match solids with
  | [] => []
  | s :: r => Meta i (Z.of_nat i + 1) (if spline s && loop then None else Some [s]) None false None :: initial loop spline (S i) r
  end.

Definition solids_of (m : meta) : list Z := match sols m with Some l => l | None => [] end.
(** lf 60-80 fuse_meta_obj; [fresh] is the identity of the new object.
    GeounedSolid(id, solids) has Solids None for an empty list. *)
Definition fuse_meta_obj (fresh : nat) (l : list meta) (init endi : nat) : res (list meta) :=
  if Nat.eqb endi (S init) then update_at init (set_id (Z.of_nat init + 1)) l
  else
    let ss := flat_map solids_of (skipn init (firstn endi l)) in
    match nth_error l init with
    | None => Err IndexError
    | Some m =>
        let new := Meta fresh (Z.of_nat init + 1) (match ss with [] => None | _ => Some ss end) (encl_ids m) (envelope m) None in
        Ok (firstn init l ++ new :: skipn endi l)
    end.

(** ls 152-193: attributes of one object; an envelope label overwrites an enclosure
    label *)
Definition set_info (e : elem) (m : meta) : meta :=
  let m1 := Meta (ob m) (mid m) (sols m) (encl_ids m) (envelope m) (Some (en e)) in
  let m2 := match encl_label e with
            | Some p => Meta (ob m1) (mid m1) (sols m1) (Some p) false (info m1) | None => m1 end in
  match envel_label e with
  | Some p => Meta (ob m2) (mid m2) (sols m2) (Some p) true (info m2) | None => m2 end.
(** ls 152: for i in range(n_solids) *)
Fixpoint set_infos (e : elem) (i n : nat) (l : list meta) : res (list meta) :=
  match n with
  | O => Ok l
  | S n => do l' <- update_at i (set_info e) l; set_infos e (S i) n l'
  end.
Definition is_some {A} (o : option A) : bool := match o with Some _ => true | None => false end.
(** ls 141-150 *)
Definition fused (comp : bool) (e : elem) : bool := comp || is_some (encl_label e) || is_some (envel_label e).
(** ls 78-193: the loop on the elements; i is i_solid *)
Fixpoint load_loop (comp : bool) (fresh : nat) (es : list elem) (i : nat) (l : list meta) : res (list meta) :=
  match es with
  | [] => Ok l
  | e :: r =>
      if Nat.eqb (nsol e) 0 then load_loop comp fresh r i l
      else if fused comp e then
        do l1 <- fuse_meta_obj fresh l i (i + nsol e);
        do l2 <- set_infos e i 1 l1;
        load_loop comp (S fresh) r (i + 1) l2
      else
        do l2 <- set_infos e i (nsol e) l;
        load_loop comp fresh r (i + nsol e) l2
  end.

(** lf 40-53 joinEnvelopes: the first and last positions of the groups.  cur is
    new_list (its first and last elements); old is old_id; -1 in the code, which no
    label can be *)
Fixpoint env_groups (i : nat) (old : option Z) (cur : nat * nat) (l : list meta) : list (nat * nat) :=
  match l with
  | [] => match old with None => [] | Some _ => [cur] end
  | m :: r =>
      match envelope m, encl_ids m with
      | true, Some (k, _) =>
          match old with
          | Some k' => if k =? k' then env_groups (S i) old (fst cur, i) r
                       else cur :: env_groups (S i) (Some k) (i, i) r
          | None => env_groups (S i) (Some k) (i, i) r
          end
      | _, _ => env_groups (S i) old cur r
      end
  end.
(** lf 55-57: positions of the original list, used on the list being shortened *)
Fixpoint fuse_groups (fresh : nat) (gs : list (nat * nat)) (l : list meta) : res (list meta) :=
  match gs with
  | [] => Ok l
  | (a, b) :: r => do l' <- fuse_meta_obj fresh l a (S b); fuse_groups (S fresh) r l'
  end.
Definition joinEnvelopes (fresh : nat) (l : list meta) : res (list meta) :=
  fuse_groups fresh (env_groups 0 None (0, 0)%nat l) l.

(** load_cad, ls 53-205 without check_enclosure (Enclosures.v).  Simplification: a
    solid with splines and spline_surfaces = "stop" ends the program before this. *)
Definition load_cad (comp loop : bool) (spline : Z -> bool) (solids : list Z) (es : list elem) : res (list meta) :=
  do l <- load_loop comp (List.length solids) es 0 (initial loop spline 0 solids);
  joinEnvelopes (List.length solids + List.length es) l.

(** ** Several files, co 755-764.  Objects are shared between the list of solids and
    the list of enclosures, so the ids live in a store. *)
Definition store := nat -> Z.
Definition put (st : store) (o : nat) (i : Z) : store := fun o' => if Nat.eqb o o' then i else st o'.
(** co 761-763 *)
Fixpoint join_one (id : Z) (M : list nat) (st : store) : store :=
  match M with
  | [] => st
  | o :: r => join_one (id + 1) r (put st o id)
  end.
(** co 759-764; acc is newMetaList, not empty *)
Fixpoint join_rest (acc : list nat) (Ms : list (list nat)) (st : store) : list nat * store :=
  match Ms with
  | [] => (acc, st)
  | M :: r => join_rest (acc ++ M) r (join_one (st (last acc 0%nat) + 1) M st)
  end.
Definition join_meta_lists (Ms : list (list nat)) (st : store) : res (list nat * store) :=
  match Ms with
  | [] => Err IndexError
  | [] :: _ => Ok ([], st)
  | M :: r => Ok (join_rest M r st)
  end.
(** co 326-327 *)
Definition join_files (MetaChunk EnclosureChunk : list (list nat)) (st : store) : res (list nat * list nat * store) :=
  do (ms, st1) <- join_meta_lists MetaChunk st;
  do (en, st2) <- join_meta_lists EnclosureChunk st1;
  Ok (ms, en, st2).

(** ** skip_solids, co 329-332 *)
(** del l[i] with Python's negative indices *)
Definition py_del {A} (i : Z) (l : list A) : res (list A) :=
  let n := Z.of_nat (List.length l) in
  if (0 <=? i) && (i <? n) then Ok (remove_at (Z.to_nat i) l)
  else if (i <? 0) && (0 <=? i + n) then Ok (remove_at (Z.to_nat (i + n)) l)
  else Err IndexError.
(** sorted(skip, reverse=True) *)
Fixpoint insert_desc (x : Z) (l : list Z) : list Z :=
  match l with
  | [] => [x]
  | y :: r => if y <? x then x :: l else y :: insert_desc x r
  end.
Definition sort_desc (l : list Z) : list Z := fold_right insert_desc [] l.
Fixpoint del_all {A} (is : list Z) (l : list A) : res (list A) :=
  match is with
  | [] => Ok l
  | i :: r => do l' <- py_del i l; del_all r l'
  end.
Definition skip_solids {A} (skip : list Z) (l : list A) : res (list A) := del_all (sort_desc skip) l.

(** co 339-341: reversed(l) walks down the positions of the list being changed;
    l.remove(m) removes the first object identical to m *)
Fixpoint remove_ob (o : nat) (l : list meta) : list meta :=
  match l with
  | [] => []
  | m :: r => if Nat.eqb (ob m) o then r else m :: remove_ob o r
  end.
Fixpoint drop_null (i : nat) (l : list meta) : list meta :=
  match i with
  | O => l
  | S j =>
      match nth_error l j with
      | None => l
      | Some m => match sols m with None => drop_null j (remove_ob (ob m) l) | Some _ => drop_null j l end
      end
  end.
Definition drop_null_cells (l : list meta) : list meta := drop_null (List.length l) l.

(** ** Labels, lf 12-37 *)
(** str.split(): words separated by blanks.  Simplification: the blank characters are
    space, tab, newline, carriage return, vertical tab and form feed (ASCII). *)
Definition is_blank (c : ascii) : bool :=
  existsb (Ascii.eqb c) [" "; "009"; "010"; "011"; "012"; "013"]%char.
Fixpoint split_from (cur : chars) (l : chars) : list chars :=
  match l with
  | [] => match cur with [] => [] | _ => [cur] end
  | c :: r => if is_blank c then match cur with [] => split_from [] r | _ => cur :: split_from [] r end
              else split_from (cur ++ [c]) r
  end.
Definition split (l : chars) : list chars := split_from [] l.
(** " ".join *)
Fixpoint join_words (ws : list chars) : chars :=
  match ws with
  | [] => []
  | [w] => w
  | w :: r => w ++ " "%char :: join_words r
  end.
(** lf 12-23; the slice never raises *)
Definition get_label (delLastNumber : bool) (label : chars) : chars :=
  if delLastNumber then join_words (removelast (split label)) else label.
(** lf 26-37 getCommentTree: anc are the labels of InList[0], InList[0].InList[0], ... *)
Definition comment_tree (d : bool) (anc : list chars) : chars :=
  fold_left (fun c l => c ++ "/"%char :: l) (rev (map (get_label d) anc)) [].

(** ** Tags in labels, ls 91-137 *)
Definition is_digit (c : ascii) : bool := (Nat.leb 48 (nat_of_ascii c)) && (Nat.leb (nat_of_ascii c) 57).
Fixpoint strip (p l : chars) : option chars :=
  match p, l with
  | [], _ => Some l
  | c :: p, d :: l => if Ascii.eqb c d then strip p l else None
  | _, [] => None
  end.
Fixpoint take_digits (l : chars) : chars * chars :=
  match l with
  | c :: r => if is_digit c then let '(d, s) := take_digits r in (c :: d, s) else ([], l)
  | [] => ([], [])
  end.
(** a match of  p\d+_  at the beginning *)
Definition tag_here (p l : chars) : option chars :=
  match strip p l with
  | None => None
  | Some s => let '(d, r) := take_digits s in
              match d, r with
              | _ :: _, c :: _ => if Ascii.eqb c "_" then Some d else None
              | _, _ => None
              end
  end.
(** re.search(p\d+_, l): the leftmost match; the group of digits.  (\d+ is greedy and
    "_" is no digit, so there is one way to match at a position.) *)
Fixpoint tag_search (p l : chars) : option chars :=
  match tag_here p l with
  | Some d => Some d
  | None => match l with [] => None | _ :: r => tag_search p r end
  end.
(** ls 107-131: _m, _f and _t tags.  labels: of the element, of InList[0], ...  *)
Fixpoint first_tag (p : chars) (d : bool) (labels : list chars) : option chars :=
  match labels with
  | [] => None
  | l :: r => match tag_search p ("_"%char :: get_label d l) with Some t => Some t | None => first_tag p d r end
  end.
(** ls 91, 107, 138-140: no search when the element has no InList *)
Definition element_tag (p : chars) (d : bool) (label : chars) (anc : list chars) : option chars :=
  match anc with [] => None | _ => first_tag p d (label :: anc) end.
