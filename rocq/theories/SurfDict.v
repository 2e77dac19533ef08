(** Model of SurfacesDict, /repo/src/geouned/GEOUNED/utils/functions.py 339-597
    ("uf"), and of sorted_surfaces, write/mcnp_format.py 349-358 (the same code is
    in openmc_format.py 252-260, serpent_format.py 350-359, phits_format.py 550-559). *)
From Verif Require Import Prelude.

(** uf 342: the groups, in dict (insertion) order *)
Inductive key := PX | PY | PZ | PP | Cyl | Cone | Sph | Tor.
Definition all_keys := [PX; PY; PZ; PP; Cyl; Cone; Sph; Tor].
Definition key_eqb (a b : key) : bool :=
  match a, b with
  | PX, PX | PY, PY | PZ, PZ | PP, PP | Cyl, Cyl | Cone, Cone | Sph, Sph | Tor, Tor => true
  | _, _ => false
  end.

Section SurfDict.
  (** Geometry of a surface (GeounedSurface.Surf). *)
  Variable S : Type.
  (** Group of a surface: by Type and, for planes, by the tests is_parallel of
      uf 409, 431, 453. *)
  Variable cls : S -> key.
  (** is_same_plane / is_same_cylinder / ... (new surface) (registered one);
      simplification: the warnings logged for fuzzy comparisons are not modelled. *)
  Variable same : S -> S -> bool.

  (** GeounedSurface: Index and geometry (uf 197-230).  Simplification: adding a
      surface makes a new object; in the code Index of the given object is set. *)
  Record surf := Surf { index : Z; geo : S }.

  (** uf 340-359.  [last]: __last_obj__, None for the initial ("", -1). *)
  Record sdict := SD {
    offset : Z;
    group : key -> list surf;
    ids : key -> list Z;
    number : Z;
    last : option (key * nat) }.

  Definition empty (o : Z) : sdict := SD o (fun _ => []) (fun _ => []) 0 None.
  (** uf 348-353: SurfacesDict(surfaces): copy, with offset 0 *)
  Definition copy_dict (d : sdict) : sdict := SD 0 (group d) (ids d) (number d) (last d).

  Definition upd {A} (f : key -> A) (k : key) (a : A) : key -> A :=
    fun x => if key_eqb x k then a else f x.

  (** loops uf 411-423, 433-445, 455-467, 477-489, 504-516, 530-541, 554-564,
      577-588: first registered surface that is the same *)
  Fixpoint find_same (s : S) (i : nat) (l : list surf) : option (nat * Z) :=
    match l with
    | [] => None
    | t :: r => if same s (geo t) then Some (i, index t) else find_same s (Datatypes.S i) r
    end.

  (** add_plane, add_cylinder, add_cone, add_sphere, add_torus, uf 404-597.
      Result: index, already there? *)
  Definition add (s : S) (d : sdict) : sdict * (Z * bool) :=
    let k := cls s in
    match find_same s 0 (group d k) with
    | Some (i, ix) => (SD (offset d) (group d) (ids d) (number d) (Some (k, i)), (ix, true))
    | None =>
        let n := number d + 1 in
        let ix := n + offset d in
        (SD (offset d) (upd (group d) k (group d k ++ [Surf ix s])) (upd (ids d) k (ids d k ++ [ix])) n
            (Some (k, length (group d k))), (ix, false))
    end.

  (** list.index *)
  Fixpoint position (i : Z) (l : list Z) : option nat :=
    match l with
    | [] => None
    | x :: r => if x =? i then Some O else match position i r with Some j => Some (Datatypes.S j) | None => None end
    end.

  (** uf 375-383 *)
  Fixpoint search (ks : list key) (i : Z) (d : sdict) : res (sdict * option surf) :=
    match ks with
    | [] => Ok (d, None)
    | k :: r =>
        match position i (ids d k) with
        | None => search r i d
        | Some j =>
            match nth_error (group d k) j with
            | Some s => Ok (SD (offset d) (group d) (ids d) (number d) (Some (k, j)), Some s)
            | None => Err IndexError
            end
        end
    end.

  (** get_surface, uf 366-383 *)
  Definition get_surface (i : Z) (d : sdict) : res (sdict * option surf) :=
    match last d with
    | None => search all_keys i d
    | Some (k, j) =>
        match group d k with
        | [] => search all_keys i d
        | l => match nth_error l j with
               | None => Err IndexError
               | Some s => if index s =? i then Ok (d, Some s) else search all_keys i d
               end
        end
    end.

  (** list.remove *)
  Fixpoint remove1 (i : Z) (l : list Z) : option (list Z) :=
    match l with
    | [] => None
    | x :: r => if x =? i then Some r else match remove1 i r with Some r' => Some (x :: r') | None => None end
    end.

  (** del_surface, uf 385-389 *)
  Definition del_surface (i : Z) (d : sdict) : res sdict :=
    do (d1, _) <- get_surface i d;
    match last d1 with
    | None => Err KeyError
    | Some (k, j) =>
        match remove1 i (ids d1 k) with
        | None => Err ValueError
        | Some l =>
            if Nat.ltb j (length (group d1 k)) then
              Ok (SD (offset d1) (upd (group d1) k (remove_at j (group d1 k))) (upd (ids d1) k l) (number d1) (last d1))
            else Err IndexError
        end
    end.

  (** extend, uf 391-402: groups in the given order *)
  Definition extend (ss : list S) (d : sdict) : sdict := fold_left (fun d s => fst (add s d)) ss d.

  (** sorted_surfaces, mcnp_format 349-358: [n] numbers from [i] on *)
  Fixpoint sort_loop (n : nat) (i : Z) (temp : sdict) : res (list surf) :=
    match n with
    | O => Ok []
    | Datatypes.S n =>
        do (t1, s) <- get_surface i temp;
        match s with
        | Some s => do t2 <- del_surface i t1; do l <- sort_loop n (i + 1) t2; Ok (s :: l)
        | None => sort_loop n (i + 1) t1
        end
    end.
  Definition sorted_surfaces (d : sdict) : res (list surf) :=
    sort_loop (Z.to_nat (number d)) (offset d + 1) (copy_dict d).

  (** Histories of uses of a dictionary. *)
  Inductive op := Add (s : S) | Get (i : Z) | Del (i : Z).
  Definition step (o : op) (d : sdict) : res sdict :=
    match o with
    | Add s => Ok (fst (add s d))
    | Get i => do (d', _) <- get_surface i d; Ok d'
    | Del i => del_surface i d
    end.
  Fixpoint run (h : list op) (d : sdict) : res sdict :=
    match h with
    | [] => Ok d
    | o :: r => do d' <- step o d; run r d'
    end.
End SurfDict.
Arguments index {S}. Arguments geo {S}. Arguments Surf {S}. Arguments SD {S}.
Arguments offset {S}. Arguments group {S}. Arguments ids {S}. Arguments number {S}. Arguments last {S}.
Arguments empty {S}. Arguments Add {S}. Arguments Get {S}. Arguments Del {S}.
Arguments get_surface {S}. Arguments del_surface {S}. Arguments search {S}. Arguments copy_dict {S}.
Arguments sorted_surfaces {S}. Arguments sort_loop {S}.

(** OpenmcInput.write_xml_surface_block, write/openmc_format.py 55-58 (and
    write_py_surface_block 145-149): which surfaces are written with
    boundary="vacuum". *)
Definition boundary_marks {S} (l : list (surf S)) : res (list (surf S * bool)) :=
  match rev l with
  | [] => Err IndexError
  | x :: r => Ok (map (fun s => (s, false)) (rev r) ++ [(x, true)])
  end.
