(** Model of the nested enclosures:
    /repo/src/geouned/GEOUNED/loadfile/load_functions.py ("lf") 120-308 and
    void/void_functions.py ("vf") 1-59. *)
From Verif Require Import Prelude.

(** An enclosure: EnclosureID, ParentEnclosureID, CellType == "envelope",
    and a number that stands for the object. *)
Record encl := Encl { eid : Z; pid : Z; envel : bool; obj : Z }.
Definition memZ (i : Z) (l : list Z) : bool := existsb (Z.eqb i) l.

(** lf 196-222: sid_list, pid_set, repeated_id, and the three tests.
    (The test of lf 168-188 never fires: it looks for a solid among objects that
    have solids.) *)
Fixpoint repeated (sid : list Z) (l : list encl) : bool :=
  match l with
  | [] => false
  | e :: r => if memZ (eid e) sid then true else repeated (sid ++ [eid e]) r
  end.
Definition check_ids (l : list encl) : res unit :=
  if memZ 0 (map eid l) || negb (memZ 0 (map pid l)) || repeated [] l then Err ValueError else Ok tt.

(** lf 225-230: dict from parents to lists of children. *)
Definition dict := list (Z * list Z).
Fixpoint dict_add (k i : Z) (d : dict) : dict :=
  match d with
  | [] => [(k, [i])]
  | (k', l) :: r => if k' =? k then (k', l ++ [i]) :: r else (k', l) :: dict_add k i r
  end.
Definition encl_dict (l : list encl) : dict := fold_left (fun d e => dict_add (pid e) (eid e) d) l [].
Fixpoint dict_get (k : Z) (d : dict) : option (list Z) :=
  match d with
  | [] => None
  | (k', l) :: r => if k' =? k then Some l else dict_get k r
  end.
Definition dict_del (k : Z) (d : dict) : dict := filter (fun x => negb (fst x =? k)) d.

(** lf 235-242: one turn; cont, next_parent, encl_dict *)
Fixpoint walk (parent : list Z) (d : dict) : bool * list Z * dict :=
  match parent with
  | [] => (false, [], d)
  | p :: r =>
      match dict_get p d with
      | Some l => let '(_, nxt, d') := walk r (dict_del p d) in (true, l ++ nxt, d')
      | None => walk r d
      end
  end.
(** lf 232-242: the while loop; the first argument bounds the number of turns *)
Fixpoint explore (n : nat) (parent : list Z) (d : dict) : res dict :=
  match n with
  | O => Fuel
  | S n => let '(cont, nxt, d') := walk parent d in if cont then explore n nxt d' else Ok d'
  end.
(** lf 224-249 *)
Definition check_loops (l : list encl) : res unit :=
  do d <- explore (S (length l)) [0] (encl_dict l);
  match d with [] => Ok tt | _ => Err ValueError end.

(** ** set_enclosure_levels, lf 120-161 *)
(** lf 126-139: the while loop; bounded number of turns.  Simplification: the
    removal of the chosen elements (lf 127-139) is a filter. *)
Fixpoint level_loop (n : nat) (parents : list Z) (temp : list encl) : res (list (list encl)) :=
  match temp with
  | [] => Ok [[]]
  | _ =>
      match n with
      | O => Fuel
      | S n =>
          let sel := filter (fun e => memZ (pid e) parents) temp in
          do r <- level_loop n (map eid sel) (filter (fun e => negb (memZ (pid e) parents)) temp);
          Ok (sel :: r)
      end
  end.
(** lf 141-151: sort by (ParentEnclosureID, position): a stable insertion sort. *)
Fixpoint insert_pid (e : encl) (l : list encl) : list encl :=
  match l with
  | [] => [e]
  | x :: r => if pid e <=? pid x then e :: l else x :: insert_pid e r
  end.
Definition sort_level (l : list encl) : list encl := fold_right insert_pid [] l.
Definition set_levels (n : nat) (l : list encl) : res (list (list encl)) :=
  do r <- level_loop n [0] l; Ok (map sort_level r).
(** lf 153-159: SonEnclosures of an enclosure of level i; those of the last level
    keep the initial value []. *)
Definition sons (levels : list (list encl)) (i : nat) (e : encl) : list encl :=
  match nth_error levels (S i) with
  | Some nxt => filter (fun c => pid c =? eid e) nxt
  | None => []
  end.

(** ** check_enclosure, lf 164-288: the tests on the geometry *)
(** Values in encl_tree and in the lists given to check_overlap: ints or solids. *)
Inductive pyv := PInt (i : Z) | PSolid (e : encl).
Section Geom.
  (** what check_intersection answers for two enclosures (utils/functions.py 159-195) *)
  Variable inter : encl -> encl -> Z.
  (** x.check_intersection(y.CADSolid): an int has neither attribute *)
  Definition check_intersection (x y : pyv) : res Z :=
    match x, y with
    | PSolid e, PSolid f => Ok (inter e f)
    | _, _ => Err AttributeError
    end.
  (** x.EnclosureID *)
  Definition get_id (x : pyv) : res Z := match x with PSolid e => Ok (eid e) | PInt _ => Err AttributeError end.

  (** update_tree, lf 301-308 *)
  Definition pv_is (i : Z) (x : pyv) : bool := match x with PInt j => j =? i | PSolid _ => false end.
  Definition update_tree (tree : list (list pyv)) (level : list encl) : list (list pyv) :=
    flat_map (fun e => flat_map (fun lst => if pv_is (pid e) (last lst (PInt 0)) then [lst ++ [PInt (eid e)]] else []) tree) level.
  (** check_overlap, lf 291-298 *)
  Fixpoint overlap_with (x : pyv) (l : list pyv) : res (list (Z * Z)) :=
    match l with
    | [] => Ok []
    | y :: r =>
        do c <- check_intersection x y;
        do a <- get_id x; do b <- get_id y;
        do o <- overlap_with x r;
        Ok (if c =? 1 then o else (a, b) :: o)
    end.
  Fixpoint check_overlap (l : list pyv) : res (list (Z * Z)) :=
    match l with
    | [] => Ok []
    | x :: r => do a <- overlap_with x r; do b <- check_overlap r; Ok (a ++ b)
    end.
  (** lf 258-263: same_parent is made anew for every enclosure of the level, so
      only the last one counts; [None]: the name is not bound yet *)
  Definition same_parent (sp : option (list (list pyv))) (level : list encl) : option (list (list pyv)) :=
    fold_left (fun _ e => Some [[PInt (eid e)]]) level sp.
  (** lf 254-265 *)
  Fixpoint geom_levels (levels : list (list encl)) (tree : list (list pyv)) (sp : option (list (list pyv))) (over : list (Z * Z))
    : res (list (list pyv) * list (Z * Z)) :=
    match levels with
    | [] => Ok (tree, over)
    | lv :: r =>
        let tree' := update_tree tree lv in
        let sp' := same_parent sp lv in
        match sp' with
        | None => Err UnboundLocal
        | Some vals => do os <- mapM check_overlap vals; geom_levels r tree' sp' (over ++ concat os)
        end
    end.
  (** lf 267-273 *)
  Fixpoint embed_with (up : pyv) (l : list pyv) : res (list (Z * Z)) :=
    match l with
    | [] => Ok []
    | low :: r =>
        do c <- check_intersection up low;
        do a <- get_id low; do b <- get_id up;
        do o <- embed_with up r;
        Ok (if c =? -2 then o else (a, b) :: o)
    end.
  Definition not_embedded (tree : list (list pyv)) : res (list (Z * Z)) :=
    do l <- mapM (fun chain => match chain with [] => Err IndexError | up :: r => embed_with up r end) tree;
    Ok (concat l).
  (** lf 164-288 *)
  Definition check_enclosure (l : list encl) : res unit :=
    do _ <- check_ids l;
    do _ <- check_loops l;
    do levels <- set_levels (S (length l)) l;
    do (tree, over) <- geom_levels levels [[PInt 0]] None [];
    do ne <- not_embedded tree;
    match ne, over with [], [] => Ok tt | _, _ => Err ValueError end.
End Geom.

(** ** assignEnclosure and select_solids, vf 1-59 *)
Section Assign.
  (** check_intersection of the solid with the enclosure (uf 159-195): 1 disjoint,
      0 intersect, -1 the solid lies in the enclosure, -2 the enclosure lies in the
      solid *)
  Variable check : encl -> Z.

  (** vf 12-28: the loop over a level; dep, ParentEnclosureID, outside *)
  Fixpoint assign_level (top : bool) (level : list encl) (dep : list Z) : list Z * bool :=
    match level with
    | [] => (dep, true)
    | e :: r =>
        let inter := check e in
        if inter =? 0 then
          assign_level top r (dep ++ eid e :: (if top then [-1] else []))
        else if inter =? -1 then (dep ++ [eid e], false)
        else assign_level top r dep
    end.
  (** vf 11-33: levels, deepest first; the last one is the top level *)
  Fixpoint assign_levels (levels : list (list encl)) (dep : list Z) : list Z * bool :=
    match levels with
    | [] => (dep, true)
    | lv :: r =>
        let '(dep', outside) := assign_level (match r with [] => true | _ => false end) lv dep in
        if outside then assign_levels r dep' else (dep', false)
    end.
  (** vf 4-39: enclosure_list of the solid (a set) *)
  Definition assign (levels : list (list encl)) : list Z :=
    let '(dep, _) := assign_levels (rev levels) [] in
    match dep with [] => [-1] | _ => dep end.
End Assign.

(** select_solids, vf 42-59: positions of the solids used for an enclosure (-1:
    the universe); the enclosures of the lower level are used too.
    Simplification: solids are given by their enclosure_list; enclosures are not
    among them. *)
Definition select (id : Z) (deps : list (list Z)) : list nat :=
  filter (fun i => memZ id (nth i deps [])) (seq 0 (length deps)).

(** void_generation, void/void.py 27-92: the regions for which void cells are
    made, with their son enclosures.  [None]: the universe box; enclosures of type
    "envelope" are left out. *)
Definition regions (levels : list (list encl)) : list (option encl * list encl) :=
  (None, nth 0 levels []) ::
  flat_map (fun i => map (fun e => (Some e, sons levels i e)) (filter (fun e => negb (envel e)) (nth i levels [])))
           (seq 0 (length levels)).
