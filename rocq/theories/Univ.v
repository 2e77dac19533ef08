(** Universes of the CSG to CAD conversion:
    /repo/src/geouned/GEOReverse/Modules/MCNPinput.py ("mi"), XMLinput.py ("xi"),
    buildCAD.py ("bc") 49-131 and /repo/src/geouned/GEOReverse/core.py ("co") 61-205.

    Simplifications.  A cell card is its name, the numbers of its other entries and the
    surface numbers of its text, in order (after the removal of complements, C39): the
    operators of the text, which the functions here do not touch, are left out.  A
    transformation is a number, its name.  Sets are lists: only membership is used. *)
From Verif Require Import Prelude.

Definition mem (n : Z) (l : list Z) : bool := existsb (Z.eqb n) l.
(** dictionaries with integer keys: d[k], d[k] = v *)
Fixpoint zget {A} (n : Z) (d : list (Z * A)) : option A :=
  match d with [] => None | (k, v) :: r => if k =? n then Some v else zget n r end.
Fixpoint zput {A} (n : Z) (v : A) (d : list (Z * A)) : list (Z * A) :=
  match d with
  | [] => [(n, v)]
  | (k, w) :: r => if k =? n then (k, v) :: r else (k, w) :: zput n v r
  end.
Definition key {A} (n : Z) (d : list (Z * A)) : res A := match zget n d with Some v => Ok v | None => Err KeyError end.

(** CellCardString, remh.py 486-566: the attributes; U, FILL, MAT, TR (of FILL) and TRCL may
    be None *)
Record cell := Cell
  { c_name : Z; c_like : option Z; c_u : option Z; c_fill : option Z; c_mat : option Z;
    c_tr : option Z; c_trcl : option Z; c_surfs : list Z }.
(** [if c.X]: None and 0 are false *)
Definition truthy (o : option Z) : bool := match o with Some n => negb (n =? 0) | None => false end.
Definition val (o : option Z) : Z := match o with Some n => n | None => 0 end.

(** ** LIKE n BUT, mi 406-421 *)
Definition pick (own other : option Z) : option Z := if truthy own then own else other.
Definition like_but (c l : cell) : cell :=
  Cell (c_name c) (c_like c) (pick (c_u c) (c_u l)) (pick (c_fill c) (c_fill l)) (pick (c_mat c) (c_mat l))
       (pick (c_tr c) (c_tr l)) (pick (c_trcl c) (c_trcl l)) (c_surfs l).
Definition cells := list (Z * cell).
Fixpoint explicit_loop (done todo : cells) : res cells :=
  match todo with
  | [] => Ok done
  | (n, c) :: r =>
      do c' <- (if truthy (c_like c) then do l <- key (val (c_like c)) (done ++ (n, c) :: r); Ok (like_but c l) else Ok c);
      explicit_loop (done ++ [(n, c')]) r
  end.
Definition set_explicit (cs : cells) : res cells := explicit_loop [] cs.

(** ** GetLevelStructure, mi 90-159 (xi 74-131 without the cards part) *)
(** mi 95-107: the dictionary of the cards *)
Definition card_dict (cards : list cell) : cells := fold_left (fun d c => zput (c_name c) c d) cards [].
(** mi 111-112: no U is universe 0 *)
Definition with_u (c : cell) : cell :=
  Cell (c_name c) (c_like c) (Some (val (c_u c))) (c_fill c) (c_mat c) (c_tr c) (c_trcl c) (c_surfs c).
(** mi 110-120: the cells of each universe, the container cells and the filled universes *)
Definition group (cs : list cell) : list (Z * cells) :=
  fold_left (fun d c => let u := val (c_u c) in
                        zput u (zput (c_name c) c (match zget u d with Some m => m | None => [] end)) d) cs [].
Definition containers (cs : list cell) : list cell := filter (fun c => truthy (c_fill c)) cs.
Definition labels (cs : list cell) : list Z := map (fun c => val (c_fill c)) (containers cs).
(** mi 122-128: root_universe; None if the variable is not assigned *)
Definition root_of (us : list Z) (lab : list Z) : option Z :=
  if mem 0 us then Some 0 else find (fun k => negb (mem k lab)) us.
Definition NoContainer := ValueError. (* RuntimeError *)
(** mi 135-154: the loop over levels.  In [for c in reversed(containers)] the cell taken is
    removed from the list, which does not disturb the reversed iteration.  The result is
    the non-empty levels from 1 on, and the Level given to cells. *)
Fixpoint level_loop (fuel : nat) (level : nat) (current : list Z) (cont : list cell) : res (list (list Z) * list (Z * nat)) :=
  match fuel with
  | O => Fuel
  | S k =>
      let now := filter (fun c => mem (val (c_u c)) current) (rev cont) in
      let rest := filter (fun c => negb (mem (val (c_u c)) current)) cont in
      let next := map (fun c => val (c_fill c)) now in
      match next with
      | [] => Ok ([], [])
      | _ => do (ls, vs) <- level_loop k (S level) next rest;
             Ok (next :: ls, map (fun c => (c_name c, level)) now ++ vs)
      end
  end.
Record structure := Structure { l_universes : list (Z * cells); l_levels : list (list Z); l_level : list (Z * nat) }.
Definition structure_of (cs : list cell) : res structure :=
  let us := group cs in
  let keys := map fst us in
  let lab := labels cs in
  let root := root_of keys lab in
  if forallb (fun k => mem k lab || match root with Some r => k =? r | None => false end) keys then
    match root with
    | None => Err UnboundLocal
    | Some r =>
        let cont := containers cs in
        do (ls, vs) <- level_loop (S (length cont)) 1 [r] cont;
        Ok (Structure us ([r] :: ls) vs)
    end
  else Err NoContainer.
Definition mcnp_structure (cards : list cell) : res structure :=
  do cs <- set_explicit (card_dict cards); structure_of (map (fun p => with_u (snd p)) cs).
(** OpenMC: XMLParser.py 15-34 gives U = 0 to the universe 1 and to cells without one *)
Definition xml_structure (cards : list cell) : res structure := structure_of (map with_u cards).

(** ** getSubUniverses, mi 458-468 *)
Definition fills (m : cells) : list Z := map (fun p => val (c_fill (snd p))) (filter (fun p => truthy (c_fill (snd p))) m).
Fixpoint sub_universes (fuel : nat) (us : list (Z * cells)) (u : Z) : res (list Z) :=
  match fuel with
  | O => Fuel (* RecursionError *)
  | S k =>
      do m <- key u us;
      let uid := nodup Z.eq_dec (fills m) in
      do subs <- mapM (sub_universes k us) uid;
      Ok (uid ++ concat subs)
  end.

(** ** Filters *)
(** the range may be None: then a membership test is a TypeError *)
Inductive ftype := FAll | FExclude | FInclude.
Record filter_t := Filter { f_type : ftype; f_range : option (list Z) }.
(** co 57-82 cell_filter, material_filter; the type None stands for any other string *)
Definition set_filter (t : option ftype) (range : option (list Z)) (old : filter_t) : filter_t :=
  let ty := match t with Some ty => ty | None => FAll end in
  match range with
  | Some l => Filter ty (Some l)
  | None => Filter (match ty with FExclude => FAll | _ => ty end) (f_range old)
  end.
Definition test (f : filter_t) (v : option Z) : res bool :=
  let inn l := match v with Some n => mem n l | None => false end in
  match f_type f, f_range f with
  | FAll, _ => Ok true
  | _, None => Err TypeError
  | FExclude, Some l => Ok (negb (inn l))
  | FInclude, Some l => Ok (inn l)
  end.
(** mi 324-391: is the cell selected?  A cell with FILL is not tested for its material *)
Definition is_selected (mat cel : filter_t) (c : cell) : res bool :=
  do m <- (match f_type mat, c_fill c with
           | FAll, _ => Ok true
           | _, Some _ => Ok true
           | _, None => test mat (c_mat c)
           end);
  if m then test cel (Some (c_name c)) else Ok false.

(** ** GetFilteredCells, mi 38-88; xi 27-72 *)
(** a cell card, or the CadCell put in its place *)
Inductive entry := ECard (c : cell) | ECad (c : cell).
Definition cell_of (e : entry) : cell := match e with ECard c => c | ECad c => c end.
(** a surface: its label and the transformations applied to it *)
Record surf := Surf { s_label : Z; s_moves : list Z }.
Record geometry := Geometry
  { g_xml : bool; g_cards : list cell; g_surfaces : list (Z * Z) (* label, number *);
    g_universes : list (Z * list (Z * entry)); g_levels : list (list Z) }.

(** mi 68-72, xi 58-62: for U in Ukeys: if U not in subUniverses: Ukeys.remove(U); mi goes
    through the reversed list, xi forwards, over the list that is being changed *)
Fixpoint drop_forward (p : Z -> bool) (l : list Z) : list Z :=
  match l with
  | [] => []
  | u :: r => if p u then u :: drop_forward p r
              else match r with [] => [] | v :: r' => v :: drop_forward p r' end
  end.
Definition universe_keys (g : geometry) (ustart : Z) (depth : Z) (fuel : nat) : res (list Z) :=
  if depth =? 0 then Ok [ustart] else
  do subs <- sub_universes fuel (map (fun p => (fst p, map (fun q => (fst q, cell_of (snd q))) (snd p))) (g_universes g)) ustart;
  match find (fun p => mem ustart (snd p)) (combine (seq 0 (length (g_levels g))) (g_levels g)) with
  | None => Err ValueError
  | Some (lev, _) =>
      let top := Z.of_nat (length (g_levels g)) - 1 in
      let level_max := if depth =? -1 then top else Z.min (Z.of_nat lev + depth) top in
      let inside := concat (firstn (Z.to_nat (level_max + 1) - lev) (skipn lev (g_levels g))) in
      let keep u := mem u (ustart :: subs) && mem u inside in
      let keys := map fst (g_universes g) in
      Ok (if g_xml g then drop_forward keep keys else filter keep keys)
  end.

(** selectCells, mi 324-398; xi 173-250: the names selected.  The third case of xi 235-243
    takes the keys of the dictionary for cells. *)
Definition select (xml : bool) (mat cel : filter_t) (m : list (Z * entry)) : res (list Z) :=
  if xml && match f_type mat, f_type cel, m with FInclude, FExclude, _ :: _ => true | _, _, _ => false end then Err AttributeError else
  do bs <- mapM (fun p => do b <- is_selected mat cel (cell_of (snd p)); Ok (fst p, b)) m;
  let names := map fst (filter (fun p => snd p) bs) in
  if xml && match names with [] => true | _ => false end then Err ValueError else Ok names.
(** processSurfaces, mi 424-444: each surface label of the text by its number.  (mi 393-394
    before it, and this, need a card: a CadCell has no geom.) *)
Definition set_surfs (c : cell) (l : list Z) : cell :=
  Cell (c_name c) (c_like c) (c_u c) (c_fill c) (c_mat c) (c_tr c) (c_trcl c) l.
Definition process_surfaces (surfaces : list (Z * Z)) (e : entry) : res cell :=
  match e with
  | ECad _ => Err AttributeError
  | ECard c => do l <- mapM (fun s => key s surfaces) (c_surfs c); Ok (set_surfs c l)
  end.
(** the loop mi 74-77 body for one universe *)
Definition filter_universe (g : geometry) (mat cel : filter_t) (u : Z) : res cells :=
  do m <- key u (g_universes g);
  do names <- select (g_xml g) mat cel m;
  mapM (fun n => do e <- key n m; do c <- process_surfaces (g_surfaces g) e; Ok (n, c)) names.

(** substituteLikeCell, mi 282-321.  First the texts of like cells ... *)
Fixpoint like_loop (done todo : cells) : res cells :=
  match todo with
  | [] => Ok done
  | (n, c) :: r =>
      do c' <- (if truthy (c_like c) then do l <- key (val (c_like c)) (done ++ (n, c) :: r); Ok (set_surfs c (c_surfs l)) else Ok c);
      like_loop (done ++ [(n, c')]) r
  end.
(** ... then, for a cell with TRCL, new surfaces: moved copies of its own *)
Definition sdict := list (Z * surf).
Fixpoint move_loop (t : Z) (todo : list Z) (dict : list (Z * Z)) (new_id : Z) (ss : sdict) : res (list (Z * Z) * Z * sdict) :=
  match todo with
  | [] => Ok (dict, new_id, ss)
  | s :: r =>
      do x <- key s ss;
      let id := new_id + 1 in
      move_loop t r (zput s id dict) id (zput id (Surf (s_label x) (s_moves x ++ [t])) ss)
  end.
Fixpoint trcl_loop (done todo : cells) (new_id : Z) (ss : sdict) : res (cells * sdict) :=
  match todo with
  | [] => Ok (done, ss)
  | (n, c) :: r =>
      if truthy (c_trcl c) then
        do (dict, id, ss') <- move_loop (val (c_trcl c)) (nodup Z.eq_dec (c_surfs c)) [] new_id ss;
        do l <- mapM (fun s => key s dict) (c_surfs c);
        let c' := Cell (c_name c) (c_like c) (c_u c) (c_fill c) (c_mat c) (if truthy (c_fill c) then c_trcl c else c_tr c) None l in
        trcl_loop (done ++ [(n, c')]) r id ss'
      else trcl_loop (done ++ [(n, c)]) r new_id ss
  end.
Definition substitute_like (m : cells) (ss : sdict) : res (cells * sdict) :=
  do m1 <- like_loop [] m; trcl_loop [] m1 (Z.of_nat (length ss)) ss.

(** mi 79-83: the surfaces by number *)
Definition by_number (surfaces : list (Z * Z)) : sdict := fold_left (fun d p => zput (snd p) (Surf (fst p) []) d) surfaces [].
Fixpoint like_all (xml : bool) (fc : list (Z * cells)) (ss : sdict) : res (list (Z * cells) * sdict) :=
  match fc with
  | [] => Ok ([], ss)
  | (u, m) :: r =>
      do (m', ss') <- (if xml then Ok (m, ss) else substitute_like m ss);
      do (r', ss'') <- like_all xml r ss';
      Ok ((u, m') :: r', ss'')
  end.
(** what a call leaves in self.Universes: the cards, changed in place; or, when nothing is
    filtered, [selected] is the dictionary of the universe itself (mi 328-329) and the
    CadCells are put in it (mi 88) *)
Definition all_all (mat cel : filter_t) : bool := match f_type mat, f_type cel with FAll, FAll => true | _, _ => false end.
Definition write_back (alias : bool) (fc : list (Z * cells)) (us : list (Z * list (Z * entry))) : list (Z * list (Z * entry)) :=
  map (fun p => (fst p, match zget (fst p) fc with
                        | None => snd p
                        | Some m => map (fun q => (fst q, match zget (fst q) m with
                                                          | Some c => if alias then ECad c else ECard c
                                                          | None => snd q
                                                          end)) (snd p)
                        end)) us.
Definition get_filtered (g : geometry) (ustart depth : Z) (mat cel : filter_t) (fuel : nat) : res (geometry * list (Z * cells) * sdict) :=
  do keys <- universe_keys g ustart depth fuel;
  do fc <- mapM (fun u => do m <- filter_universe g mat cel u; Ok (u, m)) keys;
  do (fc', ss) <- like_all (g_xml g) fc (by_number (g_surfaces g));
  Ok (Geometry (g_xml g) (g_cards g) (g_surfaces g) (write_back (all_all mat cel) fc' (g_universes g)) (g_levels g), fc', ss).

(** ** BuildUniverseCells, bc 49-131: the tree of names.  Not modelled here: shapes (every
    cell is taken to have one). *)
Inductive tree := Leaf (name : Z) | Node (container : option Z) (u : Z) (l : list tree).
Fixpoint build (fuel : nat) (level_max : Z) (all : list (Z * cells)) (container : option Z) (level : option Z) (u : Z) : res tree :=
  match fuel with
  | O => Fuel
  | S k =>
      do m <- key u all;
      do l <- mapM (fun p =>
          if negb (truthy (c_fill (snd p))) then Ok (Leaf (fst p))
          else match level with
               | None => Err TypeError
               | Some v => if level_max <? v + 1 then Ok (Leaf (fst p))
                           else build k level_max all (Some (fst p)) (Some (v + 1)) (val (c_fill (snd p)))
               end) m;
      Ok (Node container u l)
  end.
Definition first_level (ls : list (list Z)) (u : Z) : option nat :=
  match find (fun p => mem u (snd p)) (combine (seq 0 (length ls)) ls) with Some (n, _) => Some n | None => None end.
(** co 164-205 build_universe (offset 1) and 84-162 build_container (offset 0): levels *)
Definition build_from (g : geometry) (offset : Z) (container : option Z) (ustart depth : Z) (mat cel : filter_t) (fuel : nat)
  : res (geometry * tree * sdict) :=
  do (g', fc, ss) <- get_filtered g ustart depth mat cel fuel;
  let n := Z.of_nat (length (g_levels g)) - offset in
  let lev := first_level (g_levels g) ustart in
  let last := match lev with Some v => Z.of_nat v | None => Z.of_nat (length (g_levels g)) - 1 end in
  let level_max := if depth =? -1 then n else Z.min (last + depth) n in
  do t <- build (S (Z.to_nat (level_max + 1))) level_max fc container (match lev with Some v => Some (Z.of_nat v) | None => None end) ustart;
  Ok (g', t, ss).
Definition build_universe (g : geometry) (u : option Z) (depth : Z) (mat cel : filter_t) (fuel : nat) : res (geometry * tree * sdict) :=
  do root <- (match u with
              | Some v => Ok v
              | None => match g_levels g with (r :: _) :: _ => Ok r | _ => Err KeyError end
              end);
  build_from g 1 None root depth mat cel fuel.
(** mi 161-193 GetCell: the card, by itself: a like cell is not found in {c.name: c}.
    xi 133-137 reads c.ctype, which XML cards do not have. *)
Definition get_cell (g : geometry) (name : Z) : res cell :=
  if g_xml g then match g_cards g with [] => Err AttributeError | _ => Err AttributeError end else
  match find (fun c => c_name c =? name) (g_cards g) with
  | None => Err AttributeError (* None.definition *)
  | Some c => if truthy (c_like c) && negb (val (c_like c) =? name) then Err KeyError else Ok c
  end.
Definition build_container (g : geometry) (name : Z) (depth : Z) (mat cel : filter_t) (fuel : nat) : res (geometry * tree * sdict) :=
  do c <- get_cell g name;
  match c_fill c with
  | None => Err KeyError
  | Some u => build_from g 0 (Some name) u depth mat cel fuel
  end.
(** GetSurfaces, mi 212-224: surfaces are numbered in the order of the cards; those that are
    not known (mi "Undefined") have no entry *)
Fixpoint number_from (k : Z) (l : list (Z * bool)) : list (Z * Z) :=
  match l with
  | [] => []
  | (lab, true) :: r => (lab, k) :: number_from (k + 1) r
  | (_, false) :: r => number_from (k + 1) r
  end.
(** read_csg_file, co 30-55 *)
Definition read (xml : bool) (surfaces : list (Z * bool)) (cards : list cell) : res geometry :=
  do s <- (if xml then xml_structure cards else mcnp_structure cards);
  Ok (Geometry xml cards (number_from 1 surfaces)
        (map (fun p => (fst p, map (fun q => (fst q, ECard (snd q))) (snd p))) (l_universes s)) (l_levels s)).
