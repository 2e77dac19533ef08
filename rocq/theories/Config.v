(** Configuration objects and the entry points of CadToCsg:
    /repo/src/geouned/GEOUNED/utils/data_classes.py ("dc"), /repo/src/geouned/GEOUNED/core.py
    ("co") 50-345 and void/void.py ("vo") 112-117.

    Python objects live in a heap, so that two names may refer to one object.  Values of
    other types than those below are all [VOther]: no isinstance test holds of them. *)
From Coq Require Import String QArith.
From Verif Require Import Prelude.
Open Scope Z_scope.

(** A float: not-a-number, an infinity or a finite number. *)
Inductive fl := FNan | FInf (minus : bool) | FFin (x : Q).
Inductive val :=
| VNone | VBool (b : bool) | VInt (n : Z) | VFloat (x : fl) | VStr (s : string)
| VTuple (l : list val) | VRef (a : nat) | VOther.

Inductive cls := COptions | CTolerances | CNumericFormat | CSettings.
(** lists, configuration objects and CadToCsg objects; an object is its __dict__ *)
Definition dict := list (string * val).
Inductive obj := OList (l : list val) | OConf (c : cls) (d : dict) | OCad (d : dict).

(** what is done outside: log directories made (co 69-70), files loaded, conversions run
    (with the heap at that moment) and exports (co 179-197) *)
Inductive event :=
| EDir (out_path : val)
| ELoad (self : nat) (files : list val)
| EStart (self : nat) (h : list obj)
| EExport (self : nat) (args : dict).
Record state := ST { heap : list obj; events : list event }.
Definition M A := state -> state * res A.
Definition ret {A} (a : A) : M A := fun st => (st, Ok a).
Definition raise {A} (e : err) : M A := fun st => (st, Err e).
Definition seq_ {A B} (m : M A) (k : A -> M B) : M B := fun st =>
  match m st with
  | (st', Ok a) => k a st'
  | (st', Err e) => (st', Err e)
  | (st', Fuel) => (st', Fuel)
  end.
Notation "'let!' x := m 'in' k" := (seq_ m (fun x => k)) (at level 200, x pattern, m at level 100, k at level 200, right associativity).
Definition emit (e : event) : M unit := fun st => (ST (heap st) (events st ++ [e]), Ok tt).
Definition alloc (o : obj) : M nat := fun st => (ST (heap st ++ [o]) (events st), Ok (List.length (heap st))).

Fixpoint lookup (n : string) (d : dict) : option val :=
  match d with [] => None | (k, v) :: r => if String.eqb k n then Some v else lookup n r end.
Fixpoint put (n : string) (v : val) (d : dict) : dict :=
  match d with
  | [] => [(n, v)]
  | (k, w) :: r => if String.eqb k n then (k, v) :: r else (k, w) :: put n v r
  end.
Fixpoint upd {A} (i : nat) (x : A) (l : list A) : list A :=
  match l, i with
  | [], _ => []
  | _ :: r, O => x :: r
  | y :: r, S j => y :: upd j x r
  end.
(** object.__setattr__ *)
Definition store (self : nat) (n : string) (v : val) : M unit := fun st =>
  match nth_error (heap st) self with
  | Some (OConf c d) => (ST (upd self (OConf c (put n v d)) (heap st)) (events st), Ok tt)
  | Some (OCad d) => (ST (upd self (OCad (put n v d)) (heap st)) (events st), Ok tt)
  | _ => (st, Err AttributeError)
  end.

(** isinstance: bool is a subclass of int; int and float (hence bool) are Real *)
Inductive ty := TyBool | TyInt | TyFloat | TyReal | TyStr | TyList | TyTuple | TyNone | TyConf (c : cls).
Definition cls_eqb (a b : cls) : bool :=
  match a, b with
  | COptions, COptions | CTolerances, CTolerances | CNumericFormat, CNumericFormat | CSettings, CSettings => true
  | _, _ => false
  end.
Definition isinstance (h : list obj) (v : val) (t : ty) : bool :=
  match t, v with
  | TyBool, VBool _ => true
  | TyInt, VBool _ | TyInt, VInt _ => true
  | TyFloat, VFloat _ => true
  | TyReal, VBool _ | TyReal, VInt _ | TyReal, VFloat _ => true
  | TyStr, VStr _ => true
  | TyTuple, VTuple _ => true
  | TyNone, VNone => true
  | TyList, VRef a => match nth_error h a with Some (OList _) => true | _ => false end
  | TyConf c, VRef a => match nth_error h a with Some (OConf c' _) => cls_eqb c c' | _ => false end
  | _, _ => false
  end.
Definition is_a (v : val) (t : ty) : M bool := fun st => (st, Ok (isinstance (heap st) v t)).
(** value < 0, of a number; comparisons with not-a-number are false *)
Definition lt0 (v : val) : bool :=
  match v with
  | VInt n => n <? 0
  | VFloat (FInf m) => m
  | VFloat (FFin x) => negb (Qle_bool 0 x)
  | _ => false
  end.
(** the elements of a list or tuple *)
Definition elements (v : val) : M (list val) := fun st =>
  match v with
  | VTuple l => (st, Ok l)
  | VRef a => match nth_error (heap st) a with Some (OList l) => (st, Ok l) | _ => (st, Err TypeError) end
  | _ => (st, Err TypeError)
  end.

(** ** Setters.  The property [n] keeps its value in [_n]. *)
Definition priv (n : string) : string := ("_" ++ n)%string.
Definition setter := (nat -> val -> M unit)%type.
(** dc 81-84 and all the setters of the same form: if not isinstance(value, t): raise
    TypeError; self._n = value *)
Definition typed (n : string) (t : ty) : string * setter :=
  (n, fun self v => let! b := is_a v t in if negb b then raise TypeError else store self (priv n) v).
(** dc 108-114 enlargeBox, 130-136 splitTolerance *)
Definition non_negative (n : string) : string * setter :=
  (n, fun self v => let! b := is_a v TyReal in if negb b then raise TypeError else
      if lt0 v then raise ValueError else store self (priv n) v).
(** dc 742-747 exportSolids *)
Definition export_solids : string * setter :=
  ("exportSolids"%string, fun self v =>
     let! none := is_a v TyNone in
     if none then store self (priv "exportSolids") VNone
     else let! b := is_a v TyStr in if negb b then raise TypeError else store self (priv "exportSolids") v).
(** dc 784-798 voidMat *)
Definition void_mat : string * setter :=
  ("voidMat"%string, fun self v =>
     let! b := is_a v TyList in if negb b then raise TypeError else
     let! l := elements v in
     match l with
     | [] => store self (priv "voidMat") v
     | [e0; e1; e2] =>
         let! b0 := is_a e0 TyInt in if negb b0 then raise TypeError else
         let! b1 := is_a e1 TyInt in
         let! b1' := is_a e1 TyFloat in if negb b1 && negb b1' then raise TypeError else
         let! b2 := is_a e2 TyStr in if negb b2 then raise TypeError else
         store self (priv "voidMat") v
     | _ => raise TypeError
     end).
(** for entry in l: if not isinstance(entry, t): raise TypeError *)
Fixpoint all_are (l : list val) (t : ty) : M unit :=
  match l with
  | [] => ret tt
  | e :: r => let! b := is_a e t in if negb b then raise TypeError else all_are r t
  end.
(** dc 805-812 voidExclude *)
Definition void_exclude : string * setter :=
  ("voidExclude"%string, fun self v =>
     let! b := is_a v TyList in if negb b then raise TypeError else
     let! l := elements v in
     let! _ := all_are l TyStr in
     store self (priv "voidExclude") v).

Definition setters (c : cls) : list (string * setter) :=
  match c with
  | COptions => (* dc 76-185 *)
      [typed "forceCylinder" TyBool; typed "newSplitPlane" TyBool; typed "delLastNumber" TyBool; non_negative "enlargeBox";
       typed "nPlaneReverse" TyInt; non_negative "splitTolerance"; typed "scaleUp" TyBool; typed "quadricPY" TyBool;
       typed "Facets" TyBool; typed "prnt3PPlane" TyBool; typed "forceNoOverlap" TyBool]
  | CTolerances => (* dc 247-396 *)
      [typed "relativeTol" TyBool; typed "relativePrecision" TyFloat; typed "value" TyFloat; typed "distance" TyFloat;
       typed "angle" TyFloat; typed "pln_distance" TyFloat; typed "cyl_distance" TyFloat; typed "cyl_angle" TyFloat;
       typed "sph_distance" TyFloat; typed "pln_angle" TyFloat; typed "kne_distance" TyFloat; typed "kne_angle" TyFloat;
       typed "tor_distance" TyFloat; typed "tor_angle" TyFloat; typed "min_area" TyFloat]
  | CNumericFormat => (* dc 452-590 *)
      [typed "P_abc" TyStr; typed "P_d" TyStr; typed "P_xyz" TyStr; typed "S_r" TyStr; typed "S_xyz" TyStr; typed "C_r" TyStr;
       typed "C_xyz" TyStr; typed "K_xyz" TyStr; typed "K_tan2" TyStr; typed "T_r" TyStr; typed "T_xyz" TyStr;
       typed "GQ_1to6" TyStr; typed "GQ_7to9" TyStr; typed "GQ_10" TyStr]
  | CSettings => (* dc 677-842 *)
      [typed "outPath" TyStr; typed "matFile" TyStr; typed "voidGen" TyBool; typed "debug" TyBool; typed "compSolids" TyBool;
       typed "simplify" TyStr; export_solids; typed "minVoidSize" TyFloat; typed "maxSurf" TyInt; typed "maxBracket" TyInt;
       void_mat; void_exclude; typed "startCell" TyInt; typed "startSurf" TyInt; typed "sort_enclosure" TyBool]
  end%string.
(** co 80-118 *)
Definition cad_setters : list (string * setter) :=
  [typed "options" (TyConf COptions); typed "tolerances" (TyConf CTolerances);
   typed "numeric_format" (TyConf CNumericFormat); typed "settings" (TyConf CSettings)]%string.
Fixpoint find_setter (n : string) (l : list (string * setter)) : option setter :=
  match l with [] => None | (k, s) :: r => if String.eqb k n then Some s else find_setter n r end.
(** obj.n = v: the setter of the class, else a new entry of __dict__ *)
Definition setattr (self : nat) (n : string) (v : val) : M unit := fun st =>
  match nth_error (heap st) self with
  | Some (OConf c _) => match find_setter n (setters c) with Some s => s self v st | None => store self n v st end
  | Some (OCad _) => match find_setter n cad_setters with Some s => s self v st | None => store self n v st end
  | _ => (st, Err AttributeError)
  end.
(** obj.n *)
Definition getattr (self : nat) (n : string) : M val := fun st =>
  let get d tbl := match find_setter n tbl with
                   | Some _ => lookup (priv n) d
                   | None => lookup n d
                   end in
  match match nth_error (heap st) self with
        | Some (OConf c d) => get d (setters c)
        | Some (OCad d) => get d cad_setters
        | _ => None
        end with
  | Some v => (st, Ok v)
  | None => (st, Err AttributeError)
  end.

(** ** Constructors.  The parameters with their default values, in the order of the
    signature, which is also the order of the assignments of __init__. *)
Definition q (n : Z) (d : positive) : val := VFloat (FFin (n # d)).
(** the lists [] of the signature of Settings.__init__ are made once, at import: objects 0
    and 1 of the heap; likewise the default of load_step_file, object 2 *)
Definition params (c : cls) : dict :=
  match c with
  | COptions => (* dc 50-62 *)
      [("forceCylinder", VBool false); ("newSplitPlane", VBool true); ("delLastNumber", VBool false); ("enlargeBox", q 2 1);
       ("nPlaneReverse", VInt 0); ("splitTolerance", q 0 1); ("scaleUp", VBool true); ("quadricPY", VBool false);
       ("Facets", VBool false); ("prnt3PPlane", VBool false); ("forceNoOverlap", VBool false)]
  | CTolerances => (* dc 211-228 *)
      [("relativeTol", VBool false); ("relativePrecision", q 1 1000000); ("value", q 1 1000000); ("distance", q 1 10000);
       ("angle", q 1 10000); ("pln_distance", q 1 10000); ("pln_angle", q 1 10000); ("cyl_distance", q 1 10000);
       ("cyl_angle", q 1 10000); ("sph_distance", q 1 10000); ("kne_distance", q 1 10000); ("kne_angle", q 1 10000);
       ("tor_distance", q 1 10000); ("tor_angle", q 1 10000); ("min_area", q 1 100)]
  | CNumericFormat => (* dc 419-435 *)
      [("P_abc", VStr "14.7e"); ("P_d", VStr "14.7e"); ("P_xyz", VStr "14.7e"); ("S_r", VStr "14.7e"); ("S_xyz", VStr "14.7e");
       ("C_r", VStr "12f"); ("C_xyz", VStr "12f"); ("K_xyz", VStr "13.6e"); ("K_tan2", VStr "13.6e"); ("T_r", VStr "14.7e");
       ("T_xyz", VStr "14.7e"); ("GQ_1to6", VStr "18.15f"); ("GQ_7to9", VStr "18.15f"); ("GQ_10", VStr "18.15f")]
  | CSettings => (* dc 643-660 *)
      [("outPath", VStr "."); ("matFile", VStr ""); ("voidGen", VBool true); ("debug", VBool false); ("compSolids", VBool false);
       ("simplify", VStr "no"); ("exportSolids", VNone); ("minVoidSize", q 200 1); ("maxSurf", VInt 50); ("maxBracket", VInt 30);
       ("voidMat", VRef 0); ("voidExclude", VRef 1); ("startCell", VInt 1); ("startSurf", VInt 1); ("sort_enclosure", VBool false)]
  end%string.
(** binding of keyword arguments: the value given or the default; a name that is not a
    parameter raises TypeError.  (A repeated keyword is a syntax error: the first counts
    here.) *)
Definition bind_args (ps kw : dict) : res dict :=
  if forallb (fun e => match lookup (fst e) ps with Some _ => true | None => false end) kw
  then Ok (map (fun p => (fst p, match lookup (fst p) kw with Some v => v | None => snd p end)) ps)
  else Err TypeError.
Fixpoint set_all (self : nat) (l : dict) : M unit :=
  match l with
  | [] => ret tt
  | (n, v) :: r => let! _ := setattr self n v in set_all self r
  end.
(** An object whose constructor raises is lost: the heap is as before. *)
Definition or_lost {A} (m : M A) : M A := fun st => match m st with (st', Ok a) => (st', Ok a) | (_, r) => (st, r) end.
Definition lift {A} (r : res A) : M A := fun st => (st, r).
Definition new_conf (c : cls) (kw : dict) : M val :=
  let! args := lift (bind_args (params c) kw) in
  or_lost (let! self := alloc (OConf c []) in
           let! _ := set_all self args in
           ret (VRef self)).

(** The import of the package: the default lists, then the default arguments of
    CadToCsg.__init__, co 52-55 (objects 3 to 6). *)
Definition empty_state : state := ST [OList []; OList []; OList []] [].
Definition init_state : state :=
  fst ((let! _ := new_conf COptions [] in let! _ := new_conf CTolerances [] in
        let! _ := new_conf CNumericFormat [] in let! _ := new_conf CSettings [] in ret tt) empty_state).
Definition cad_params : dict :=
  [("options", VRef 3); ("tolerances", VRef 4); ("numeric_format", VRef 5); ("settings", VRef 6)]%string.
(** CadToCsg.__init__, co 50-76; meta_list is not modelled *)
Definition new_cad (kw : dict) : M val :=
  let! args := lift (bind_args cad_params kw) in
  or_lost (let! self := alloc (OCad []) in
           let! _ := set_all self args in
           let! _ := setattr self "geometry_bounding_box" VNone in
           let! _ := setattr self "filename" VNone in
           let! skip := alloc (OList []) in
           let! _ := setattr self "skip_solids" (VRef skip) in
           let! s := getattr self "settings" in
           match s with
           | VRef a => let! p := getattr a "outPath" in
                       let! _ := emit (EDir p) in
                       ret (VRef self)
           | _ => raise AttributeError
           end).

(** ** load_step_file, co 267-330: the checks and what is loaded *)
Fixpoint lower (s : string) : string :=
  match s with
  | EmptyString => EmptyString
  | String c r => String (let n := Ascii.nat_of_ascii c in
                          if (65 <=? n)%nat && (n <=? 90)%nat then Ascii.ascii_of_nat (n + 32) else c) (lower r)
  end.
Section Files.
(** Path(f).is_file() *)
Variable is_file : string -> bool.
Definition FileNotFound := IndexError. (* FileNotFoundError; not raised elsewhere here *)
Fixpoint all_found (l : list val) : M unit :=
  match l with
  | [] => ret tt
  | VStr f :: r => if is_file f then all_found r else raise FileNotFound
  | _ :: _ => raise TypeError
  end.
Definition load_step_file (self : nat) (filename skip_solids spline_surfaces : val) : M unit :=
  let! l1 := is_a skip_solids TyList in let! l2 := is_a skip_solids TyTuple in
  if negb (l1 || l2) then raise TypeError else
  let! es := elements skip_solids in
  let! _ := all_are es TyInt in
  let! f1 := is_a filename TyStr in let! f2 := is_a filename TyList in let! f3 := is_a filename TyTuple in
  if negb (f1 || f2 || f3) then raise TypeError else
  let! files := (if f2 || f3 then elements filename else ret [filename]) in
  let! _ := (if f2 || f3 then all_are files TyStr else ret tt) in
  match spline_surfaces with
  | VStr s =>
      if existsb (String.eqb (lower s)) ["stop"; "remove"; "ignore"]%string then
        let! _ := setattr self "filename" filename in
        let! _ := setattr self "skip_solids" skip_solids in
        let! _ := all_found files in
        emit (ELoad self files)
      else raise TypeError
  | _ => raise TypeError
  end.

(** start, co 404-: reads the configuration objects *)
Definition start (self : nat) : M unit := fun st => emit (EStart self (heap st)) st.

(** export_csg, co 120-197: the checks; outFormat is not checked *)
Definition export_params : dict :=
  [("title", VStr "Converted with GEOUNED"); ("geometryName", VStr "csg");
   ("outFormat", VTuple [VStr "openmc_xml"; VStr "openmc_py"; VStr "serpent"; VStr "phits"; VStr "mcnp"]);
   ("volSDEF", VBool false); ("volCARD", VBool true); ("UCARD", VNone); ("dummyMat", VBool false);
   ("cellCommentFile", VBool false); ("cellSummaryFile", VBool true)]%string.
Fixpoint args_are (ns : list string) (args : dict) (t : ty) : M unit :=
  match ns with
  | [] => ret tt
  | n :: r => match lookup n args with
              | Some v => let! b := is_a v t in if negb b then raise TypeError else args_are r args t
              | None => raise TypeError
              end
  end.
Definition export_csg (self : nat) (kw : dict) : M unit :=
  let! args := lift (bind_args export_params kw) in
  match lookup "UCARD" args with
  | None => raise TypeError
  | Some u =>
      let! i := is_a u TyInt in let! n := is_a u TyNone in
      if negb i && negb n then raise TypeError else
      if i && lt0 u then raise ValueError else
      let! _ := args_are ["volSDEF"; "volCARD"; "dummyMat"; "cellCommentFile"; "cellSummaryFile"]%string args TyBool in
      let! _ := args_are ["title"; "geometryName"]%string args TyStr in
      emit (EExport self args)
  end.

(** from_json, co 211-265.  The dictionary that json.load returned: each value is a
    dictionary or something else. *)
Inductive jval := JDict (d : dict) | JVal (v : val).
Definition config := list (string * jval).
Fixpoint jlookup (n : string) (d : config) : option jval :=
  match d with [] => None | (k, v) :: r => if String.eqb k n then Some v else jlookup n r end.
(** f( **v ) *)
Definition splat {A} (v : jval) (f : dict -> M A) : M A := match v with JDict d => f d | JVal _ => raise TypeError end.
Fixpoint config_loop (self : nat) (l : config) : M unit :=
  match l with
  | [] => ret tt
  | (k, v) :: r =>
      let! _ :=
        (if existsb (String.eqb k) ["load_step_file"; "export_csg"]%string then ret tt
         else if String.eqb k "Tolerances" then let! o := splat v (new_conf CTolerances) in setattr self "tolerances" o
         else if String.eqb k "Options" then let! o := splat v (new_conf COptions) in setattr self "options" o
         else if String.eqb k "NumericFormat" then let! o := splat v (new_conf CNumericFormat) in setattr self "numeric_format" o
         else if String.eqb k "Settings" then let! o := splat v (new_conf CSettings) in setattr self "settings" o
         else raise ValueError) in
      config_loop self r
  end.
(** arguments of load_step_file by keyword; filename has no default *)
Definition load_params : dict := [("filename", VOther); ("skip_solids", VRef 2); ("spline_surfaces", VStr "stop")]%string.
Definition load_kw (self : nat) (kw : dict) : M unit :=
  match lookup "filename" kw with
  | None => raise TypeError
  | Some _ =>
      let! args := lift (bind_args load_params kw) in
      match map snd args with
      | [f; s; p] => load_step_file self f s p
      | _ => raise TypeError
      end
  end.
Definition from_json (c : config) : M val :=
  let! o := new_cad [] in
  match o with
  | VRef self =>
      let! _ := config_loop self c in
      let! _ := (match jlookup "load_step_file" c with None => raise KeyError | Some v => splat v (load_kw self) end) in
      let! _ := start self in
      let! _ := (match jlookup "export_csg" c with None => export_csg self [] | Some v => splat v (export_csg self) end) in
      ret o
  | _ => raise TypeError
  end.

(** ** Histories: what a user may do.  list.append is one of the ways to change a list. *)
Inductive op :=
| OpNew (c : cls) (kw : dict)
| OpCad (kw : dict)
| OpSet (a : nat) (n : string) (v : val)
| OpList (l : list val)
| OpAppend (a : nat) (v : val)
| OpLoad (a : nat) (f s p : val)
| OpStart (a : nat)
| OpExport (a : nat) (kw : dict)
| OpJson (c : config).
Definition list_append (a : nat) (v : val) : M unit := fun st =>
  match nth_error (heap st) a with
  | Some (OList l) => (ST (upd a (OList (l ++ [v])) (heap st)) (events st), Ok tt)
  | _ => (st, Err AttributeError)
  end.
Definition unit_op (m : M unit) : M val := let! _ := m in ret VNone.
Definition step (o : op) : M val :=
  match o with
  | OpNew c kw => new_conf c kw
  | OpCad kw => new_cad kw
  | OpSet a n v => unit_op (setattr a n v)
  | OpList l => let! a := alloc (OList l) in ret (VRef a)
  | OpAppend a v => unit_op (list_append a v)
  | OpLoad a f s p => unit_op (load_step_file a f s p)
  | OpStart a => unit_op (start a)
  | OpExport a kw => unit_op (export_csg a kw)
  | OpJson c => from_json c
  end.
(** a history: exceptions are caught, the program goes on *)
Fixpoint history (l : list op) (st : state) : state :=
  match l with [] => st | o :: r => history r (fst (step o st)) end.
End Files.

(** ** The use of Settings.simplify: solids, co 528; voids, vo 112-117 *)
Definition simplifies_solids (s : string) : bool := String.eqb s "full".
Fixpoint contains (t s : string) : bool :=
  String.prefix t s || match s with EmptyString => false | String _ r => contains t r end.
Definition simplify_void (s : string) : string :=
  if contains "full" (lower s) then "full" else if contains "void" (lower s) then "diag" else "no".
