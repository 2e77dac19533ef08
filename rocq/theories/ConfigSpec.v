(** Specification: the documented types of the attributes (docstrings of data_classes.py
    8-48, 193-211, 398-417, 596-641) and what a valid configuration file is. *)
From Coq Require Import String QArith.
From Verif Require Import Prelude Config.
Open Scope Z_scope.

Inductive doc := DBool | DInt | DFloat | DNonNeg | DStr | DOptStr | DVoidMat | DStrs.
Definition negative (x : fl) : Prop := match x with FNan => False | FInf m => m = true | FFin x => (x < 0)%Q end.
(** in Python a bool is also an int *)
Inductive int_like : val -> Prop := il_int n : int_like (VInt n) | il_bool b : int_like (VBool b).
Inductive has_type (h : list obj) : doc -> val -> Prop :=
| tBool b : has_type h DBool (VBool b)
| tInt v : int_like v -> has_type h DInt v
| tFloat x : has_type h DFloat (VFloat x)
| tNonNegB b : has_type h DNonNeg (VBool b)
| tNonNegI n : 0 <= n -> has_type h DNonNeg (VInt n)
| tNonNegF x : ~ negative x -> has_type h DNonNeg (VFloat x)
| tStr s : has_type h DStr (VStr s)
| tNone : has_type h DOptStr VNone
| tSome s : has_type h DOptStr (VStr s)
| tNoMat a : nth_error h a = Some (OList []) -> has_type h DVoidMat (VRef a)
| tMat a m d s : nth_error h a = Some (OList [m; d; VStr s]) -> int_like m ->
    (int_like d \/ exists x, d = VFloat x) -> has_type h DVoidMat (VRef a)
| tStrs a l : nth_error h a = Some (OList (map VStr l)) -> has_type h DStrs (VRef a).
(** the same without the contents of lists *)
Definition has_shape (h : list obj) (t : doc) (v : val) : Prop :=
  match t with
  | DVoidMat | DStrs => exists a l, v = VRef a /\ nth_error h a = Some (OList l)
  | _ => has_type h t v
  end.

Definition documented (c : cls) : list (string * doc) :=
  match c with
  | COptions =>
      [("forceCylinder", DBool); ("newSplitPlane", DBool); ("delLastNumber", DBool); ("enlargeBox", DNonNeg);
       ("nPlaneReverse", DInt); ("splitTolerance", DNonNeg); ("scaleUp", DBool); ("quadricPY", DBool); ("Facets", DBool);
       ("prnt3PPlane", DBool); ("forceNoOverlap", DBool)]
  | CTolerances =>
      [("relativeTol", DBool); ("relativePrecision", DFloat); ("value", DFloat); ("distance", DFloat); ("angle", DFloat);
       ("pln_distance", DFloat); ("pln_angle", DFloat); ("cyl_distance", DFloat); ("cyl_angle", DFloat);
       ("sph_distance", DFloat); ("kne_distance", DFloat); ("kne_angle", DFloat); ("tor_distance", DFloat);
       ("tor_angle", DFloat); ("min_area", DFloat)]
  | CNumericFormat =>
      [("P_abc", DStr); ("P_d", DStr); ("P_xyz", DStr); ("S_r", DStr); ("S_xyz", DStr); ("C_r", DStr); ("C_xyz", DStr);
       ("K_xyz", DStr); ("K_tan2", DStr); ("T_r", DStr); ("T_xyz", DStr); ("GQ_1to6", DStr); ("GQ_7to9", DStr); ("GQ_10", DStr)]
  | CSettings =>
      [("outPath", DStr); ("matFile", DStr); ("voidGen", DBool); ("debug", DBool); ("compSolids", DBool); ("simplify", DStr);
       ("exportSolids", DOptStr); ("minVoidSize", DFloat); ("maxSurf", DInt); ("maxBracket", DInt); ("voidMat", DVoidMat);
       ("voidExclude", DStrs); ("startCell", DInt); ("startSurf", DInt); ("sort_enclosure", DBool)]
  end%string.

(** names of attributes for users: without a leading underscore *)
Definition public (n : string) : Prop := forall r, n <> String.append "_" r.

(** ** Configuration files *)
Definition sections : list (string * (string * cls)) :=
  [("Options", ("options", COptions)); ("Tolerances", ("tolerances", CTolerances));
   ("NumericFormat", ("numeric_format", CNumericFormat)); ("Settings", ("settings", CSettings))]%string.
(** arguments by keyword for a class *)
Definition valid_section (h : list obj) (c : cls) (v : jval) : Prop :=
  exists kw, v = JDict kw /\ (forall n x, In (n, x) kw -> exists t, In (n, t) (documented c)) /\
    forall n t x, In (n, t) (documented c) -> lookup n kw = Some x -> has_type h t x.
Definition seq_of (h : list obj) (v : val) (l : list val) : Prop :=
  v = VTuple l \/ exists a, v = VRef a /\ nth_error h a = Some (OList l).
Definition file_names (h : list obj) (v : val) (fs : list string) : Prop :=
  (exists f, v = VStr f /\ fs = [f]) \/ seq_of h v (map VStr fs).
Definition valid_load (is_file : string -> bool) (h : list obj) (v : jval) : Prop :=
  exists kw f fs, v = JDict kw /\ (forall n x, In (n, x) kw -> In n ["filename"; "skip_solids"; "spline_surfaces"]%string) /\
    lookup "filename" kw = Some f /\ file_names h f fs /\ Forall (fun f => is_file f = true) fs /\
    (forall s, lookup "skip_solids" kw = Some s -> exists l, seq_of h s l /\ Forall int_like l) /\
    (forall p, lookup "spline_surfaces" kw = Some p -> exists s, p = VStr s /\ In (lower s) ["stop"; "remove"; "ignore"]%string).
Definition valid_export (h : list obj) (v : jval) : Prop :=
  exists kw, v = JDict kw /\
    (forall n x, In (n, x) kw -> In n ["title"; "geometryName"; "outFormat"; "volSDEF"; "volCARD"; "UCARD"; "dummyMat";
                                       "cellCommentFile"; "cellSummaryFile"]%string) /\
    (forall n x, In n ["title"; "geometryName"]%string -> lookup n kw = Some x -> has_type h DStr x) /\
    (forall n x, In n ["volSDEF"; "volCARD"; "dummyMat"; "cellCommentFile"; "cellSummaryFile"]%string ->
       lookup n kw = Some x -> has_type h DBool x) /\
    (forall x, lookup "UCARD" kw = Some x -> x = VNone \/ int_like x /\ forall n, x = VInt n -> 0 <= n).
Definition known_key (k : string) : Prop :=
  In k ["load_step_file"; "export_csg"; "Options"; "Tolerances"; "NumericFormat"; "Settings"]%string.
(** all but the export section *)
Definition valid_before (is_file : string -> bool) (h : list obj) (c : config) : Prop :=
  (forall k v, In (k, v) c -> known_key k) /\
  (forall k a cl v, In (k, (a, cl)) sections -> In (k, v) c -> valid_section h cl v) /\
  (exists v, In ("load_step_file"%string, v) c /\ valid_load is_file h v).
Definition valid_config (is_file : string -> bool) (h : list obj) (c : config) : Prop :=
  valid_before is_file h c /\ forall v, In ("export_csg"%string, v) c -> valid_export h v.
(** a dictionary read from a file has each key once, and its lists are in the heap *)
Definition no_dangling (h : list obj) (d : dict) : Prop := forall n a, In (n, VRef a) d -> (a < List.length h)%nat.
Definition json_dict (h : list obj) (c : config) : Prop :=
  NoDup (map fst c) /\ forall k d, In (k, JDict d) c -> NoDup (map fst d) /\ no_dangling h d.

(** what histories may not do: assign private attributes; and, for the contents of lists,
    change lists *)
Definition fair (s : bool) (o : op) : Prop :=
  match o with OpSet _ n _ => public n | OpAppend _ _ => s = false | _ => True end.
(** reading an attribute *)
Definition reads (st : state) (a : nat) (n : string) (v : val) : Prop := getattr a n st = (st, Ok v).
