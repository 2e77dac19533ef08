(** Specification: what a surface of the CAD model is, and what a surface card means for
    the transport code (MCNP, PHITS, OpenMC and Serpent manuals). *)
From Verif Require Import Prelude Vec3 Prim PrimSpec Quadric QuadricSpec SurfCards.
From Coq Require Import String List.
Import ListNotations.
Open Scope R_scope.

(** Surfaces with two sides.  A cone is given by the square of the tangent and by whether
    it has only the sheet in the direction of [v]; a torus of revolution by the distance of
    the centre of the circle to the axis (negative for the inner part of a degenerate
    torus) and the two radii of its section. *)
Inductive shape :=
| HCyl (p v : vec) (r : R)
| HCone (p v : vec) (t2 : R) (one : bool)
| HSph (p : vec) (r : R)
| HTor (p v : vec) (a b c : R)
| HQuad (q : gq).

(** the direction [v] need not be a unit vector: [dist2] divides by its square *)
Definition axial2 (p v x : vec) : R := (dot v (vsub x p)) ^ 2 / dot v v.
Definition neg (h : shape) (x : vec) : Prop :=
  match h with
  | HCyl p v r => dist2 p v x < r ^ 2
  | HCone p v t2 one => dist2 p v x < t2 * axial2 p v x /\ (one = true -> 0 < dot v (vsub x p))
  | HSph p r => dot (vsub x p) (vsub x p) < r ^ 2
  | HTor p v a b c => axial2 p v x / b ^ 2 + (sqrt (dist2 p v x) - a) ^ 2 / c ^ 2 < 1
  | HQuad q => qval q x < 0
  end.
Definition pos (h : shape) (x : vec) : Prop :=
  match h with
  | HCyl p v r => r ^ 2 < dist2 p v x
  | HCone p v t2 one => t2 * axial2 p v x < dist2 p v x \/ (one = true /\ dot v (vsub x p) < 0)
  | HSph p r => r ^ 2 < dot (vsub x p) (vsub x p)
  | HTor p v a b c => 1 < axial2 p v x / b ^ 2 + (sqrt (dist2 p v x) - a) ^ 2 / c ^ 2
  | HQuad q => 0 < qval q x
  end.

(** the surface of the CAD model, in mm *)
Definition cad (s : csurf) : shape :=
  match s with
  | SCyl c v r => HCyl c v r
  | SCone p v ang => HCone p v (tan ang ^ 2) true
  | SSph c r => HSph c r
  | STor c v ra rb sg => HTor c v (if Rlt_dec ra rb then sg * ra else ra) rb rb
  end.
Definition proper_cad (s : csurf) : Prop :=
  match s with
  | SCyl _ v r => vlen v = 1 /\ 0 < r
  | SCone _ v ang => vlen v = 1 /\ 0 < ang < PI / 2
  | SSph _ r => 0 < r
  | STor _ v ra rb sg => vlen v = 1 /\ 0 <= ra /\ 0 < rb /\ (sg = 1 \/ sg = -1)
  end.

(** the card [h] (in cm) has the two sides of [s] (in mm) *)
Definition sides (h s : shape) : Prop :=
  forall x, (neg h x <-> neg s (vscale 10 x)) /\ (pos h x <-> pos s (vscale 10 x)).

(** Reading a card: MCNP and PHITS *)
Definition is_sheet (s : R) : Prop := s = 1 \/ s = -1.
Inductive mcnp_means : string -> list R -> shape -> Prop :=
| mCX r : mcnp_means "CX" [r] (HCyl vzero EX r)
| mCY r : mcnp_means "CY" [r] (HCyl vzero EY r)
| mCZ r : mcnp_means "CZ" [r] (HCyl vzero EZ r)
| mCcX y z r : mcnp_means "C/X" [y; z; r] (HCyl (V 0 y z) EX r)
| mCcY x z r : mcnp_means "C/Y" [x; z; r] (HCyl (V x 0 z) EY r)
| mCcZ x y r : mcnp_means "C/Z" [x; y; r] (HCyl (V x y 0) EZ r)
| mKX x t s : is_sheet s -> mcnp_means "KX" [x; t; s] (HCone (V x 0 0) (vscale s EX) t true)
| mKY y t s : is_sheet s -> mcnp_means "KY" [y; t; s] (HCone (V 0 y 0) (vscale s EY) t true)
| mKZ z t s : is_sheet s -> mcnp_means "KZ" [z; t; s] (HCone (V 0 0 z) (vscale s EZ) t true)
| mKcX x y z t s : is_sheet s -> mcnp_means "K/X" [x; y; z; t; s] (HCone (V x y z) (vscale s EX) t true)
| mKcY x y z t s : is_sheet s -> mcnp_means "K/Y" [x; y; z; t; s] (HCone (V x y z) (vscale s EY) t true)
| mKcZ x y z t s : is_sheet s -> mcnp_means "K/Z" [x; y; z; t; s] (HCone (V x y z) (vscale s EZ) t true)
| mSO r : mcnp_means "SO" [r] (HSph vzero r)
| mS x y z r : mcnp_means "S" [x; y; z; r] (HSph (V x y z) r)
| mTX x y z a b c : mcnp_means "TX" [x; y; z; a; b; c] (HTor (V x y z) EX a b c)
| mTY x y z a b c : mcnp_means "TY" [x; y; z; a; b; c] (HTor (V x y z) EY a b c)
| mTZ x y z a b c : mcnp_means "TZ" [x; y; z; a; b; c] (HTor (V x y z) EZ a b c)
| mGQ a b c d e f g h j k : mcnp_means "GQ" [a; b; c; d; e; f; g; h; j; k] (HQuad (GQ a b c d e f g h j k)).
Definition mcnp_card (toks : list tok) (id : Z) (h : shape) : Prop :=
  exists k l, toks = TI id :: TK k :: nums l /\ mcnp_means k l h.

(** Serpent: surf <id> <type> <parameters>.  [cylz] takes the coordinates of the axis. *)
Inductive serpent_means : string -> list R -> shape -> Prop :=
| sCX y z r : serpent_means "cylx" [y; z; r] (HCyl (V 0 y z) EX r)
| sCY x z r : serpent_means "cyly" [x; z; r] (HCyl (V x 0 z) EY r)
| sCZ x y r : serpent_means "cylz" [x; y; r] (HCyl (V x y 0) EZ r)
| sKX x y z t s : is_sheet s -> serpent_means "ckx" [x; y; z; t; s] (HCone (V x y z) (vscale s EX) t true)
| sKY x y z t s : is_sheet s -> serpent_means "cky" [x; y; z; t; s] (HCone (V x y z) (vscale s EY) t true)
| sKZ x y z t s : is_sheet s -> serpent_means "ckz" [x; y; z; t; s] (HCone (V x y z) (vscale s EZ) t true)
| sS x y z r : serpent_means "sph" [x; y; z; r] (HSph (V x y z) r)
| sTX x y z a b c : serpent_means "torx" [x; y; z; a; b; c] (HTor (V x y z) EX a b c)
| sTY x y z a b c : serpent_means "tory" [x; y; z; a; b; c] (HTor (V x y z) EY a b c)
| sTZ x y z a b c : serpent_means "torz" [x; y; z; a; b; c] (HTor (V x y z) EZ a b c)
| sGQ a b c d e f g h j k :
    serpent_means "quadratic" [a; b; c; d; e; f; g; h; j; k] (HQuad (GQ a b c d e f g h j k)).
Definition serpent_card (toks : list tok) (id : Z) (h : shape) : Prop :=
  exists k l, toks = TI id :: TK k :: nums l /\ serpent_means k l h.

(** OpenMC: the type and coefficients of <surface>; its cones have two sheets *)
Inductive omc_means : string -> list R -> shape -> Prop :=
| oCX y z r : omc_means "x-cylinder" [y; z; r] (HCyl (V 0 y z) EX r)
| oCY x z r : omc_means "y-cylinder" [x; z; r] (HCyl (V x 0 z) EY r)
| oCZ x y r : omc_means "z-cylinder" [x; y; r] (HCyl (V x y 0) EZ r)
| oKX x y z t : omc_means "x-cone" [x; y; z; t] (HCone (V x y z) EX t false)
| oKY x y z t : omc_means "y-cone" [x; y; z; t] (HCone (V x y z) EY t false)
| oKZ x y z t : omc_means "z-cone" [x; y; z; t] (HCone (V x y z) EZ t false)
| oS x y z r : omc_means "sphere" [x; y; z; r] (HSph (V x y z) r)
| oTX x y z a b c : omc_means "x-torus" [x; y; z; a; b; c] (HTor (V x y z) EX a b c)
| oTY x y z a b c : omc_means "y-torus" [x; y; z; a; b; c] (HTor (V x y z) EY a b c)
| oTZ x y z a b c : omc_means "z-torus" [x; y; z; a; b; c] (HTor (V x y z) EZ a b c)
| oGQ a b c d e f g h j k :
    omc_means "quadric" [a; b; c; d; e; f; g; h; j; k] (HQuad (GQ a b c d e f g h j k)).

(** OpenMC Python classes: the names of the arguments, in any order, none unknown; an
    argument left out has its default value *)
Definition arg (l : list (string * R)) (k : string) (dflt : R) : R :=
  match find (fun e => String.eqb (fst e) k) l with Some (_, x) => x | None => dflt end.
Definition only (ks : list string) (l : list (string * R)) : Prop :=
  (forall k x, In (k, x) l -> In k ks) /\ NoDup (map fst l).
Definition arg_pos (l : list (string * R)) : vec := V (arg l "x0" 0) (arg l "y0" 0) (arg l "z0" 0).
Definition arg_dir (l : list (string * R)) : vec := V (arg l "dx" 0) (arg l "dy" 0) (arg l "dz" 1).
Inductive omcpy_means : string -> list (string * R) -> shape -> Prop :=
| yCX l : only ["y0"; "z0"; "r"]%string l -> omcpy_means "XCylinder" l (HCyl (V 0 (arg l "y0" 0) (arg l "z0" 0)) EX (arg l "r" 1))
| yCY l : only ["x0"; "z0"; "r"]%string l -> omcpy_means "YCylinder" l (HCyl (V (arg l "x0" 0) 0 (arg l "z0" 0)) EY (arg l "r" 1))
| yCZ l : only ["x0"; "y0"; "r"]%string l -> omcpy_means "ZCylinder" l (HCyl (V (arg l "x0" 0) (arg l "y0" 0) 0) EZ (arg l "r" 1))
| yC l : only ["x0"; "y0"; "z0"; "r"; "dx"; "dy"; "dz"]%string l ->
    omcpy_means "Cylinder" l (HCyl (arg_pos l) (arg_dir l) (arg l "r" 1))
| yKX l : only ["x0"; "y0"; "z0"; "r2"]%string l -> omcpy_means "XCone" l (HCone (arg_pos l) EX (arg l "r2" 1) false)
| yKY l : only ["x0"; "y0"; "z0"; "r2"]%string l -> omcpy_means "YCone" l (HCone (arg_pos l) EY (arg l "r2" 1) false)
| yKZ l : only ["x0"; "y0"; "z0"; "r2"]%string l -> omcpy_means "ZCone" l (HCone (arg_pos l) EZ (arg l "r2" 1) false)
| yK l : only ["x0"; "y0"; "z0"; "r2"; "dx"; "dy"; "dz"]%string l ->
    omcpy_means "Cone" l (HCone (arg_pos l) (arg_dir l) (arg l "r2" 1) false)
| yS l : only ["x0"; "y0"; "z0"; "r"]%string l -> omcpy_means "Sphere" l (HSph (arg_pos l) (arg l "r" 1))
| yTX l : only ["x0"; "y0"; "z0"; "a"; "b"; "c"]%string l ->
    omcpy_means "XTorus" l (HTor (arg_pos l) EX (arg l "a" 0) (arg l "b" 0) (arg l "c" 0))
| yTY l : only ["x0"; "y0"; "z0"; "a"; "b"; "c"]%string l ->
    omcpy_means "YTorus" l (HTor (arg_pos l) EY (arg l "a" 0) (arg l "b" 0) (arg l "c" 0))
| yTZ l : only ["x0"; "y0"; "z0"; "a"; "b"; "c"]%string l ->
    omcpy_means "ZTorus" l (HTor (arg_pos l) EZ (arg l "a" 0) (arg l "b" 0) (arg l "c" 0))
| yQ l : only ["a"; "b"; "c"; "d"; "e"; "f"; "g"; "h"; "j"; "k"]%string l ->
    omcpy_means "Quadric" l
      (HQuad (GQ (arg l "a" 0) (arg l "b" 0) (arg l "c" 0) (arg l "d" 0) (arg l "e" 0) (arg l "f" 0)
                 (arg l "g" 0) (arg l "h" 0) (arg l "j" 0) (arg l "k" 0))).

(** Tolerances: a direction within the angular tolerance of a coordinate direction may be
    replaced by it, a sphere whose centre is within the distance tolerance of the origin
    (in cm) may be centred there. *)
Definition ang (a b : vec) : R := acos (dot a b / (vlen a * vlen b)).
Definition coord (e : vec) : Prop :=
  In e [EX; EY; EZ; vopp EX; vopp EY; vopp EZ].
Definition near (tol : R) (v e : vec) : Prop := coord e /\ ang v e < tol.
Inductive snap (t : tols) : csurf -> csurf -> Prop :=
| snap_cyl c v e r : near (t_angle t) v e -> snap t (SCyl c v r) (SCyl c e r)
| snap_cone c v e a : near (t_angle t) v e -> snap t (SCone c v a) (SCone c e a)
| snap_tor c v e ra rb sg : near (t_angle t) v e -> snap t (STor c v ra rb sg) (STor c e ra rb sg)
| snap_sph c r : vlen (vscale (1/10) c) <= t_sph t -> snap t (SSph c r) (SSph vzero r).
(** neither nearly aligned nor nearly centred *)
Definition clear (t : tols) (s : csurf) : Prop := forall s', snap t s s' -> s' = s.
(** both sheets of a cone *)
Definition both_sheets (h : shape) : shape :=
  match h with HCone p v t2 _ => HCone p v t2 false | _ => h end.
(** along a coordinate direction, within the tolerance *)
Definition along (t : tols) (s : csurf) : Prop :=
  match s with
  | SCyl _ v _ | SCone _ v _ | STor _ v _ _ _ => exists e, near (t_angle t) v e
  | SSph _ _ => True
  end.
