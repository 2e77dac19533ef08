(** MCNP surface cards to primitive surfaces.  Sources, all under
    /repo/src/geouned/GEOReverse/Modules:
    Get_primitive_surfaces, MCNPinput.py ("mi") 494-966 (with scale = 10, mi 214-223),
    getTransMatrix, mi 240-278, and the [transform] methods of Objects.py ("ob").
    Floats are real numbers.  A parameter list that is too short raises IndexError or
    ValueError in Python: here always ValueError.  The cards GQ and SQ are in Quadric.v. *)
From Coq Require Import String.
From Verif Require Import Prelude Vec3 Geom Prim.
Open Scope R_scope.

(** ** Transformations *)
(** FreeCAD.Matrix, last row 0 0 0 1: columns of the 3x3 part, translation *)
Record matrix := Mat { col1 : vec; col2 : vec; col3 : vec; trans : vec }.
(** matrix.submatrix(3).multVec(v) *)
Definition rotv (M : matrix) (a : vec) : vec :=
  vadd (vscale (vx a) (col1 M)) (vadd (vscale (vy a) (col2 M)) (vscale (vz a) (col3 M))).
(** matrix.multVec(v) *)
Definition mult_vec (M : matrix) (a : vec) : vec := vadd (rotv M a) (trans M).

Definition scale : R := 10.
(** cosine of an angle in degrees: math.cos(math.radians(x)) *)
Definition cosd (x : R) : R := cos (x * PI / 180).

(** getTransMatrix, mi 240-278; [trsf] is the list built in mi 231-235, [star] is
    unit == "*".  With nine numbers and no star, mi 254 keeps a list and mi 257 adds a
    tuple to it: TypeError. *)
Definition get_trans_matrix (trsf : list R) (star : bool) : res matrix :=
  let u := fun x => if star then cosd x else x in
  match trsf with
  | [o1; o2; o3] => Ok (Mat (V 1 0 0) (V 0 1 0) (V 0 0 1) (V (o1 * scale) (o2 * scale) (o3 * scale)))
  | [o1; o2; o3; b1; b2; b3; b4; b5; b6] =>
      if star then
        let x := V (u b1) (u b2) (u b3) in
        let y := V (u b4) (u b5) (u b6) in
        Ok (Mat x y (cross x y) (V (o1 * scale) (o2 * scale) (o3 * scale)))
      else Err TypeError
  | o1 :: o2 :: o3 :: b1 :: b2 :: b3 :: b4 :: b5 :: b6 :: b7 :: b8 :: b9 :: _ =>
      Ok (Mat (V (u b1) (u b2) (u b3)) (V (u b4) (u b5) (u b6)) (V (u b7) (u b8) (u b9))
              (V (o1 * scale) (o2 * scale) (o3 * scale)))
  | _ => Err IndexError
  end.

(** The transform methods: ob 212-218 (Plane), 276-279 (Sphere), 302-306 (Cylinder),
    351-361 (Cone), 406-412 (EllipticCone), 452-458 (Hyperboloid), 491-497 (Ellipsoid),
    522-528 (EllipticCylinder), 570-576 (HyperbolicCylinder), 613-617 (Paraboloid),
    664-668 (Torus), 698-704 (Box, which also translates the edge vectors). *)
Definition transform (M : matrix) (s : prim) : res prim :=
  match s with
  | PPlane n d =>
      do w <- normalize (rotv M n);
      Ok (PPlane w (dot (mult_vec M (vscale d n)) w))
  | PSphere c r => Ok (PSphere (mult_vec M c) r)
  | PCyl p v r => Ok (PCyl (mult_vec M p) (rotv M v) r)
  | PCan p v r => Ok (PCan (mult_vec M p) (rotv M v) r)
  | PCone p v t b => Ok (PCone (mult_vec M p) (rotv M v) t b)
  | PTCone p v a b => Ok (PTCone (mult_vec M p) (rotv M v) a b)
  | PECone p v ra r0 r1 a0 a1 b => Ok (PECone (mult_vec M p) (rotv M v) ra r0 r1 (rotv M a0) (rotv M a1) b)
  | PHyper c v r0 r1 a0 a1 b => Ok (PHyper (mult_vec M c) (rotv M v) r0 r1 (rotv M a0) (rotv M a1) b)
  | PEllip c v r0 r1 a0 a1 => Ok (PEllip (mult_vec M c) (rotv M v) r0 r1 (rotv M a0) (rotv M a1))
  | PECyl c v r0 r1 a0 a1 => Ok (PECyl (mult_vec M c) (rotv M v) r0 r1 (rotv M a0) (rotv M a1))
  | PECan c v r0 r1 a0 a1 => Ok (PECan (mult_vec M c) (rotv M v) r0 r1 (rotv M a0) (rotv M a1))
  | PHCyl c v r0 r1 a0 a1 => Ok (PHCyl (mult_vec M c) (rotv M v) r0 r1 (rotv M a0) (rotv M a1))
  | PPara c v f => Ok (PPara (mult_vec M c) (rotv M v) f)
  | PTorus c v a b d => Ok (PTorus (mult_vec M c) (rotv M v) a b d)
  | PBox p v1 v2 v3 => Ok (PBox (mult_vec M p) (mult_vec M v1) (mult_vec M v2) (mult_vec M v3))
  end.

(** ** Cards *)
Definition X_vec := V 1 0 0.
Definition Y_vec := V 0 1 0.
Definition Z_vec := V 0 0 1.

(** Local variables that outlive a card, mi 505: the vector [p] with the position of
    the surface whose parameters share that object (None: nobody, or the zero vector),
    and [R]. *)
Record locals := Loc { lp : option (vec * option nat); lR : option R }.

(** What a card gives: the parameters (Some None for params = [], which happens for some
    cards X, Y, Z), None when Stype is None, and the surface whose position is
    multiplied by [scale] behind its back (mi 787, 819, 851). *)
Record reading := Read { rd_loc : locals; rd_prim : option (option prim); rd_hit : option nat }.

(** mi 592-656: cones with 3 (K) or 5 (K/) numbers; [sht] is the optional sheet *)
Definition cone_read (lo : locals) (k : nat) (p v : vec) (t2 : R) (sht : option R) : res reading :=
  do t <- rsqrt t2;
  let dbl := match sht with None => true | Some s => if Req_EM_T s 0 then true else false end in
  let neg := match sht with None => false | Some s => rltb s 0 end in
  let q := vscale scale p in
  Ok (Read (Loc (Some (q, Some k)) (lR lo)) (Some (Some (PCone q (if neg then vopp v else v) t dbl))) None).
(** mi 557-590: [p] is the object [origin] for the centred cylinders *)
Definition cyl_read (lo : locals) (k : nat) (shared : bool) (p v : vec) (r : R) : reading :=
  let q := vscale scale p in
  Read (Loc (Some (q, if shared then Some k else None)) (Some (r * scale))) (Some (Some (PCyl q v (r * scale)))) None.
(** mi 658-676 *)
Definition torus_read (lo : locals) (k : nat) (p v : vec) (a b c : R) : reading :=
  let q := vscale scale p in
  Read (Loc (Some (q, Some k)) (lR lo)) (Some (Some (PTorus q v (a * scale) (b * scale) (c * scale)))) None.
Definition eps12 : R := 1 / 10 ^ 12.
(** mi 761-855: the cards X, Y, Z; [v] is the axis *)
Definition points_read (lo : locals) (k : nat) (v : vec) (ps : list R) : res reading :=
  match ps with
  | [x; _] => Ok (Read lo (Some (Some (PPlane v (x * scale)))) None)
  | [x1; r1; x2; r2] =>
      if rltb eps12 (Rabs (r1 - r2)) then
        do t <- rdiv (r2 - r1) (x2 - x1);
        do q <- rdiv r1 t;
        let x := x1 - q in
        if rltb 0 ((x1 - x) * (x2 - x)) then
          let p := vscale scale (vscale x v) in
          Ok (Read (Loc (Some (p, Some k)) (lR lo))
                   (Some (Some (PCone p (if rltb 0 (x1 - x) then v else vopp v) (Rabs t) false))) None)
        else Ok (Read lo (Some None) None)
      else if rltb (Rabs r1) eps12 then
        Ok (Read lo (Some (if rltb (Rabs (x1 - x2)) eps12 then Some (PPlane v (x1 * scale)) else None)) None)
      else
        match lp lo, lR lo with
        | Some (p, own), Some r =>
            Ok (Read (Loc (Some (vscale scale p, own)) (Some (r * scale))) (Some (Some (PCyl vzero v r1))) own)
        | _, _ => Err UnboundLocal
        end
  | _ => Ok (Read lo None None)
  end.
Definition keep (lo : locals) (s : prim) : res reading := Ok (Read lo (Some (Some s)) None).
Definition with_p (lo : locals) (k : nat) (p : vec) (s : prim) : res reading :=
  Ok (Read (Loc (Some (p, Some k)) (lR lo)) (Some (Some s)) None).

(** mi 507-936, one card; [k] is its position among the surfaces *)
Definition read_card (lo : locals) (k : nat) (typ : string) (ps : list R) : res reading :=
  match typ, ps with
  | "P", [a; b; c; d] => keep lo (PPlane (V a b c) (d * scale))
  | "P", x1 :: y1 :: z1 :: x2 :: y2 :: z2 :: x3 :: y3 :: z3 :: _ =>
      (* mi 519-524; the code of points_to_coeffs, mi 969-994, is the one of GEOUNED *)
      do c <- points_to_coeffs (V x1 y1 z1) (V x2 y2 z2) (V x3 y3 z3);
      keep lo (PPlane (fst c) (snd c * scale))
  | "PX", d :: _ => keep lo (PPlane X_vec (d * scale))
  | "PY", d :: _ => keep lo (PPlane Y_vec (d * scale))
  | "PZ", d :: _ => keep lo (PPlane Z_vec (d * scale))
  | "S", a :: b :: c :: r :: _ | "SPH", a :: b :: c :: r :: _ => keep lo (PSphere (vscale scale (V a b c)) (r * scale))
  | "SX", a :: r :: _ => keep lo (PSphere (V (a * scale) 0 0) (r * scale))
  | "SY", a :: r :: _ => keep lo (PSphere (V 0 (a * scale) 0) (r * scale))
  | "SZ", a :: r :: _ => keep lo (PSphere (V 0 0 (a * scale)) (r * scale))
  | "SO", r :: _ => keep lo (PSphere vzero (r * scale))
  | "CX", r :: _ => Ok (cyl_read lo k false vzero X_vec r)
  | "CY", r :: _ => Ok (cyl_read lo k false vzero Y_vec r)
  | "CZ", r :: _ => Ok (cyl_read lo k false vzero Z_vec r)
  | "C/X", a :: b :: r :: _ => Ok (cyl_read lo k true (V 0 a b) X_vec r)
  | "C/Y", a :: b :: r :: _ => Ok (cyl_read lo k true (V a 0 b) Y_vec r)
  | "C/Z", a :: b :: r :: _ => Ok (cyl_read lo k true (V a b 0) Z_vec r)
  | "KX", [x; t2; s] => cone_read lo k (V x 0 0) X_vec t2 (Some s)
  | "KX", x :: t2 :: _ => cone_read lo k (V x 0 0) X_vec t2 None
  | "KY", [x; t2; s] => cone_read lo k (V 0 x 0) Y_vec t2 (Some s)
  | "KY", x :: t2 :: _ => cone_read lo k (V 0 x 0) Y_vec t2 None
  | "KZ", [x; t2; s] => cone_read lo k (V 0 0 x) Z_vec t2 (Some s)
  | "KZ", x :: t2 :: _ => cone_read lo k (V 0 0 x) Z_vec t2 None
  | "K/X", [a; b; c; t2; s] => cone_read lo k (V a b c) X_vec t2 (Some s)
  | "K/X", a :: b :: c :: t2 :: _ => cone_read lo k (V a b c) X_vec t2 None
  | "K/Y", [a; b; c; t2; s] => cone_read lo k (V a b c) Y_vec t2 (Some s)
  | "K/Y", a :: b :: c :: t2 :: _ => cone_read lo k (V a b c) Y_vec t2 None
  | "K/Z", [a; b; c; t2; s] => cone_read lo k (V a b c) Z_vec t2 (Some s)
  | "K/Z", a :: b :: c :: t2 :: _ => cone_read lo k (V a b c) Z_vec t2 None
  | "TX", [a; b; c; ra; rb; rc] => Ok (torus_read lo k (V a b c) X_vec ra rb rc)
  | "TY", [a; b; c; ra; rb; rc] => Ok (torus_read lo k (V a b c) Y_vec ra rb rc)
  | "TZ", [a; b; c; ra; rb; rc] => Ok (torus_read lo k (V a b c) Z_vec ra rb rc)
  | "X", _ => points_read lo k X_vec ps
  | "Y", _ => points_read lo k Y_vec ps
  | "Z", _ => points_read lo k Z_vec ps
  | "BOX", a :: b :: c :: d :: e :: f :: g :: h :: i :: j :: m :: n :: _ =>
      with_p lo k (vscale scale (V a b c))
        (PBox (vscale scale (V a b c)) (vscale scale (V d e f)) (vscale scale (V g h i)) (vscale scale (V j m n)))
  | "RPP", x0 :: x1 :: y0 :: y1 :: z0 :: z1 :: _ =>
      let p := vscale scale (V x0 y0 z0) in
      with_p lo k p (PBox p (vscale scale (V (x1 - x0) 0 0)) (vscale scale (V 0 (y1 - y0) 0)) (vscale scale (V 0 0 (z1 - z0))))
  | "RCC", a :: b :: c :: d :: e :: f :: r :: _ =>
      let p := vscale scale (V a b c) in
      Ok (Read (Loc (Some (p, Some k)) (Some (r * scale))) (Some (Some (PCan p (vscale scale (V d e f)) (r * scale)))) None)
  | "REC", a :: b :: c :: d :: e :: f :: g :: h :: i :: rest =>
      let p := vscale scale (V a b c) in
      let v := V d e f in
      let maj := V g h i in
      do ma <- normalize maj;
      do mb <- match rest with
               | [l; m; n] => do u <- normalize (V l m n); Ok (u, vlen (V l m n))
               | r :: _ => do _ <- rdiv 1 (vlen v); Ok (vscale (/ vlen v) (cross v ma), r)
               | [] => Err IndexError
               end;
      let '(minax, minr) := mb in
      let majr := vlen maj * scale in
      let minr := minr * scale in
      (* mi 920-922: the smaller radius first *)
      if rltb majr minr then with_p lo k p (PECan p (vscale scale v) majr minr ma minax)
      else with_p lo k p (PECan p (vscale scale v) minr majr minax ma)
  | "TRC", a :: b :: c :: d :: e :: f :: r1 :: r2 :: _ =>
      let p := vscale scale (V a b c) in
      with_p lo k p (PTCone p (vscale scale (V d e f)) (r1 * scale) (r2 * scale))
  | _, _ => Err ValueError
  end%string.

(** ** All the cards *)
(** position of the surface multiplied by [scale] (only for the surfaces that keep [p]) *)
Definition scale_pos (s : prim) : prim :=
  match s with
  | PCyl p v r => PCyl (vscale scale p) v r
  | PCan p v r => PCan (vscale scale p) v r
  | PCone p v t b => PCone (vscale scale p) v t b
  | PTCone p v a b => PTCone (vscale scale p) v a b
  | PECan p v r0 r1 a0 a1 => PECan (vscale scale p) v r0 r1 a0 a1
  | PTorus p v a b c => PTorus (vscale scale p) v a b c
  | PBox p v1 v2 v3 => PBox (vscale scale p) v1 v2 v3
  | s => s
  end.
Fixpoint update_nth {A} (f : A -> A) (n : nat) (l : list A) : list A :=
  match l, n with
  | [], _ => []
  | a :: l, O => f a :: l
  | a :: l, S n => a :: update_nth f n l
  end.
(** an entry of the dictionary: None when the card gave nothing ("Undefined", mi 962-964),
    Some None for params = [] *)
Definition entry := option (option prim).
Definition hit (h : option nat) (acc : list entry) : list entry :=
  match h with
  | None => acc
  | Some n => update_nth (option_map (option_map scale_pos)) n acc
  end.
(** the transformation of the constructor; unpacking [] raises ValueError.  The new
    parameters do not share [p] any more. *)
Definition apply_tr (tr : option matrix) (e : entry) : res entry :=
  match tr, e with
  | None, _ | _, None => Ok e
  | Some M, Some (Some s) => do s' <- transform M s; Ok (Some (Some s'))
  | Some _, Some None => Err ValueError
  end.
Definition unshare (tr : option matrix) (k : nat) (lo : locals) : locals :=
  match tr, lp lo with
  | Some _, Some (p, Some j) => if Nat.eqb j k then Loc (Some (p, None)) (lR lo) else lo
  | _, _ => lo
  end.
(** mi 505-966 *)
Fixpoint primitives (lo : locals) (acc : list entry) (cards : list (string * list R * option matrix)) : res (list entry) :=
  match cards with
  | [] => Ok acc
  | (typ, ps, tr) :: cards =>
      let k := List.length acc in
      do r <- read_card lo k typ ps;
      do e <- apply_tr tr (rd_prim r);
      primitives (unshare tr k (rd_loc r)) (hit (rd_hit r) acc ++ [e]) cards
  end.
Definition get_primitive_surfaces (cards : list (string * list R * option matrix)) : res (list entry) :=
  primitives (Loc None None) [] cards.
