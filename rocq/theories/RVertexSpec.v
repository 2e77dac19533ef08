(** Specification for the box of a one-level part (C38): the conditions on the planes under
    which the points where planes meet give the box. *)
From Verif Require Import Prelude BoolSpec Vec3 Prim RBox RBoxSpec RPlanes RPlaneSpec.
Open Scope R_scope.

(** the six faces of a box, as planes *)
Definition faces (b : bbox) : list pl :=
  [ PL (V (xmin b) 0 0) ex; PL (V (xmax b) 0 0) ex; PL (V 0 (ymin b) 0) ey; PL (V 0 (ymax b) 0) ey;
    PL (V 0 0 (zmin b)) ez; PL (V 0 0 (zmax b)) ez ].
Definition on (p : pl) (x : vec) : Prop := pl_dist p x = 0.
(** three planes that meet in exactly one point *)
Definition indep (p q r : pl) : Prop := dot (cross (pl_axis p) (pl_axis q)) (pl_axis r) <> 0.
(** [v] is a point of the box where three planes meet, planes of the part or faces *)
Definition corner (O : bbox) (ps : list pl) (v : vec) : Prop :=
  in_box O v /\ exists p q r, In p (ps ++ faces O) /\ In q (ps ++ faces O) /\ In r (ps ++ faces O) /\
    indep p q r /\ on p v /\ on q v /\ on r v.
(** these points are well separated *)
Definition spread (O : bbox) (ps : list pl) : Prop :=
  forall v w, corner O ps v -> corner O ps w -> v = w \/ 1 / 10 <= vlen (vsub v w).
(** no line where two planes meet crosses the box at an edge of it *)
Definition edge_free (O : bbox) (ps : list pl) : Prop :=
  forall p q f g v, In p ps -> In q ps -> In f (faces O) -> In g (faces O) -> f <> g ->
  indep p q f -> indep p q g -> in_box O v -> on p v -> on q v -> on f v -> on g v -> False.
(** the vertices of a box *)
Definition vertex (b : bbox) (v : vec) : Prop :=
  (vx v = xmin b \/ vx v = xmax b) /\ (vy v = ymin b \/ vy v = ymax b) /\ (vz v = zmin b \/ vz v = zmax b).
(** the vertices of the box are not near a plane *)
Definition clear (U : bbox) (tol : R) (ps : list pl) : Prop :=
  forall v p, vertex U v -> In p ps -> tol <= Rabs (pl_dist p v).
(** a box with some extent in each direction; a box in another one *)
Definition solid_box (b : bbox) : Prop := xmin b < xmax b /\ ymin b < ymax b /\ zmin b < zmax b.
Definition box_in (a b : bbox) : Prop :=
  xmin b <= xmin a /\ xmax a <= xmax b /\ ymin b <= ymin a /\ ymax a <= ymax b /\ zmin b <= zmin a /\ zmax a <= zmax b.
(** a set with no point in the box, or with an extent of more than 1e-12 in each direction *)
Definition thick (O : bbox) (A : vec -> Prop) : Prop :=
  (forall x, in_box O x -> ~ A x) \/
  forall f, In f [vx; vy; vz] -> exists a b, in_box O a /\ in_box O b /\ A a /\ A b /\ / 10 ^ 12 < f b - f a.
(** the closed convex set of a list of signed planes: all on the given side, or on the plane *)
Definition closed_side (planes : list (Z * pl)) (z : Z) (x : vec) : Prop :=
  match dget (Z.abs z) planes with
  | Some p => if (z <? 0)%Z then pl_dist p x <= 0 else 0 <= pl_dist p x
  | None => False
  end.
Definition convex_part (planes : list (Z * pl)) (op : bop) (l : list Z) (x : vec) : Prop :=
  forall z, In z l -> closed_side planes (match op with AND => z | OR => - z end)%Z x.
(** the convex set (an intersection, or the complement of a union) is in the inner of the box
    or has a vertex of the universe, or no three planes meet in a point *)
Definition within_reach (O U : bbox) (planes : list (Z * pl)) (op : bop) (l : list Z) (ps : list pl) : Prop :=
  (forall x f, in_box O x -> convex_part planes op l x -> In f (faces O) -> ~ on f x) \/
  (exists v, vertex U v /\ convex_part planes op l v) \/
  (forall p q r, In p ps -> In q ps -> In r ps -> ~ indep p q r).
(** the planes of the surfaces of a list *)
Definition planes_of (planes : list (Z * pl)) (l : list Z) : list pl :=
  flat_map (fun z => match dget (Z.abs z) planes with Some p => [p] | None => [] end) l.
(** all the conditions, for a part: a constant, or literals joined with [op] *)
Definition good_part (tol : R) (O U : bbox) (planes : list (Z * pl)) (n : node) : Prop :=
  match n with
  | Cst _ _ _ => True
  | Lit _ => False
  | Seq op lev c => lev = 0%Z /\ exists l, c = map Lit l /\ ~ In 0%Z l /\
      let ps := planes_of planes l in
      (forall z, In z l -> dget (Z.abs z) planes <> None) /\
      spread O ps /\ edge_free O ps /\ clear U tol ps /\
      within_reach O U planes op l ps /\
      thick O (fun x => eval (plane_sides planes x) n = true) /\ thick O (fun x => eval (plane_sides planes x) n = false)
  end.
(** what the box of a cell should say: Forward, the points of the cell in [O] are in the box
    (no box: there are none); Reversed, the other points of [O] are in the box (no box: there
    are none).  Points on a surface of the cell are left out. *)
Definition covers (surfaces : Z -> option prim) (O : bbox) (m : mybox) (n : node) : Prop :=
  forall x v, in_box O x -> sides surfaces n x v ->
  match mb_or m, mb_box m with
  | Fwd, Some b => eval v n = true -> in_box b x
  | Fwd, None => eval v n = false
  | Rev, Some b => eval v n = false -> in_box b x
  | Rev, None => eval v n = true
  end.
