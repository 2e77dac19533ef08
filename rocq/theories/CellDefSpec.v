(** Specification for C51: which places a piece of a solid occupies, said with its
    faces.  Only the records of CellDef.v are used, none of its functions. *)
From Verif Require Import Prelude BoolSpec SurfDict CellDef.

(** The surfaces of a dictionary. *)
Definition registered_in {G} (d : sdict G) (s : surf G) : Prop := exists k, In s (group d k).

Section Spec.
  Context {G : Type}.
  Variable cls : G -> key.
  (** [side g]: the place we look at is on the positive side of a surface with this
      geometry (outside a cylinder, cone, sphere, torus; where the axis points for a
      plane). *)
  Variable side : G -> bool.
  (** the number of the registered surface that stands for a geometry *)
  Variable number : G -> Z -> Prop.

  (** A face that is not degenerate and has a side; [pos]: the matter is on the
      positive side of its surface. *)
  Definition matter (inv : bool) (f : face G) (pos : bool) : Prop :=
    f_small f = false /\
    match f_orient f with
    | Forward => pos = inv
    | Reversed => pos = negb inv
    | NoOrientation => False
    end.

  (** The condition of a face. *)
  Definition face_holds (inv : bool) (f : face G) : Prop :=
    forall pos g, matter inv f pos -> f_geo f = Some g ->
    match cls g with
    | Tor =>
        let t := f_torus f in
        let pos := xorb pos (t_inner t) in
        side g = pos /\
        (match t_v t with Some (a, ins) => pos = true -> side a = negb ins | None => True end) /\
        (match t_u t with
         | None => True
         | Some (p, None) => side p = true
         | Some (p, Some q) => side p = true \/ side q = true
         end)
    | _ => side g = pos
    end.

  (** A concave face of a cylinder, cone or sphere, with the additional plane [p]
      whose positive ([sg] true) or negative side holds the face. *)
  Definition concave (inv : bool) (f : face G) (g p : G) (sg : bool) : Prop :=
    matter inv f true /\ f_geo f = Some g /\ (cls g = Cyl \/ cls g = Cone \/ cls g = Sph) /\ f_extra f = Some (p, sg).

  (** For every surface with concave faces: the place is on the right side of the
      additional plane of one of them. *)
  Definition extra_holds (inv : bool) (fs : list (face G)) : Prop :=
    forall f g p sg n, In f fs -> concave inv f g p sg -> number g n ->
    exists f' g' p' sg', In f' fs /\ concave inv f' g' p' sg' /\ number g' n /\ side p' = sg'.

  Definition piece_holds (p : piece G) : Prop :=
    (forall f, In f (p_faces p) -> face_holds (p_inv p) f) /\ extra_holds (p_inv p) (p_faces p).

  (** A piece with at least one face that counts. *)
  Definition has_face (p : piece G) : Prop :=
    exists f pos, In f (p_faces p) /\ matter (p_inv p) f pos.
End Spec.

Section Hyp.
  Context {G : Type}.
  Variable cls : G -> key.
  Variable same : G -> G -> bool.
  Variable opp opp_x : G -> G -> bool.

  (** The geometries of a face. *)
  Definition geometry (f : face G) (g : G) : Prop :=
    f_geo f = Some g \/ (exists sg, f_extra f = Some (g, sg)) \/
    (exists q, t_u (f_torus f) = Some (g, q)) \/ (exists p, t_u (f_torus f) = Some (p, Some g)) \/
    (exists b, t_v (f_torus f) = Some (g, b)).
  Definition plane (g : G) : Prop := cls g = PX \/ cls g = PY \/ cls g = PZ \/ cls g = PP.
  (** The additional surfaces are of the right kinds. *)
  Definition kinds_ok (f : face G) : Prop :=
    (forall p sg, f_extra f = Some (p, sg) -> plane p) /\
    (forall p q, t_u (f_torus f) = Some (p, q) -> plane p /\ forall q', q = Some q' -> plane q').

  (** At the place we look at, two of the geometries [P] that the code takes for the
      same surface have their sides at the same place, or exchanged for planes with
      opposite axes. *)
  Definition faithful (P : G -> Prop) (side : G -> bool) : Prop :=
    forall g g', P g -> P g' -> cls g = cls g' -> (g = g' \/ same g g' = true) ->
    (~ plane g -> side g = side g') /\
    (plane g -> side g = (if opp g g' then negb (side g') else side g') /\
                side g = (if opp_x g g' then negb (side g') else side g')).

  (** The number of the first registered surface found the same. *)
  Definition number_in (d : sdict G) (g : G) (n : Z) : Prop :=
    exists l1 s l2, group d (cls g) = l1 ++ s :: l2 /\ same g (geo s) = true /\ index s = n /\
      forall t, In t l1 -> same g (geo t) = false.

  (** The surfaces of the faces have been registered: needed for all but planes and
      convex cylinders. *)
  Definition found (d : sdict G) (inv : bool) (f : face G) : Prop :=
    forall pos, matter inv f pos -> exists g, f_geo f = Some g /\
      (plane g \/ cls g = Cyl /\ pos = false \/ exists n, number_in d g n) /\
      (cls g = Tor -> t_aligned (f_torus f) = true /\ 0 <= t_group (f_torus f)).
  (** The torus faces put in one group by SolidGu have one surface, one side and one
      merged range of parameters. *)
  Definition groups_ok (d : sdict G) (p : piece G) : Prop :=
    forall f f' pos pos' g g', In f (p_faces p) -> In f' (p_faces p) ->
      matter (p_inv p) f pos -> matter (p_inv p) f' pos' -> f_geo f = Some g -> f_geo f' = Some g' ->
      cls g = Tor -> cls g' = Tor -> t_group (f_torus f) = t_group (f_torus f') ->
      f_torus f = f_torus f' /\ pos = pos' /\ forall n, number_in d g n -> number_in d g' n.
End Hyp.
