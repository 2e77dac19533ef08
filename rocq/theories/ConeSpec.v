(** Specification for C55: what the cells must be when the cards of cones that are not
    along X, Y or Z have two sheets.  Only records of the model are used. *)
From Verif Require Import Prelude BoolSpec SurfDict CellDefSpec ConePlanes.

Section Spec.
  Context {G : Type}.
  Variable cls : G -> key.
  Variable aligned : G -> bool.
  Variable apex : G -> G.

  Definition tilted (g : G) : Prop := cls g = Cone /\ aligned g = false.

  (** At a place: [card g] is true if the place is on the positive side of the surface that
      is written, [real g] if it is on the positive side of the surface of the solid.  They
      differ for tilted cones: written with both sheets, so that the positive side of the
      real cone is the positive side of the written one, or the side of the apex plane away from
      the sheet. *)
  Definition two_sheets (card real : G -> bool) : Prop :=
    (forall g, tilted g -> real g = card g || negb (card (apex g))) /\
    (forall g, ~ tilted g -> real g = card g).

  (** The number [z] (with the sign of the side) is one of a tilted cone. *)
  Definition tilted_number (d : sdict G) (z : Z) : Prop :=
    exists s, registered_in d s /\ index s = Z.abs z /\ tilted (geo s).

  (** Recorded for the cell when the solids were translated: for a solid its own cones, for
      a void the cones of the cells in its box, with the opposite sign. *)
  Definition recorded (ci : cinfo) (m : mcell) (z : Z) : Prop :=
    if m_void m then exists l i cs, m_info m = Some (Some l) /\ In i l /\ In (i, cs) ci /\ In (- z) cs
    else exists i cs, m_id m = Some i /\ In (i, cs) ci /\ In z cs.

  (** The cell [m'] with its cards is the cell [m] with the surfaces of the solids. *)
  Definition same_cell (card real : G -> bool) (d : sdict G) (m m' : mcell) : Prop :=
    match m_def m, m_def m' with
    | Some n, Some n' => forall v w,
        (forall s, registered_in d s -> v (index s) = card (geo s)) ->
        (forall s, registered_in d s -> w (index s) = real (geo s)) ->
        eval v n' = eval w n
    | None, None => True
    | _, _ => False
    end.
End Spec.
