(** C38: the boxes of GEOReverse contain the cells. *)
From Verif Require Import Prelude BoolSpec BoolSeq BoolProofs RBool Vec3 Prim PrimSpec PrimProofs CardsProofs RBox RBoxSpec RBoxProofs RPlanes RPlaneSpec RPlaneGeo RPlaneDefProofs RPlaneDefProofs2 RPlaneQuad.
Open Scope R_scope.

(** ** the boxes of parts *)
(** intersection and union of two boxes, for every orientation *)
Theorem C38_intersection U s t (A B : vec -> Prop) : (forall x, A x \/ ~ A x) -> (forall x, B x \/ ~ B x) ->
  bounds U s A -> bounds U t B -> bounds U (box_mult s t) (fun x => A x /\ B x).
Proof. apply mult_bounds. Qed.
Theorem C38_union U s t (A B : vec -> Prop) : (forall x, A x \/ ~ A x) -> (forall x, B x \/ ~ B x) ->
  bounds U s A -> bounds U t B -> bounds U (box_add s t) (fun x => A x \/ B x).
Proof. apply add_bounds. Qed.
Definition U0 := BB (-1000) (-1000) (-1000) 1000 1000 1000.
Definition B0 := BB (-5) (-5) (-5) 5 5 5.
Definition ball5 (x : vec) : Prop := dot x x < 25.
Lemma ball5_in x : ball5 x -> in_box B0 x.
Proof. unfold ball5, in_box, B0, dot; cbn. intros H. repeat split; nra. Qed.
Example C38_intersection_ex : bounds U0 (MB (Some B0) Fwd) ball5 /\ bounds U0 (MB (Some B0) Rev) (fun x => ~ ball5 x) /\
  (forall x, ball5 x \/ ~ ball5 x).
Proof.
  split; [|split].
  - intros x _. exact (ball5_in x).
  - intros x _ N. cbn. apply ball5_in. destruct (Rlt_dec (dot x x) 25); [exact r|now elim N].
  - intros x. unfold ball5. destruct (Rlt_dec (dot x x) 25); auto.
Qed.
(** every definition, given that the boxes of its one-level parts are right; the solid from
    which the cell is cut has all of the cell that is in the universe box *)
Theorem C38_definition U side comp k n m : 0 <= k -> get_bound_box comp k n = Ok m ->
  (forall p b, In p (simple_parts n) -> comp p = Ok b -> bounds U b (fun x => eval (side x) p = true)) ->
  bounds U m (fun x => eval (side x) n = true).
Proof. intros _. apply get_bound_box_bounds. Qed.
Theorem C38_solid U m (A : vec -> Prop) : bounds U m A -> forall b, make_box U m = Some b -> forall x, in_box U x -> A x -> in_box b x.
Proof.
  intros H b M x XU AX. specialize (H x XU). unfold make_box in M. destruct (_ || _ || _)%bool in M; [discriminate|]. injection M as <-.
  destruct (mb_or m), (mb_box m); tauto.
Qed.
(** a box is lost only if it is flat *)
Theorem C38_solid_none U m : make_box U m = None -> (forall b, mb_or m = Fwd -> mb_box m = Some b -> 
    xmax b - xmin b >= / 10 ^ 6 /\ ymax b - ymin b >= / 10 ^ 6 /\ zmax b - zmin b >= / 10 ^ 6) ->
  (xmax U - xmin U < / 10 ^ 6 \/ ymax U - ymin U < / 10 ^ 6 \/ zmax U - zmin U < / 10 ^ 6).
Proof.
  unfold make_box. intros H F. destruct (mb_or m) eqn:O, (mb_box m) as [b|] eqn:B.
  - destruct (F b eq_refl eq_refl) as (F1 & F2 & F3).
    assert (X : forall a, a >= / 10 ^ 6 -> rltb a (/ 10 ^ 6) = false) by (intros a Ha; apply rltb_false; lra). rewrite !X in H by assumption. discriminate.
  - destruct (rltb _ _) eqn:X1 in H; [apply rltb_true in X1; auto|]. destruct (rltb _ _) eqn:X2 in H; [apply rltb_true in X2; auto|]. destruct (rltb _ _) eqn:X3 in H; [apply rltb_true in X3; auto|discriminate].
  - destruct (rltb _ _) eqn:X1 in H; [apply rltb_true in X1; auto|]. destruct (rltb _ _) eqn:X2 in H; [apply rltb_true in X2; auto|]. destruct (rltb _ _) eqn:X3 in H; [apply rltb_true in X3; auto|discriminate].
  - destruct (rltb _ _) eqn:X1 in H; [apply rltb_true in X1; auto|]. destruct (rltb _ _) eqn:X2 in H; [apply rltb_true in X2; auto|]. destruct (rltb _ _) eqn:X3 in H; [apply rltb_true in X3; auto|discriminate].
Qed.
(** (-1 2) : 3 with the sphere 1 in [B0], the half space 2, no box for 3 *)
Definition ex_side (x : vec) : point := fun z =>
  if (z =? 1)%Z then rltb 25 (dot x x) else if (z =? 2)%Z then rltb 0 (vz x) else rltb 2000 (vx x).
Definition ex_n := Seq OR 1 [Seq AND 0 [Lit (-1); Lit 2]; Seq AND 0 [Lit 3]].
Definition ex_comp (n : node) : res mybox :=
  match n with Seq _ _ [_; _] => Ok (MB (Some (BB (-5) (-5) 0 5 5 5)) Fwd) | _ => Ok (MB None Fwd) end.
Example C38_definition_ex : exists m, get_bound_box ex_comp 1 ex_n = Ok m /\
  (forall p b, In p (simple_parts ex_n) -> ex_comp p = Ok b -> bounds U0 b (fun x => eval (ex_side x) p = true)) /\
  make_box U0 m = Some (BB (-5 - (5 - -5) * 1) (-5 - (5 - -5) * 1) (0 - (5 - 0) * 1) (5 + (5 - -5) * 1) (5 + (5 - -5) * 1) (5 + (5 - 0) * 1)).
Proof.
  eexists. split; [unfold get_bound_box; cbn -[rltb enlarge_box]; reflexivity|]. assert (R1 : rltb 0 1 = true) by (apply rltb_true; lra). rewrite R1. split.
  - intros p b I C x XU. cbn [simple_parts ex_n] in I. cbn in I. destruct I as [<-|[<-|[]]]; cbn in C; injection C as <-; cbn.
    + rewrite andb_true_r, andb_true_iff, negb_true_iff. unfold ex_side; cbn. rewrite rltb_false, rltb_true. intros (A & B). unfold in_box, dot in *; cbn in *. repeat split; nra.
    + rewrite andb_true_r. unfold ex_side; cbn. rewrite rltb_true. unfold in_box, U0 in XU; cbn in XU. lra.
  - unfold make_box, enlarge_box; cbn [mb_or mb_box xmin ymin zmin xmax ymax zmax].
    assert (X : forall a, 1 <= a -> rltb a (/ 10 ^ 6) = false). { intros a Ha. apply rltb_false. assert (/ 10 ^ 6 <= 1); [|lra]. rewrite <- Rinv_1. apply Rinv_le_contravar; [lra|simpl; lra]. }
    rewrite !X by lra. reflexivity.
Qed.

(** ** planes in the place of the curved surfaces *)
(** Forward: the region of the planes contains the cell; Reversed: it is in the cell.
    The cell has no constant part, its planes have unit normals, its curved surfaces are of
    a kind with planes and occur with one sign; the point is not on a surface. *)
Theorem C38_planes_forward surfaces signed n qs fuel r : plain n -> (forall z, In z signed <-> In z (lits n)) ->
  (forall z s, In z (lits n) -> surfaces (Z.abs z) = Some s -> unit_plane s \/ (proper s /\ boxable s)) ->
  (forall z s, In z (lits n) -> In (- z)%Z (lits n) -> surfaces (Z.abs z) = Some s -> is_plane s) ->
  quadric_to_plane surfaces OFwd signed = Ok qs -> plane_definition fuel OFwd (q_entries qs) n = Ok r ->
  (forall z, In z (lits r) -> dget (Z.abs z) (q_planes qs) <> None) /\
  forall x v, sides surfaces n x v -> eval v n = true -> eval (plane_sides (q_planes qs) x) r = true.
Proof. intros. eapply (planes_conservative surfaces OFwd); eauto. discriminate. Qed.
Theorem C38_planes_reversed surfaces signed n qs fuel r : plain n -> (forall z, In z signed <-> In z (lits n)) ->
  (forall z s, In z (lits n) -> surfaces (Z.abs z) = Some s -> unit_plane s \/ (proper s /\ boxable s)) ->
  (forall z s, In z (lits n) -> In (- z)%Z (lits n) -> surfaces (Z.abs z) = Some s -> is_plane s) ->
  quadric_to_plane surfaces ORev signed = Ok qs -> plane_definition fuel ORev (q_entries qs) n = Ok r ->
  (forall z, In z (lits r) -> dget (Z.abs z) (q_planes qs) <> None) /\
  forall x v, sides surfaces n x v -> eval (plane_sides (q_planes qs) x) r = true -> eval v n = true.
Proof. intros. eapply (planes_conservative surfaces ORev); eauto. discriminate. Qed.

Lemma mk_unit q n : dot n n = 1 -> mk_plane q n = Ok (PL q n).
Proof.
  intros H. unfold mk_plane, normalize. assert (L : vlen n = 1) by (unfold vlen; rewrite H; apply sqrt_1). rewrite L. destruct (Req_EM_T 1 0); [lra|]. cbn [bind].
  do 2 f_equal. apply vec_eq; unfold vscale; cbn; field.
Qed.
Definition six_list (c : vec) (rx ry rz : R) : list pl :=
    [ PL (vadd c (vscale rx ex)) (vopp ex); PL (vsub c (vscale rx ex)) ex;
      PL (vadd c (vscale ry ey)) (vopp ey); PL (vsub c (vscale ry ey)) ey;
      PL (vadd c (vscale rz ez)) (vopp ez); PL (vsub c (vscale rz ez)) ez ].
Lemma six_ok c rx ry rz : six c rx ry rz = Ok (six_list c rx ry rz).
Proof. unfold six. cbn [mapM fst snd]. rewrite !mk_unit by (unfold dot, vopp, ex, ey, ez; cbn; ring). reflexivity. Qed.
Definition ball := PSphere vzero 10.
Definition ground := PPlane (V 0 0 1) 0.
Definition ex_surfs (z : Z) : option prim := if (z =? 1)%Z then Some ball else if (z =? 2)%Z then Some ground else None.
(** half a ball, -1 2: the half of a cube; its complement, 1 : -2 *)
Example C38_planes_forward_ex : exists qs, quadric_to_plane ex_surfs OFwd [-1; 2]%Z = Ok qs /\
  plane_definition 9 OFwd (q_entries qs) (Seq AND 0 [Lit (-1); Lit 2]) = Ok (Seq AND 0 [Lit 2; Lit 3; Lit 4; Lit 5; Lit 6; Lit 7; Lit 8]) /\
  (unit_plane ground /\ proper ball /\ boxable ball) /\
  sides ex_surfs (Seq AND 0 [Lit (-1); Lit 2]) (V 0 0 9) (fun z => (z =? 2)%Z).
Proof.
  eexists. split; [|split; [|split]].
  - unfold quadric_to_plane, foldM, q_step. cbn [ex_surfs Z.abs Z.eqb Pos.eqb ball ground to_planes]. unfold sphere_planes. rewrite six_ok. cbn [bind]. rewrite mk_unit by (unfold dot; cbn; ring). cbn [bind].
    cbn [number six_list map fold_right q_next q_planes q_entries dset]. reflexivity.
  - vm_compute. reflexivity.
  - cbn. repeat split; try lra. unfold vlen. replace (dot (V 0 0 1) (V 0 0 1)) with 1 by (unfold dot; cbn; ring). apply sqrt_1.
  - intros z s [<-|[<-|[]]]; cbn; intros E; injection E as <-; unfold ball, ground, outside, inside, dot, vsub, vzero; cbn; lra.
Qed.
Example C38_planes_reversed_ex : exists qs, quadric_to_plane ex_surfs ORev [1; -2]%Z = Ok qs /\
  plane_definition 9 ORev (q_entries qs) (Seq OR 0 [Lit 1; Lit (-2)]) = Ok (Seq OR 0 [Lit (-2); Lit (-3); Lit (-4); Lit (-5); Lit (-6); Lit (-7); Lit (-8)]) /\
  sides ex_surfs (Seq OR 0 [Lit 1; Lit (-2)]) (V 0 0 11) (fun z => true).
Proof.
  eexists. split; [|split].
  - unfold quadric_to_plane, foldM, q_step. cbn [ex_surfs Z.abs Z.eqb Pos.eqb ball ground to_planes]. unfold sphere_planes. rewrite six_ok. cbn [bind]. rewrite mk_unit by (unfold dot; cbn; ring). cbn [bind].
    cbn [number six_list map fold_right q_next q_planes q_entries dset]. reflexivity.
  - vm_compute. reflexivity.
  - intros z s [<-|[<-|[]]]; cbn; intros E; injection E as <-; unfold ball, ground, outside, inside, dot, vsub, vzero; cbn; lra.
Qed.

(** ** where the planes lose a part of the cell *)
(** with orientation [o], a point of the cell is not in the region of the planes *)
Definition lost (surfaces : Z -> option prim) (o : orient) (signed : list Z) (n : node) : Prop :=
  plain n /\ (forall z, In z signed <-> In z (lits n)) /\ NoDup signed /\
  (forall z s, In z (lits n) -> surfaces (Z.abs z) = Some s -> proper s) /\
  exists qs fuel r x v, quadric_to_plane surfaces o signed = Ok qs /\ plane_definition fuel o (q_entries qs) n = Ok r /\
    sides surfaces n x v /\ eval v n = true /\
    (forall z, In z (lits r) -> dget (Z.abs z) (q_planes qs) <> None) /\ eval (plane_sides (q_planes qs) x) r = false.
Definition only1 (s : prim) (z : Z) : option prim := if (z =? 1)%Z then Some s else None.
Ltac rl := first [rewrite (proj2 (rltb_true _ _)) by lra | rewrite (proj2 (rltb_false _ _)) by lra].
(** the plane 2x = 10 (P 2 0 0 1), positive side: x = 6 is lost, since the plane is put at x = 20 *)
Theorem C38_plane_refuted : lost (only1 (PPlane (V 2 0 0) 10)) OFwd [1%Z] (Seq AND 0 [Lit 1]).
Proof.
  split; [cbn; auto; lia|]. split; [cbn; tauto|]. split; [repeat constructor; cbn; tauto|]. split.
  { intros z s [<-|[]] E. injection E as <-. cbn. intros K. injection K. lra. }
  assert (N : V 2 0 0 <> vzero) by (intros K; injection K; lra).
  eexists. exists 9%nat. do 2 eexists. exists (fun _ => true). split; [|split; [|split; [|split; [|split]]]].
  - unfold quadric_to_plane, foldM, q_step, only1. cbn [Z.abs Z.eqb Pos.eqb]. unfold mk_plane. rewrite (normalize_ok _ N). cbn [bind q_planes q_entries q_next dset map fold_right]. reflexivity.
  - vm_compute. reflexivity.
  - intros z s [<-|[]] E. injection E as <-. instantiate (1 := V 6 0 0). cbn. unfold dot; cbn. lra.
  - reflexivity.
  - intros z [<-|[]]. cbn. discriminate.
  - cbn. rewrite andb_true_r. unfold plane_sides. cbn [q_planes dget Z.eqb Pos.eqb].
    assert (E : mk_plane (vscale 10 (V 2 0 0)) (V 2 0 0) = Ok (PL (vscale 10 (V 2 0 0)) (vscale (/ vlen (V 2 0 0)) (V 2 0 0)))) by (unfold mk_plane; now rewrite (normalize_ok _ N)).
    destruct (pl_pos_side _ _) eqn:K; [|reflexivity]. apply (mk_plane_pos _ _ _ (V 6 0 0) E) in K. unfold dot, vsub, vscale in K; cbn in K. lra.
Qed.
(** an undefined orientation: the sphere is replaced by a cube of 0.85 of its radius *)
Theorem C38_undefined_refuted : lost (only1 ball) OUnd [(-1)%Z] (Seq AND 0 [Lit (-1)]).
Proof.
  split; [cbn; auto; lia|]. split; [cbn; tauto|]. split; [repeat constructor; cbn; tauto|]. split.
  { intros z s [<-|[]] E. injection E as <-. cbn. lra. }
  eexists. exists 9%nat. eexists. exists (V 9 0 0), (fun _ => false). split; [|split; [|split; [|split; [|split]]]].
  - unfold quadric_to_plane, foldM, q_step, only1. cbn [Z.abs Z.eqb Pos.eqb ball to_planes]. unfold sphere_planes. rewrite six_ok. cbn [bind pos_of shrink].
    cbn [number six_list map fold_right q_next q_planes q_entries dset]. reflexivity.
  - vm_compute. reflexivity.
  - intros z s [<-|[]] E. injection E as <-. unfold ball, outside, inside, dot, vsub, vzero; cbn. lra.
  - reflexivity.
  - intros z I. cbn in I. repeat (destruct I as [<-|I]; [cbn; discriminate|]). destruct I.
  - cbn [eval map fold_right]. unfold lit_val, plane_sides; cbn -[Rmult Rplus Rminus f085 pl_pos_side]. 
    unfold pl_pos_side at 1, pl_dist, dot, vsub, vadd, vscale, vopp, vzero, ex, f085; cbn. rl. reflexivity.
Qed.
(** (-1 2) : (1 -3): the set of signed surfaces has -1 and 1; if 1 comes after -1 the planes
    of 1 are those of a cube inside the sphere *)
Definition ball3 := PSphere (V 100 0 0) 5.
Definition surfs3 (z : Z) : option prim :=
  if (z =? 1)%Z then Some ball else if (z =? 2)%Z then Some ground else if (z =? 3)%Z then Some ball3 else None.
Theorem C38_both_signs_refuted : lost surfs3 OFwd [-1; 1; 2; -3]%Z (Seq OR 1 [Seq AND 0 [Lit (-1); Lit 2]; Seq AND 0 [Lit 1; Lit (-3)]]).
Proof.
  split; [cbn; lia|]. split; [cbn; tauto|]. split; [repeat constructor; cbn; lia|]. split.
  { intros z s I E. cbn in I. repeat (destruct I as [<-|I]; [injection E as <-; cbn; try lra; intros K; injection K; lra|]). destruct I. }
  eexists. exists 9%nat. eexists. exists (V 0 0 9), (fun z => negb (z =? 1)%Z). split; [|split; [|split; [|split; [|split]]]].
  - unfold quadric_to_plane, foldM, q_step, surfs3. cbn [Z.abs Z.eqb Pos.eqb ball ball3 ground to_planes]. unfold sphere_planes. rewrite !six_ok. cbn [bind]. rewrite mk_unit by (unfold dot; cbn; ring). cbn [bind pos_of shrink Z.ltb Z.compare].
    cbn [number six_list map fold_right q_next q_planes q_entries dset]. reflexivity.
  - vm_compute. reflexivity.
  - intros z s I E. cbn in I. repeat (destruct I as [<-|I]; [injection E as <-; unfold ball, ball3, ground, outside, inside, dot, vsub, vzero; cbn; lra|]). destruct I.
  - reflexivity.
  - intros z I. cbn in I. repeat (destruct I as [<-|I]; [cbn; discriminate|]). destruct I.
  - apply not_true_is_false. intros K. cbn -[plane_sides] in K. unfold lit_val in K; cbn -[plane_sides] in K.
    assert (S : forall p q, pl_pos_side (V 0 0 9) (PL p q) = rltb 0 (dot q (vsub (V 0 0 9) p))) by reflexivity.
    unfold plane_sides in K; cbn -[pl_pos_side Rmult Rplus Rminus f070] in K. rewrite !S in K. unfold dot, vsub, vadd, vscale, vopp, vzero, ex, ey, ez, f070 in K; cbn in K.
    repeat (revert K; rl; intros K); cbn in K; try discriminate.
Qed.
(** an elliptic torus (TZ 0 0 0 1 0.1 0.5): its two small radii are exchanged *)
Definition ring := PTorus vzero ez 10 1 5.
Lemma aligned_other : aligned ez ex = false /\ aligned ez ey = false /\ aligned ez ez = true.
Proof.
  assert (L : / 10 ^ 5 < 1) by (rewrite <- Rinv_1; apply Rinv_lt_contravar; simpl; lra). assert (P : 0 < / 10 ^ 5) by (apply Rinv_0_lt_compat, pow_lt; lra).
  unfold aligned, dot, ex, ey, ez; cbn [vx vy vz]. replace (0 * 1 + 0 * 0 + 1 * 0) with 0 by ring. replace (0 * 0 + 0 * 1 + 1 * 0) with 0 by ring. replace (0 * 0 + 0 * 0 + 1 * 1) with 1 by ring.
  rewrite Rabs_R0, Rabs_R1, Rminus_0_l, Rminus_eq_0, Rabs_Ropp, Rabs_R1, Rabs_R0. repeat split; first [apply rltb_true | apply rltb_false]; lra.
Qed.
Theorem C38_torus_refuted : lost (only1 ring) OFwd [(-1)%Z] (Seq AND 0 [Lit (-1)]).
Proof.
  split; [cbn; auto; lia|]. split; [cbn; tauto|]. split; [repeat constructor; cbn; tauto|]. split.
  { intros z s [<-|[]] E. injection E as <-. cbn. repeat split; try lra. unfold vlen, dot, ez; cbn. replace (0 * 0 + 0 * 0 + 1 * 1) with 1 by ring. apply sqrt_1. }
  destruct aligned_other as (A1 & A2 & A3).
  eexists. exists 9%nat. eexists. exists (V 14 0 0), (fun _ => false). split; [|split; [|split; [|split; [|split]]]].
  - unfold quadric_to_plane, foldM, q_step, only1. cbn [Z.abs Z.eqb Pos.eqb ring to_planes]. unfold torus_planes. rewrite A1, A2, A3, six_ok. cbn [bind]. unfold hole. cbn [pos_of shrink Z.ltb Z.compare].
    assert (H : rltb 0 ((10 - 1) * f070) = true) by (apply rltb_true; unfold f070; lra). rewrite H. cbn [mapM fst snd]. rewrite !mk_unit by (unfold dot, vopp, ex, ey, ez; cbn; ring). cbn [bind].
    cbn [number six_list map fold_right q_next q_planes q_entries dset]. reflexivity.
  - vm_compute. reflexivity.
  - intros z s [<-|[]] E. injection E as <-. unfold ring. cbn [inside]. unfold height, radial2, PrimSpec.height, dot, vsub, vzero, ez; cbn [vx vy vz].
    replace ((14 - 0) * (14 - 0) + (0 - 0) * (0 - 0) + (0 - 0) * (0 - 0) - ((14 - 0) * 0 + (0 - 0) * 0 + (0 - 0) * 1) * ((14 - 0) * 0 + (0 - 0) * 0 + (0 - 0) * 1)) with (14 * 14) by ring.
    rewrite sqrt_square by lra. lra.
  - reflexivity.
  - intros z I. cbn in I. repeat (destruct I as [<-|I]; [cbn; discriminate|]). destruct I.
  - apply not_true_is_false. intros K. cbn -[plane_sides] in K. unfold lit_val in K; cbn -[plane_sides] in K.
    assert (S : forall p q, pl_pos_side (V 14 0 0) (PL p q) = rltb 0 (dot q (vsub (V 14 0 0) p))) by reflexivity.
    unfold plane_sides in K; cbn -[pl_pos_side Rmult Rplus Rminus f070] in K. rewrite !S in K. unfold dot, vsub, vadd, vscale, vopp, vzero, ex, ey, ez in K; cbn in K.
    repeat rewrite andb_true_iff in K. destruct K as (K & _) || idtac. all: rewrite ?rltb_true in K; lra.
Qed.
(** a truncated cone is taken for a cone whose apex is the centre of its base *)
Definition trc := PTCone vzero (V 0 0 10) 5 2.
Theorem C38_trc_refuted : lost (only1 trc) OFwd [(-1)%Z] (Seq AND 0 [Lit (-1)]).
Proof.
  split; [cbn; auto; lia|]. split; [cbn; tauto|]. split; [repeat constructor; cbn; tauto|]. split.
  { intros z s [<-|[]] E. injection E as <-. cbn. split; [intros K; injection K; lra|lra]. }
  assert (LE : forall a b, dot a a = b ^ 2 -> 0 <= b -> vlen a = b) by (intros a b E P; unfold vlen; rewrite E; apply sqrt_pow2; exact P).
  assert (NO : forall a u, dot a a = 100 -> a = vscale 10 u -> normalize a = Ok u).
  { intros a u E ->. assert (L : vlen (vscale 10 u) = 10) by (apply LE; lra). unfold normalize. rewrite L. destruct (Req_EM_T 10 0); [lra|]. f_equal. apply vec_eq; unfold vscale; cbn; field. }
  assert (OA : orto_axis (V 0 0 10) = Ok (ey, ex)).
  { unfold orto_axis. rewrite (LE (cross (V 0 0 10) ex) 10), (LE (cross (V 0 0 10) ez) 0) by (unfold dot, cross, ex, ez; cbn; lra). destruct (Rlt_dec 10 0); [lra|].
    rewrite (NO _ ey); [|unfold dot, cross, ex; cbn; ring|apply vec_eq; unfold cross, vscale, ex, ey; cbn; ring]. cbn [bind].
    rewrite (NO _ ex); [reflexivity|unfold dot, cross, ey; cbn; ring|apply vec_eq; unfold cross, vscale, ex, ey; cbn; ring]. }
  set (sn := sin (atan 5)). set (cs := cos (atan 5)). assert (CP : 0 < cs) by apply cos_atan_pos. assert (SC : sn = 5 * cs) by apply sin_atan.
  set (nr := fun rho => vopp (vadd (vscale (- sn) (V 0 0 10)) (vscale cs rho))).
  assert (NZ : forall rho, vz rho = 0 -> nr rho <> vzero). { intros rho Hr K. unfold nr, vopp, vadd, vscale, vzero in K; cbn in K. injection K. rewrite Hr. nra. }
  assert (MP : forall q a, a <> vzero -> exists p, mk_plane q a = Ok p) by (intros q a Ha; unfold mk_plane; rewrite (normalize_ok _ Ha); eexists; reflexivity).
  destruct (MP vzero (nr ey) (NZ ey eq_refl)) as (p1 & P1). destruct (MP vzero (nr ex) (NZ ex eq_refl)) as (p2 & P2).
  destruct (MP vzero (nr (vopp ey)) (NZ (vopp ey) ltac:(cbn; ring))) as (p3 & P3). destruct (MP vzero (nr (vopp ex)) (NZ (vopp ex) ltac:(cbn; ring))) as (p4 & P4).
  destruct (MP vzero (V 0 0 10)) as (p5 & P5); [intros K; injection K; lra|].
  eexists. exists 9%nat. eexists. exists (V (9 / 2) 0 (/ 100)), (fun _ => false). split; [|split; [|split; [|split; [|split]]]].
  - unfold quadric_to_plane, foldM, q_step, only1. cbn [Z.abs Z.eqb Pos.eqb trc to_planes]. unfold cone_planes. rewrite OA. cbn [bind pos_of shrink Z.ltb Z.compare mapM]. fold sn cs. fold (nr ey) (nr ex) (nr (vopp ey)) (nr (vopp ex)).
    rewrite P1, P2, P3, P4, P5. cbn [bind app]. destruct (Req_EM_T 2 0); [lra|]. cbn [number map fold_right q_next q_planes q_entries dset]. reflexivity.
  - vm_compute. reflexivity.
  - intros z s [<-|[]] E. injection E as <-. unfold trc. cbn [inside]. unfold dist2, slab, dot, vsub, vzero; cbn [vx vy vz].
    replace (0 * (9 / 2 - 0) + 0 * (0 - 0) + 10 * (/ 100 - 0)) with (/ 10) by field. replace (0 * 0 + 0 * 0 + 10 * 10) with 100 by ring. split; [|lra]. lra.
  - reflexivity.
  - intros z I. cbn in I. repeat (destruct I as [<-|I]; [cbn; discriminate|]). destruct I.
  - apply not_true_is_false. intros K. cbn -[plane_sides] in K. unfold lit_val in K; cbn -[plane_sides] in K. unfold plane_sides in K; cbn -[pl_pos_side] in K.
    assert (K2 : pl_pos_side (V (9 / 2) 0 (/ 100)) p2 = false).
    { destruct (pl_pos_side _ p2) eqn:Q; [|reflexivity]. apply (mk_plane_pos _ _ _ _ P2) in Q. unfold nr, dot, vsub, vopp, vadd, vscale, vzero, ex in Q; cbn in Q. rewrite SC in Q. nra. }
    assert (K5 : pl_pos_side (V (9 / 2) 0 (/ 100)) p5 = true) by (apply (mk_plane_pos _ _ _ _ P5); unfold dot, vsub, vzero; cbn; lra).
    rewrite K2, K5 in K. cbn in K. rewrite ?andb_false_r in K. cbn in K. discriminate.
Qed.
(** a surface without planes stays in the definition, and its number has no plane *)
Definition ecyl := PECyl vzero ez 2 3 ex ey.
Theorem C38_no_planes_refuted : exists qs r, quadric_to_plane (only1 ecyl) OFwd [(-1)%Z] = Ok qs /\
  plane_definition 9 OFwd (q_entries qs) (Seq AND 0 [Lit (-1)]) = Ok r /\ In (-1)%Z (lits r) /\ dget 1 (q_planes qs) = None.
Proof. do 2 eexists. split; [reflexivity|]. split; [vm_compute; reflexivity|]. split; [now left|reflexivity]. Qed.
(** a torus with an axis that is not X, Y or Z is not accepted *)
Theorem C38_tilted_torus_refuted : quadric_to_plane (only1 (PTorus vzero (V (3 / 5) 0 (4 / 5)) 10 1 1)) OFwd [(-1)%Z] = Err UnboundLocal.
Proof.
  unfold quadric_to_plane, foldM, q_step, only1. cbn [Z.abs Z.eqb Pos.eqb to_planes]. unfold torus_planes.
  assert (L : / 10 ^ 5 < / 10) by (apply Rinv_lt_contravar; simpl; lra).
  assert (A : forall e y, dot (V (3 / 5) 0 (4 / 5)) e = y -> 0 <= y <= 9 / 10 -> aligned (V (3 / 5) 0 (4 / 5)) e = false).
  { intros e y E P. unfold aligned. rewrite E, (Rabs_pos_eq y) by lra. apply rltb_false. rewrite Rabs_left by lra. lra. }
  rewrite (A ex (3 / 5)), (A ey 0), (A ez (4 / 5)); try lra; unfold dot, ex, ey, ez; cbn; try field. reflexivity.
Qed.
