(** C38: the box of a one-level part and of a cell. *)
From Coq Require Import QArith Qreals.
From Verif Require Import Prelude BoolSpec BoolSeq BoolProofs RBool Vec3 Prim PrimSpec PrimProofs CardsProofs RBox RBoxSpec RBoxProofs RPlanes RPlaneSpec RPlaneGeo RPlaneDefProofs RPlaneDefProofs2 RPlaneQuad RVertex RVertexSpec RVertexProofs RVertexComp RVertexHom RVertexCell RVertexEx PropsRBox.
Open Scope R_scope.

(** ** one part: planes joined with one operator *)
Theorem C38_part_partial tol O U order planes n m : 0 < tol -> solid_box O -> solid_box U -> box_in O U ->
  (forall z, In z (order n) <-> In z (surfs n)) -> good_part tol O U planes n ->
  component tol O U order planes n = Ok m -> bounds O m (fun x => eval (plane_sides planes x) n = true).
Proof. apply component_bounds. Qed.

(** ** a cell *)
(** when the box has the orientation that was used for the planes, it is right *)
Theorem C38_cell_partial surfaces signed fuel tol O U order k n o planes r m :
  plain n -> (forall z, In z signed <-> In z (lits n)) ->
  (forall z s, In z (lits n) -> surfaces (Z.abs z) = Some s -> unit_plane s \/ (proper s /\ boxable s)) ->
  (forall z s, In z (lits n) -> In (- z)%Z (lits n) -> surfaces (Z.abs z) = Some s -> is_plane s) ->
  0 < tol -> solid_box O -> solid_box U -> box_in O U ->
  solid_planes surfaces signed fuel tol U n = Ok (o, (planes, r)) ->
  (forall p, In p (simple_parts r) -> (forall z, In z (order p) <-> In z (surfs p)) /\ good_part tol O U planes p) ->
  cell_box surfaces signed fuel tol O U order k n = Ok m ->
  (o = OFwd /\ mb_or m = Fwd) \/ (o = ORev /\ mb_or m = Rev) ->
  covers surfaces O m n.
Proof.
  intros PL SG OK ONE TP SO SU OU SP GP CB OR' x v XO SD. unfold cell_box in CB. rewrite SP in CB. cbn [bind] in CB.
  assert (B : bounds O m (fun x => eval (plane_sides planes x) r = true)).
  { apply (get_bound_box_bounds O (plane_sides planes) _ _ _ _ CB). intros p b I C. destruct (GP p I) as (G1 & G2). eapply component_bounds; eauto. }
  destruct (solid_planes_ok surfaces signed fuel tol U n o planes r (conj PL (conj SG (conj OK ONE))) SP x v SD) as (F & R). specialize (B x XO).
  destruct OR' as [(-> & E)|(-> & E)]; rewrite E in *; destruct (mb_box m) as [b|].
  - intros T. apply B, F; auto.
  - destruct (eval v n) eqn:T; [|reflexivity]. elim B. apply F; auto.
  - intros T. apply B. intros K. rewrite R in T; [discriminate|auto..].
  - apply R; auto.
Qed.
(** the solid from which the cell is cut has all of the cell *)
Theorem C38_cell_solid_partial surfaces signed fuel tol O U order k n o planes r m b :
  plain n -> (forall z, In z signed <-> In z (lits n)) ->
  (forall z s, In z (lits n) -> surfaces (Z.abs z) = Some s -> unit_plane s \/ (proper s /\ boxable s)) ->
  (forall z s, In z (lits n) -> In (- z)%Z (lits n) -> surfaces (Z.abs z) = Some s -> is_plane s) ->
  0 < tol -> solid_box O -> solid_box U -> box_in O U ->
  solid_planes surfaces signed fuel tol U n = Ok (o, (planes, r)) ->
  (forall p, In p (simple_parts r) -> (forall z, In z (order p) <-> In z (surfs p)) /\ good_part tol O U planes p) ->
  cell_box surfaces signed fuel tol O U order k n = Ok m ->
  o = OFwd \/ mb_or m = Rev -> make_box O m = Some b ->
  forall x v, in_box O x -> sides surfaces n x v -> eval v n = true -> in_box b x.
Proof.
  intros PL SG OK ONE TP SO SU OU SP GP CB OR' MB x v XO SD E.
  assert (RV : mb_or m = Rev -> in_box b x). { intros K. unfold make_box in MB. rewrite K in MB. destruct (mb_box m); destruct (_ || _ || _)%bool in MB; try discriminate; injection MB as <-; exact XO. }
  destruct (mb_or m) eqn:K; [|auto]. destruct OR' as [OF|]; [|discriminate].
  pose proof (C38_cell_partial surfaces signed fuel tol O U order k n o planes r m PL SG OK ONE TP SO SU OU SP GP CB (or_introl (conj OF K)) x v XO SD) as C. rewrite K in C.
  unfold make_box in MB. rewrite K in MB. destruct (mb_box m); destruct (_ || _ || _)%bool in MB; try discriminate; injection MB as <-; auto.
Qed.

(** ** example: half a ball, -1 2 with the sphere 1 and the plane 2, seen in a cube *)
Definition qcube : qbox := QB (-1000) (-1000) (-1000) 1000 1000 1000.
Definition qp (a b c d e f : Q) : qpl := QP (QV a b c) (QV d e f).
Definition half_planes : list (Z * qpl) :=
  [(3%Z, qp 10 0 0 (-1) 0 0); (4%Z, qp (-10) 0 0 1 0 0); (5%Z, qp 0 10 0 0 (-1) 0); (6%Z, qp 0 (-10) 0 0 1 0);
   (7%Z, qp 0 0 10 0 0 (-1)); (8%Z, qp 0 0 (-10) 0 0 1); (2%Z, qp 0 0 0 0 0 1)].
Definition half_n : node := Seq AND 0 [Lit (-1); Lit 2].
Definition half_r : node := Seq AND 0 [Lit 2; Lit 3; Lit 4; Lit 5; Lit 6; Lit 7; Lit 8].
Lemma fp_eq p a b c d e f : p = PL (V (Q2R a) (Q2R b) (Q2R c)) (V (Q2R d) (Q2R e) (Q2R f)) -> p = fp (qp a b c d e f).
Proof. auto. Qed.
Ltac q2r := try unfold Q2R; cbn [Qnum Qden]; rewrite ?Rinv_1.
Lemma half_dict : q_planes (QS [(3%Z, PL (vadd vzero (vscale 10 ex)) (vopp ex)); (4%Z, PL (vsub vzero (vscale 10 ex)) ex);
      (5%Z, PL (vadd vzero (vscale 10 ey)) (vopp ey)); (6%Z, PL (vsub vzero (vscale 10 ey)) ey);
      (7%Z, PL (vadd vzero (vscale 10 ez)) (vopp ez)); (8%Z, PL (vsub vzero (vscale 10 ez)) ez); (2%Z, PL (vscale 0 (V 0 0 1)) (V 0 0 1))] [] 0) = fd half_planes.
Proof.
  unfold fd, half_planes. cbn [map fst snd q_planes].
  repeat (apply f_equal2; [apply f_equal; apply fp_eq; apply f_equal2; apply vec_eq; unfold vadd, vsub, vscale, vopp, vzero, ex, ey, ez; cbn [vx vy vz]; q2r; lra|]). reflexivity.
Qed.
Lemma half_solid : solid_planes ex_surfs [-1; 2]%Z 9 1 (fb qcube) half_n = Ok (OFwd, (fd half_planes, half_r)).
Proof.
  unfold solid_planes, half_n.
  assert (Q : exists es nx, quadric_to_plane ex_surfs OFwd [-1; 2]%Z = Ok (QS (fd half_planes) es nx) /\ plane_definition 9 OFwd es (Seq AND 0 [Lit (-1); Lit 2]) = Ok half_r).
  { do 2 eexists. split.
    - unfold quadric_to_plane, foldM, q_step. cbn [ex_surfs Z.abs Z.eqb Pos.eqb ball ground to_planes]. unfold sphere_planes. rewrite six_ok. cbn [bind]. rewrite mk_unit by (unfold dot; cbn; ring). cbn [bind].
      cbn [number six_list map fold_right q_next q_planes q_entries dset]. rewrite <- half_dict. reflexivity.
    - vm_compute. reflexivity. }
  destruct Q as (es & nx & Q1 & Q2). rewrite Q1. cbn [bind q_entries q_planes]. rewrite Q2. cbn [bind].
  replace 1 with (Q2R 1) by (q2r; lra). rewrite cell_orientation_q. 
  set (k := qorient_count _ _ _ _). vm_compute in k. subst k. reflexivity.
Qed.
Definition xs : list R := map Q2R [10; -10; -1000; 1000]%Q.
Definition zs : list R := map Q2R [0; 10; -10; -1000; 1000]%Q.
Ltac al := refine (conj _ (conj _ (conj _ _))); [q2r; lra | q2r; lra | q2r; lra | auto 20 using in_eq, in_cons].
Lemma half_aligned : Forall (aligned xs xs zs) (planes_of (fd half_planes) [2; 3; 4; 5; 6; 7; 8]%Z ++ faces (fb qcube)).
Proof.
  unfold faces. cbn -[Q2R]. unfold xs, zs; cbn [map].
  repeat (apply Forall_cons; [unfold aligned; cbn [pl_axis pl_pos fp fv qp qp_axis qp_pos qx qy qz vx vy vz ex ey ez]; first [left; al | right; left; al | right; right; al]|]). apply Forall_nil.
Qed.
Lemma cube_solid : solid_box (fb qcube).
Proof. unfold solid_box; cbn [fb qcube xmin xmax ymin ymax zmin zmax qx0 qy0 qz0 qx1 qy1 qz1]. q2r. lra. Qed.
Lemma cube_in : box_in (fb qcube) (fb qcube).
Proof. unfold box_in. lra. Qed.
Lemma half_side x z p : dget z (fd half_planes) = Some p -> plane_sides (fd half_planes) x z = pl_pos_side x p.
Proof. unfold plane_sides. now intros ->. Qed.
Lemma half_eval x : eval (plane_sides (fd half_planes) x) half_r = true <-> (-10 < vx x < 10 /\ -10 < vy x < 10 /\ 0 < vz x < 10).
Proof.
  unfold half_r. cbn [eval]. unfold plane_sides, half_planes, fd. cbn [map fst snd dget Z.eqb Pos.eqb forallb eval lit_val Z.ltb Z.compare Z.abs]. rewrite !andb_true_iff. unfold pl_pos_side. rewrite !rltb_true.
  unfold pl_dist, dot, vsub. cbn [pl_axis pl_pos fp fv qp qp_axis qp_pos qx qy qz vx vy vz]. q2r. split; [intros H; repeat split; lra|intros H; repeat split; lra].
Qed.
Lemma half_good : good_part 1 (fb qcube) (fb qcube) (fd half_planes) half_r.
Proof.
  assert (K : solid_box (fb qcube)) by apply cube_solid.
  cbn [good_part half_r]. split; [reflexivity|]. exists [2; 3; 4; 5; 6; 7; 8]%Z. split; [reflexivity|]. split; [cbn; lia|]. cbv zeta. fold half_r.
  split; [|split; [|split; [|split; [|split; [|split]]]]].
  - intros z I. cbn in I. destruct I as [<- | [<- | [<- | [<- | [<- | [<- | [<- | []]]]]]]]; discriminate.
  - apply (aligned_spread xs xs zs); [apply half_aligned|apply apart_q; reflexivity..].
  - apply (aligned_edge xs xs zs); [|exact K]. pose proof half_aligned as F. apply Forall_app in F. apply F.
  - intros v p (VX & VY & VZ) I. cbn [fb qcube xmin xmax ymin ymax zmin zmax qx0 qy0 qz0 qx1 qy1 qz1] in VX, VY, VZ.
    unfold planes_of in I. unfold fd, half_planes in I. cbn [map fst snd dget flat_map app Z.abs Z.eqb Pos.eqb] in I.
    assert (A : forall a c, (c = 1 \/ c = -1) -> (a = -1000 \/ a = 1000) -> forall d, -10 <= d <= 10 -> 1 <= Rabs (c * (a - d))).
    { intros a c C A d D. unfold Rabs. destruct (Rcase_abs _); destruct C as [-> | ->], A as [-> | ->]; lra. }
    assert (CV : forall c, (c = Q2R (-1000) \/ c = Q2R 1000) -> c = -1000 \/ c = 1000) by (intros c; q2r; intros [H|H]; [left|right]; lra).
    apply CV in VX, VY, VZ.
    destruct I as [<- | [<- | [<- | [<- | [<- | [<- | [<- | []]]]]]]]; unfold pl_dist, dot, vsub; cbn [pl_axis pl_pos fp fv qp qp_axis qp_pos qx qy qz vx vy vz].
    + replace (_ + _) with (1 * (vz v - 0)) by (q2r; lra). apply A; auto; lra.
    + replace (_ + _) with (-1 * (vx v - 10)) by (q2r; lra). apply A; auto; lra.
    + replace (_ + _) with (1 * (vx v - -10)) by (q2r; lra). apply A; auto; lra.
    + replace (_ + _) with (-1 * (vy v - 10)) by (q2r; lra). apply A; auto; lra.
    + replace (_ + _) with (1 * (vy v - -10)) by (q2r; lra). apply A; auto; lra.
    + replace (_ + _) with (-1 * (vz v - 10)) by (q2r; lra). apply A; auto; lra.
    + replace (_ + _) with (1 * (vz v - -10)) by (q2r; lra). apply A; auto; lra.
  - left. intros x f _ CP If Of.
    pose proof (CP 2 ltac:(cbn; auto))%Z as C2. pose proof (CP 3 ltac:(cbn; auto))%Z as C3. pose proof (CP 4 ltac:(cbn; auto))%Z as C4. pose proof (CP 5 ltac:(cbn; auto 9))%Z as C5.
    pose proof (CP 6 ltac:(cbn; auto 9))%Z as C6. pose proof (CP 7 ltac:(cbn; auto 9))%Z as C7. unfold closed_side, half_planes, fd in C2, C3, C4, C5, C6, C7.
    cbn [map fst snd dget Z.abs Z.eqb Pos.eqb Z.ltb Z.compare] in C2, C3, C4, C5, C6, C7. unfold pl_dist, dot, vsub in C2, C3, C4, C5, C6, C7.
    cbn [pl_axis pl_pos fp fv qp qp_axis qp_pos qx qy qz vx vy vz] in C2, C3, C4, C5, C6, C7. revert C2 C3 C4 C5 C6 C7. q2r. intros C2 C3 C4 C5 C6 C7.
    unfold on, pl_dist, dot, vsub in Of. unfold faces in If. cbn [fb qcube xmin xmax ymin ymax zmin zmax qx0 qy0 qz0 qx1 qy1 qz1 In] in If.
    destruct If as [<- | [<- | [<- | [<- | [<- | [<- | []]]]]]]; cbn [pl_axis pl_pos ex ey ez vx vy vz] in Of; revert Of; q2r; intros Of; lra.
  - right. intros f I. exists (V (-9) (-9) 1), (V 9 9 9). rewrite !half_eval.
    unfold in_box; cbn [fb qcube xmin xmax ymin ymax zmin zmax qx0 qy0 qz0 qx1 qy1 qz1 vx vy vz]. q2r.
    assert (T : / 10 ^ 12 < 1). { rewrite <- Rinv_1. apply Rinv_lt_contravar; [simpl; lra|simpl; lra]. }
    destruct I as [<- | [<- | [<- | []]]]; cbn [vx vy vz]; repeat split; lra.
  - right. intros f I. exists (V (-20) (-20) (-20)), (V 20 20 20).
    assert (T : / 10 ^ 12 < 1). { rewrite <- Rinv_1. apply Rinv_lt_contravar; [simpl; lra|simpl; lra]. }
    assert (E : forall x, ~ (-10 < vx x < 10) -> eval (plane_sides (fd half_planes) x) half_r = false). { intros x N. destruct (eval _ half_r) eqn:E; [|reflexivity]. apply half_eval in E. tauto. }
    rewrite !E by (cbn; lra).
    unfold in_box; cbn [fb qcube xmin xmax ymin ymax zmin zmax qx0 qy0 qz0 qx1 qy1 qz1 vx vy vz]. q2r.
    destruct I as [<- | [<- | [<- | []]]]; cbn [vx vy vz]; repeat split; lra.
Qed.
Lemma half_component : component 1 (fb qcube) (fb qcube) surfs (fd half_planes) half_r = Ok (mk_box (Some (fb (QB (-10) (-10) 0 10 10 10))) Fwd).
Proof.
  replace 1 with (Q2R 1) by (q2r; lra). rewrite component_q. set (b := part_box _ _ _ _ _ _ _). vm_compute in b. subst b. reflexivity.
Qed.
Example C38_part_ex : exists m, component 1 (fb qcube) (fb qcube) surfs (fd half_planes) half_r = Ok m /\
  good_part 1 (fb qcube) (fb qcube) (fd half_planes) half_r /\ solid_box (fb qcube) /\ box_in (fb qcube) (fb qcube).
Proof. eexists. split; [apply half_component|]. split; [apply half_good|]. split; [apply cube_solid|apply cube_in]. Qed.
Lemma mk_box_big b s : 1 <= xmax b - xmin b -> 1 <= ymax b - ymin b -> 1 <= zmax b - zmin b -> mk_box (Some b) s = MB (Some b) s.
Proof.
  intros H1 H2 H3. assert (T : tiny < 1). { unfold tiny. rewrite <- Rinv_1. apply Rinv_lt_contravar; simpl; lra. }
  unfold mk_box. rewrite !(proj2 (rleb_false _ _)) by lra. reflexivity.
Qed.
(** the box is the half of the cube around the ball, with one fifth of its size added *)
Example C38_cell_ex : exists m b, solid_planes ex_surfs [-1; 2]%Z 9 1 (fb qcube) half_n = Ok (OFwd, (fd half_planes, half_r)) /\
  cell_box ex_surfs [-1; 2]%Z 9 1 (fb qcube) (fb qcube) surfs (1 / 5) half_n = Ok m /\ mb_or m = Fwd /\
  make_box (fb qcube) m = Some b /\ xmin b = -14 /\ xmax b = 14 /\ zmin b = -2 /\ zmax b = 12 /\
  (forall p, In p (simple_parts half_r) -> (forall z, In z (surfs p) <-> In z (surfs p)) /\ good_part 1 (fb qcube) (fb qcube) (fd half_planes) p).
Proof.
  do 2 eexists. split; [apply half_solid|]. split; [|split; [|split; [|]]].
  - unfold cell_box. rewrite half_solid. cbn [bind]. unfold get_bound_box. cbn [box_depth half_r Z.eqb]. fold half_r. rewrite half_component, mk_box_big by (cbn [fb xmin xmax ymin ymax zmin zmax qx0 qy0 qz0 qx1 qy1 qz1]; q2r; lra).
    cbn [bind mb_box mb_or]. rewrite (proj2 (rltb_true 0 (1 / 5))) by lra. reflexivity.
  - reflexivity.
  - unfold make_box. cbn [mb_or mb_box]. unfold enlarge_box. cbn [fb xmin xmax ymin ymax zmin zmax qx0 qy0 qz0 qx1 qy1 qz1]. q2r.
    assert (T : / 10 ^ 6 < 1). { rewrite <- Rinv_1. apply Rinv_lt_contravar; simpl; lra. }
    rewrite !(proj2 (rltb_false _ _)) by lra. reflexivity.
  - cbn [xmin xmax zmin zmax]. repeat split; try lra; intros; try tauto. cbn in H. destruct H as [<-|[]]. apply half_good.
Qed.

(** ** where the box is wrong *)
(** a cell whose surfaces are planes with unit normals; the universe is the cube, 0.2 is added *)
Definition wrong_box (surfaces : Z -> option prim) (n : node) : Prop :=
  plain n /\ exists signed fuel m, (forall z, In z signed <-> In z (lits n)) /\
    (forall z, In z (lits n) -> exists s, surfaces (Z.abs z) = Some s /\ (unit_plane s \/ (proper s /\ boxable s))) /\
    cell_box surfaces signed fuel 1 (fb qcube) (fb qcube) surfs (1 / 5) n = Ok m /\
    ~ covers surfaces (fb qcube) m n.
(** a prism with a roof, open downwards: -1000 < z.  The box ends at the eaves (z = 0), and
    with one fifth of the height at z = -15 *)
Definition roof : table := [(1%Z, (QV 1 0 0, 100)); (2%Z, (QV 1 0 0, -100)); (3%Z, (QV 0 1 0, 100)); (4%Z, (QV 0 1 0, -100));
  (5%Z, (QV (3#5) 0 (4#5), 60)); (6%Z, (QV (-3#5) 0 (4#5), 60))]%Q.
Definition roof_n : node := Seq AND 0 [Lit (-1); Lit 2; Lit (-3); Lit 4; Lit (-5); Lit (-6)].
Definition roof_s := [-1; 2; -3; 4; -5; -6]%Z.
Lemma unit_q (t : table) z (nd : qvec * Q) : dget z t = Some nd -> Qeq_bool (gdot Qops (fst nd) (fst nd)) 1 = true -> exists s, surf_of t z = Some s /\ (unit_plane s \/ (proper s /\ boxable s)).
Proof.
  intros E H. exists (PPlane (fv (fst nd)) (Q2R (snd nd))). split; [unfold surf_of; now rewrite E|]. left. cbn [unit_plane].
  apply Qeq_bool_iff, Qeq_eqR in H. rewrite <- h_dot in H. change (gdot Rops (fv (fst nd)) (fv (fst nd))) with (dot (fv (fst nd)) (fv (fst nd))) in H.
  unfold vlen. rewrite H. q2r. rewrite Rmult_1_l. apply sqrt_1.
Qed.
Theorem C38_unbounded_refuted : wrong_box (surf_of roof) roof_n.
Proof.
  split; [cbn; lia|]. exists roof_s, 9%nat. eexists. split; [cbn; tauto|]. split; [|split].
  - intros z I. cbn in I. destruct I as [<- | [<- | [<- | [<- | [<- | [<- | []]]]]]]; (eapply unit_q; [reflexivity|reflexivity]).
  - unfold cell_box, solid_planes. rewrite quadric_q by (reflexivity || discriminate). cbn [bind q_entries q_planes].
    set (d := plane_definition _ _ _ _). vm_compute in d. subst d. cbn [bind]. replace 1 with (Q2R 1) by (q2r; lra). rewrite cell_orientation_q.
    set (c := qorient_count _ _ _ _). vm_compute in c. subst c. cbn [bind Nat.eqb]. unfold get_bound_box. cbn [box_depth Z.eqb]. rewrite component_q.
    set (p := part_box _ _ _ _ _ _ _). vm_compute in p. subst p. cbn [rmap option_map fst snd]. rewrite mk_box_big by (cbn [fb xmin xmax ymin ymax zmin zmax qx0 qy0 qz0 qx1 qy1 qz1]; q2r; lra).
    cbn [bind mb_box mb_or]. rewrite (proj2 (rltb_true _ _)) by (q2r; lra). reflexivity.
  - intros C. specialize (C (V 0 0 (-500)) (fun z => (z =? 2)%Z || (z =? 4)%Z)). cbn [mb_or mb_box] in C. 
    assert (B : ~ in_box (enlarge_box (1 / 5) (fb {| qx0 := -100; qy0 := -100; qz0 := 0; qx1 := 100; qy1 := 100; qz1 := 75 |})) (V 0 0 (-500))).
    { unfold in_box, enlarge_box. cbn [fb xmin xmax ymin ymax zmin zmax qx0 qy0 qz0 qx1 qy1 qz1 vx vy vz]. q2r. lra. }
    apply B. replace (1 / 5) with (Q2R 1 / 5) by (q2r; lra). apply C; [| |reflexivity].
    + unfold in_box. cbn [fb qcube xmin xmax ymin ymax zmin zmax qx0 qy0 qz0 qx1 qy1 qz1 vx vy vz]. q2r. lra.
    + intros z s I. cbn in I. destruct I as [<- | [<- | [<- | [<- | [<- | [<- | []]]]]]]; cbn [surf_of roof dget Z.abs Z.eqb Pos.eqb option_map fst snd orb]; intros E; injection E as <-; cbn [outside inside]; unfold dot, fv; cbn [vx vy vz qx qy qz]; q2r; lra.
Qed.
(** two planes that meet in a line through an edge of the cube, at (-1000, -1000, 500): the end
    of the line at (0, 0, 1000) is not found *)
Definition wedge : table := [(1%Z, (QV (2#3) (-1#3) (-2#3), -2000#3)); (2%Z, (QV (-1#3) (2#3) (-2#3), -2000#3))]%Q.
Definition wedge_n : node := Seq AND 0 [Lit (-1); Lit (-2)].
Theorem C38_edge_refuted : wrong_box (surf_of wedge) wedge_n.
Proof.
  split; [cbn; lia|]. exists [-1; -2]%Z, 9%nat. eexists. split; [cbn; tauto|]. split; [|split].
  - intros z I. cbn in I. destruct I as [<- | [<- | []]]; (eapply unit_q; [reflexivity|reflexivity]).
  - unfold cell_box, solid_planes. rewrite !quadric_q by (reflexivity || discriminate). cbn [bind q_entries q_planes].
    set (d := plane_definition 9 OFwd [] wedge_n). vm_compute in d. subst d. cbn [bind]. replace 1 with (Q2R 1) by (q2r; lra). rewrite cell_orientation_q.
    set (c := qorient_count _ _ _ _). vm_compute in c. subst c. cbn [bind Nat.eqb]. rewrite quadric_q by (reflexivity || discriminate). cbn [bind q_entries q_planes].
    set (d := plane_definition 9 OUnd [] wedge_n). vm_compute in d. subst d. cbn [bind].
    unfold get_bound_box. cbn [box_depth Z.eqb]. rewrite component_q.
    set (p := part_box _ _ _ _ _ _ _). vm_compute in p. subst p. cbn [rmap option_map fst snd]. rewrite mk_box_big by (cbn [fb xmin xmax ymin ymax zmin zmax qx0 qy0 qz0 qx1 qy1 qz1]; q2r; lra).
    cbn [bind mb_box mb_or]. rewrite (proj2 (rltb_true _ _)) by (q2r; lra). reflexivity.
  - intros C. specialize (C (V (-100) (-100) 990) (fun _ => false)). cbn [mb_or mb_box] in C.
    match type of C with _ -> _ -> _ -> in_box ?b ?x => assert (B : ~ in_box b x) end.
    { unfold in_box, enlarge_box. cbn [fb xmin xmax ymin ymax zmin zmax qx0 qy0 qz0 qx1 qy1 qz1 vx vy vz]. q2r. lra. }
    apply B, C; [| |reflexivity].
    + unfold in_box. cbn [fb qcube xmin xmax ymin ymax zmin zmax qx0 qy0 qz0 qx1 qy1 qz1 vx vy vz]. q2r. lra.
    + intros z s I. cbn in I. destruct I as [<- | [<- | []]]; cbn [surf_of wedge dget Z.abs Z.eqb Pos.eqb option_map fst snd orb]; intros E; injection E as <-; cbn [outside inside]; unfold dot, fv; cbn [vx vy vz qx qy qz]; q2r; lra.
Qed.
(** outside a sphere of radius 1200: the corners of the cube are in the cell, but the cube
    around the sphere holds the whole universe, and the answer is that there is nothing *)
Definition big := only1 (PSphere vzero 1200).
Definition big_planes : list (Z * qpl) :=
  [(2%Z, qp 1200 0 0 (-1) 0 0); (3%Z, qp (-1200) 0 0 1 0 0); (4%Z, qp 0 1200 0 0 (-1) 0); (5%Z, qp 0 (-1200) 0 0 1 0);
   (6%Z, qp 0 0 1200 0 0 (-1)); (7%Z, qp 0 0 (-1200) 0 0 1)].
Theorem C38_reversed_refuted : wrong_box big (Seq AND 0 [Lit 1]).
Proof.
  split; [cbn; lia|]. exists [1%Z], 9%nat. eexists. split; [cbn; tauto|]. split; [|split].
  - intros z I. cbn in I. destruct I as [<- | []]. eexists. split; [reflexivity|]. right. cbn. split; [lra|exact Logic.I].
  - unfold cell_box, solid_planes.
    assert (Q : forall o, exists es ps nx, quadric_to_plane big o [1%Z] = Ok (QS ps es nx) /\ es = [(1%Z, EList [2; 3; 4; 5; 6; 7]%Z)] /\ (o = ORev -> ps = fd big_planes)).
    { intros o. do 3 eexists. split; [|split].
      - unfold quadric_to_plane, foldM, q_step. cbn [big only1 Z.abs Z.eqb Pos.eqb to_planes]. unfold sphere_planes. rewrite six_ok. cbn [bind number six_list map fold_right q_next q_planes q_entries dset]. reflexivity.
      - reflexivity.
      - intros ->. unfold fd, big_planes. cbn [map fst snd pos_of shrink negb]. cbn -[vadd vsub vscale fp vopp].
        repeat (apply f_equal2; [apply f_equal; apply fp_eq; apply f_equal2; apply vec_eq; unfold vadd, vsub, vscale, vopp, vzero, ex, ey, ez; cbn [vx vy vz]; q2r; lra|]). reflexivity. }
    destruct (Q OFwd) as (es & ps & nx & Q1 & Q2 & _), (Q ORev) as (es' & ps' & nx' & Q1' & Q2' & Q3'). rewrite Q1. cbn [bind q_entries q_planes]. subst es es'. specialize (Q3' eq_refl). subst ps'.
    set (d := plane_definition 9 OFwd _ _). vm_compute in d. subst d. cbn [bind].
    match goal with |- context [cell_orientation 1 ps ?u ?n] => set (c := cell_orientation 1 ps u n); assert (C : c = Ok (ORev, n)) by reflexivity; rewrite C; clear C c end. cbn [bind]. rewrite Q1'. cbn [bind q_entries q_planes].
    set (d := plane_definition 9 ORev _ _). vm_compute in d. subst d. cbn [bind].
    unfold get_bound_box. cbn [box_depth Z.eqb]. replace 1 with (Q2R 1) by (q2r; lra). rewrite component_q.
    set (p := part_box _ _ _ _ _ _ _). vm_compute in p. subst p. cbn [rmap option_map fst snd mk_box bind mb_box mb_or]. reflexivity.
  - intros C. specialize (C (V 999 999 999) (fun _ => true)). cbn [mb_or mb_box] in C. cut (true = false); [discriminate|]. apply C.
    + unfold in_box. cbn [fb qcube xmin xmax ymin ymax zmin zmax qx0 qy0 qz0 qx1 qy1 qz1 vx vy vz]. q2r. lra.
    + intros z s I. cbn in I. destruct I as [<- | []]. cbn [big only1 Z.abs Z.eqb Pos.eqb]. intros E; injection E as <-. cbn [outside]. unfold dot, vsub, vzero; cbn. lra.
Qed.
