(** The points of RVertex.plane_intersect, continued: edges of the box. *)
From Coq Require Import QArith Qreals.
From Verif Require Import Prelude BoolSpec Vec3 Prim PrimProofs RBox RBoxSpec RBoxProofs RPlanes RPlaneSpec RVertex RVertexSpec RVertexProofs RVertexGeo RVertexList.
Open Scope R_scope.

Lemma seg_hit a c p t : dot (pl_axis p) (vsub c a) <> 0 -> 0 <= t <= 1 -> on p (walk a t (vsub c a)) -> seg_plane Rops (a, c) p = Some (walk a t (vsub c a)).
Proof.
  intros K T H. unfold seg_plane. cbn [fst snd pax ppos Rops]. change (gsub Rops) with vsub. change (gdot Rops) with dot.
  rewrite (proj2 (neq0_false _) K). cbn [ndiv nle nq Rops]. rewrite q0, q1.
  assert (E : dot (pl_axis p) (vsub (pl_pos p) a) / dot (pl_axis p) (vsub c a) = t).
  { unfold on in H. rewrite dist_walk in H. unfold pl_dist in H. assert (X : dot (pl_axis p) (vsub (pl_pos p) a) = - dot (pl_axis p) (vsub a (pl_pos p))) by (unfold dot, vsub; cbn; ring).
    rewrite X. replace (dot (pl_axis p) (vsub a (pl_pos p))) with (- (t * dot (pl_axis p) (vsub c a))) by lra. field. exact K. }
  rewrite E. rewrite (proj2 (rleb_true 0 t)), (proj2 (rleb_true t 1)) by lra. reflexivity.
Qed.
Lemma seg_inv s p v : seg_plane Rops s p = Some v -> dot (pl_axis p) (vsub (snd s) (fst s)) <> 0 /\ on p v /\ exists t, 0 <= t <= 1 /\ v = walk (fst s) t (vsub (snd s) (fst s)).
Proof.
  unfold seg_plane. cbn [pax ppos Rops]. change (gsub Rops) with vsub. change (gdot Rops) with dot. destruct (neq0 Rops _) eqn:K; [discriminate|]. apply neq0_false in K.
  cbn [ndiv nle nq Rops]. rewrite q0, q1. destruct (rleb 0 _ && rleb _ 1)%bool eqn:T; [|discriminate]. apply andb_true_iff in T. rewrite !rleb_true in T. intros E. injection E as <-.
  split; auto. change (gadd Rops) with vadd. change (gscale Rops) with vscale. split.
  - change (on p (walk (fst s) (dot (pl_axis p) (vsub (pl_pos p) (fst s)) / dot (pl_axis p) (vsub (snd s) (fst s))) (vsub (snd s) (fst s)))). unfold on. rewrite dist_walk. unfold pl_dist.
    assert (X : dot (pl_axis p) (vsub (fst s) (pl_pos p)) = - dot (pl_axis p) (vsub (pl_pos p) (fst s))) by (unfold dot, vsub; cbn; ring). rewrite X. field. exact K.
  - exists (dot (pl_axis p) (vsub (pl_pos p) (fst s)) / dot (pl_axis p) (vsub (snd s) (fst s))). split; [exact T|reflexivity].
Qed.
(** an edge lies on two faces *)
Lemma edge_faces b s : solid_box b -> In s (box_edges Rops b) -> exists f g k, In f (faces b) /\ In g (faces b) /\ k <> 0 /\
  on f (fst s) /\ on g (fst s) /\ vsub (snd s) (fst s) = vscale k (cross (pl_axis f) (pl_axis g)) /\ in_box b (fst s) /\ in_box b (snd s).
Proof.
  intros S H. unfold solid_box in S.
  assert (F : forall f g, In f (faces b) -> In g (faces b) ->
    (exists k, k <> 0 /\ on f (fst s) /\ on g (fst s) /\ vsub (snd s) (fst s) = vscale k (cross (pl_axis f) (pl_axis g)) /\ in_box b (fst s) /\ in_box b (snd s)) ->
    exists f g k, In f (faces b) /\ In g (faces b) /\ k <> 0 /\ on f (fst s) /\ on g (fst s) /\ vsub (snd s) (fst s) = vscale k (cross (pl_axis f) (pl_axis g)) /\ in_box b (fst s) /\ in_box b (snd s)).
  { intros f g X Y (k & Z). exists f, g, k. tauto. }
  unfold box_edges in H. cbn [In Rops mkv bx0 bx1 by0 by1 bz0 bz1] in H.
  Local Ltac edge f g k F := apply (F f g); [unfold faces; cbn; tauto|unfold faces; cbn; tauto|]; exists k; unfold on, pl_dist, in_box, dot, vsub, vscale, cross, ex, ey, ez; cbn; repeat split; try lra; apply vec_eq; cbn; ring.
  destruct H as [<-|[<-|[<-|[<-|[<-|[<-|[<-|[<-|[<-|[<-|[<-|[<-|[]]]]]]]]]]]]].
  - edge (PL (V 0 (ymin b) 0) ey) (PL (V 0 0 (zmin b)) ez) (xmax b - xmin b) F.
  - edge (PL (V (xmax b) 0 0) ex) (PL (V 0 0 (zmin b)) ez) (ymin b - ymax b) F.
  - edge (PL (V 0 (ymax b) 0) ey) (PL (V 0 0 (zmin b)) ez) (xmin b - xmax b) F.
  - edge (PL (V (xmin b) 0 0) ex) (PL (V 0 0 (zmin b)) ez) (ymax b - ymin b) F.
  - edge (PL (V 0 (ymin b) 0) ey) (PL (V 0 0 (zmax b)) ez) (xmax b - xmin b) F.
  - edge (PL (V (xmax b) 0 0) ex) (PL (V 0 0 (zmax b)) ez) (ymin b - ymax b) F.
  - edge (PL (V 0 (ymax b) 0) ey) (PL (V 0 0 (zmax b)) ez) (xmin b - xmax b) F.
  - edge (PL (V (xmin b) 0 0) ex) (PL (V 0 0 (zmax b)) ez) (ymax b - ymin b) F.
  - edge (PL (V (xmin b) 0 0) ex) (PL (V 0 (ymin b) 0) ey) (zmax b - zmin b) F.
  - edge (PL (V (xmax b) 0 0) ex) (PL (V 0 (ymin b) 0) ey) (zmax b - zmin b) F.
  - edge (PL (V (xmax b) 0 0) ex) (PL (V 0 (ymax b) 0) ey) (zmax b - zmin b) F.
  - edge (PL (V (xmin b) 0 0) ex) (PL (V 0 (ymax b) 0) ey) (zmax b - zmin b) F.
Qed.
Lemma in_box_walk b x y t : in_box b x -> in_box b y -> 0 <= t <= 1 -> in_box b (walk x t (vsub y x)).
Proof. unfold in_box, walk, vadd, vscale, vsub; cbn. intros (A1 & A2 & A3) (B1 & B2 & B3) T. repeat split; nra. Qed.
Lemma plane_boundary_corner b p v : solid_box b -> In v (plane_boundary Rops b p) -> in_box b v /\ exists f g, In f (faces b) /\ In g (faces b) /\ at3 p f g v.
Proof.
  intros S H. unfold plane_boundary in H. apply in_flat_map in H. destruct H as (s & I & H). destruct (seg_plane Rops s p) as [w|] eqn:E; [|destruct H]. destruct H as [<-|[]].
  apply seg_inv in E. destruct E as (K & O & t & T & ->). destruct (edge_faces b s S I) as (f & g & k & F & G & KZ & OF & OG & D & B1 & B2).
  split; [apply in_box_walk; auto|]. exists f, g. split; auto. split; auto.
  assert (X : forall n, dot n (vsub (snd s) (fst s)) = k * dot n (cross (pl_axis f) (pl_axis g))) by (intros n; rewrite D; unfold dot, vscale; cbn; ring).
  assert (Y : indep p f g). { apply indep_rot, indep_rot. unfold indep. intros Z. apply K. rewrite X. replace (dot (pl_axis p) (cross (pl_axis f) (pl_axis g))) with (dot (cross (pl_axis f) (pl_axis g)) (pl_axis p)) by (unfold dot; ring). rewrite Z. ring. }
  split; [exact Y|]. split; [exact O|]. split; apply on_walk; auto; rewrite X; [rewrite cross_l|rewrite cross_r]; ring.
Qed.
(** a point of two faces is on an edge *)
Lemma face_eq b f x : In f (faces b) -> on f x -> (vx x = xmin b \/ vx x = xmax b) /\ pl_axis f = ex \/ (vy x = ymin b \/ vy x = ymax b) /\ pl_axis f = ey \/ (vz x = zmin b \/ vz x = zmax b) /\ pl_axis f = ez.
Proof.
  unfold faces, on. intros [<-|[<-|[<-|[<-|[<-|[<-|[]]]]]]]; unfold pl_dist, dot, vsub, ex, ey, ez; cbn; intros; [left|left|right; left|right; left|right; right|right; right]; split; auto; [left|right|left|right|left|right]; lra.
Qed.
Lemma on_edge b f g v : solid_box b -> In f (faces b) -> In g (faces b) -> on f v -> on g v -> in_box b v -> cross (pl_axis f) (pl_axis g) <> vzero ->
  exists s t k, In s (box_edges Rops b) /\ 0 <= t <= 1 /\ v = walk (fst s) t (vsub (snd s) (fst s)) /\ k <> 0 /\ vsub (snd s) (fst s) = vscale k (cross (pl_axis f) (pl_axis g)).
Proof.
  intros S F G OF OG B C. unfold solid_box in S. unfold in_box in B.
  assert (L : forall a c x, a < c -> a <= x <= c -> 0 <= (x - a) / (c - a) <= 1). { intros a c x A X. assert (0 < / (c - a)) by (apply Rinv_0_lt_compat; lra). split; [apply Rmult_le_pos; lra|]. apply (Rmult_le_reg_r (c - a)); [lra|]. unfold Rdiv. rewrite Rmult_assoc, Rinv_l; lra. }
  assert (W : forall s t dir, In s (box_edges Rops b) -> 0 <= t <= 1 -> v = walk (fst s) t (vsub (snd s) (fst s)) -> (exists k, k <> 0 /\ vsub (snd s) (fst s) = vscale k dir) ->
     (cross (pl_axis f) (pl_axis g) = dir \/ cross (pl_axis f) (pl_axis g) = vopp dir) ->
     exists s t k, In s (box_edges Rops b) /\ 0 <= t <= 1 /\ v = walk (fst s) t (vsub (snd s) (fst s)) /\ k <> 0 /\ vsub (snd s) (fst s) = vscale k (cross (pl_axis f) (pl_axis g))).
  { intros s t dir A1 A2 A3 (k & A4 & A5) [A6|A6]; [exists s, t, k; rewrite A6; auto|]. exists s, t, (- k). rewrite A6. split; [exact A1|]. split; [exact A2|]. split; [exact A3|]. split; [lra|]. rewrite A5. apply vec_eq; unfold vscale, vopp; cbn; ring. }
  assert (WZ : (vx v = xmin b \/ vx v = xmax b) -> (vy v = ymin b \/ vy v = ymax b) -> (cross (pl_axis f) (pl_axis g) = ez \/ cross (pl_axis f) (pl_axis g) = vopp ez) -> exists s t k, In s (box_edges Rops b) /\ 0 <= t <= 1 /\ v = walk (fst s) t (vsub (snd s) (fst s)) /\ k <> 0 /\ vsub (snd s) (fst s) = vscale k (cross (pl_axis f) (pl_axis g))).
  { intros X Y D. apply (W (V (vx v) (vy v) (zmin b), V (vx v) (vy v) (zmax b)) ((vz v - zmin b) / (zmax b - zmin b)) ez); auto.
    - unfold box_edges; cbn [In Rops mkv bx0 bx1 by0 by1 bz0 bz1]. destruct X as [-> | ->], Y as [-> | ->]; tauto.
    - apply L; lra.
    - apply vec_eq; unfold walk, vadd, vscale, vsub; cbn; field; lra.
    - exists (zmax b - zmin b). split; [lra|]. apply vec_eq; unfold vscale, vsub, ez; cbn; ring. }
  assert (WX : (vy v = ymin b \/ vy v = ymax b) -> (vz v = zmin b \/ vz v = zmax b) -> (cross (pl_axis f) (pl_axis g) = ex \/ cross (pl_axis f) (pl_axis g) = vopp ex) -> exists s t k, In s (box_edges Rops b) /\ 0 <= t <= 1 /\ v = walk (fst s) t (vsub (snd s) (fst s)) /\ k <> 0 /\ vsub (snd s) (fst s) = vscale k (cross (pl_axis f) (pl_axis g))).
  { intros X Y D. destruct X as [X|X].
    - apply (W (V (xmin b) (vy v) (vz v), V (xmax b) (vy v) (vz v)) ((vx v - xmin b) / (xmax b - xmin b)) ex); auto.
      + unfold box_edges; cbn [In Rops mkv bx0 bx1 by0 by1 bz0 bz1]. rewrite X. destruct Y as [-> | ->]; tauto.
      + apply L; lra.
      + apply vec_eq; unfold walk, vadd, vscale, vsub; cbn; field; lra.
      + exists (xmax b - xmin b). split; [lra|]. apply vec_eq; unfold vscale, vsub, ex; cbn; ring.
    - apply (W (V (xmax b) (vy v) (vz v), V (xmin b) (vy v) (vz v)) (1 - (vx v - xmin b) / (xmax b - xmin b)) ex); auto.
      + unfold box_edges; cbn [In Rops mkv bx0 bx1 by0 by1 bz0 bz1]. rewrite X. destruct Y as [-> | ->]; tauto.
      + pose proof (L (xmin b) (xmax b) (vx v)). lra.
      + apply vec_eq; unfold walk, vadd, vscale, vsub; cbn; field; lra.
      + exists (xmin b - xmax b). split; [lra|]. apply vec_eq; unfold vscale, vsub, ex; cbn; ring. }
  assert (WY : (vx v = xmin b \/ vx v = xmax b) -> (vz v = zmin b \/ vz v = zmax b) -> (cross (pl_axis f) (pl_axis g) = ey \/ cross (pl_axis f) (pl_axis g) = vopp ey) -> exists s t k, In s (box_edges Rops b) /\ 0 <= t <= 1 /\ v = walk (fst s) t (vsub (snd s) (fst s)) /\ k <> 0 /\ vsub (snd s) (fst s) = vscale k (cross (pl_axis f) (pl_axis g))).
  { intros X Y D. destruct X as [X|X].
    - apply (W (V (vx v) (ymax b) (vz v), V (vx v) (ymin b) (vz v)) (1 - (vy v - ymin b) / (ymax b - ymin b)) ey); auto.
      + unfold box_edges; cbn [In Rops mkv bx0 bx1 by0 by1 bz0 bz1]. rewrite X. destruct Y as [-> | ->]; tauto.
      + pose proof (L (ymin b) (ymax b) (vy v)). lra.
      + apply vec_eq; unfold walk, vadd, vscale, vsub; cbn; field; lra.
      + exists (ymin b - ymax b). split; [lra|]. apply vec_eq; unfold vscale, vsub, ey; cbn; ring.
    - apply (W (V (vx v) (ymin b) (vz v), V (vx v) (ymax b) (vz v)) ((vy v - ymin b) / (ymax b - ymin b)) ey); auto.
      + unfold box_edges; cbn [In Rops mkv bx0 bx1 by0 by1 bz0 bz1]. rewrite X. destruct Y as [-> | ->]; tauto.
      + apply L; lra.
      + apply vec_eq; unfold walk, vadd, vscale, vsub; cbn; field; lra.
      + exists (ymax b - ymin b). split; [lra|]. apply vec_eq; unfold vscale, vsub, ey; cbn; ring. }
  destruct (face_eq b f v F OF) as [(X & AF)|[(X & AF)|(X & AF)]], (face_eq b g v G OG) as [(Y & AG)|[(Y & AG)|(Y & AG)]]; rewrite AF, AG in *.
  1, 5, 9: elim C; apply vec_eq; unfold cross, ex, ey, ez; cbn; ring.
  - apply WZ; auto. left. apply vec_eq; unfold cross, ex, ey, ez; cbn; ring.
  - apply WY; auto. right. apply vec_eq; unfold cross, vopp, ex, ey, ez; cbn; ring.
  - apply WZ; auto. right. apply vec_eq; unfold cross, vopp, ex, ey, ez; cbn; ring.
  - apply WX; auto. left. apply vec_eq; unfold cross, vopp, ex, ey, ez; cbn; ring.
  - apply WY; auto. left. apply vec_eq; unfold cross, vopp, ex, ey, ez; cbn; ring.
  - apply WX; auto. right. apply vec_eq; unfold cross, vopp, ex, ey, ez; cbn; ring.
Qed.
Lemma plane_boundary_in b p f g v : solid_box b -> In f (faces b) -> In g (faces b) -> at3 p f g v -> in_box b v -> In v (plane_boundary Rops b p).
Proof.
  intros S F G (D & A & A1 & A2) B. apply indep_rot in D.
  assert (C : cross (pl_axis f) (pl_axis g) <> vzero). { intros Z. apply D. rewrite Z. unfold dot, vzero; cbn; ring. }
  destruct (on_edge b f g v S F G A1 A2 B C) as ([a c] & t & k & I & T & E & K & DE). cbn [fst snd] in *. unfold plane_boundary. apply in_flat_map. exists (a, c). split; auto.
  rewrite E in A |- *. assert (X : seg_plane Rops (a, c) p = Some (walk a t (vsub c a))); [|change (In (walk a t (vsub c a)) (opt_list (seg_plane Rops (a, c) p))); rewrite X; now left]. apply seg_hit; auto. rewrite DE. unfold indep in D.
  replace (dot (pl_axis p) (vscale k (cross (pl_axis f) (pl_axis g)))) with (k * dot (cross (pl_axis f) (pl_axis g)) (pl_axis p)) by (unfold dot, vscale; cbn; ring).
  apply Rmult_integral_contrapositive_currified; auto.
Qed.
(** three faces: a vertex of the box *)
Lemma box_points_vertex b v : In v (box_points Rops b) <-> vertex b v.
Proof.
  unfold box_points, vertex. cbn [In Rops mkv bx0 bx1 by0 by1 bz0 bz1]. split.
  - intros [<-|[<-|[<-|[<-|[<-|[<-|[<-|[<-|[]]]]]]]]]; cbn; tauto.
  - destruct v as [x y z]; cbn. intros ([-> | ->] & [-> | ->] & [-> | ->]); tauto.
Qed.
Lemma three_faces b f g h v : In f (faces b) -> In g (faces b) -> In h (faces b) -> at3 f g h v -> vertex b v.
Proof.
  intros F G H (D & A & B & C). unfold indep in D. unfold vertex.
  destruct (face_eq b f v F A) as [(X & AF)|[(X & AF)|(X & AF)]], (face_eq b g v G B) as [(Y & AG)|[(Y & AG)|(Y & AG)]], (face_eq b h v H C) as [(Z & AH)|[(Z & AH)|(Z & AH)]]; auto;
    exfalso; apply D; rewrite AF, AG, AH; unfold dot, cross, ex, ey, ez; cbn; ring.
Qed.
Lemma vertex_in b v : solid_box b -> vertex b v -> in_box b v.
Proof. unfold solid_box, vertex, in_box. intros S ([-> | ->] & [-> | ->] & [-> | ->]); lra. Qed.
Lemma vertex_corner b ps v : solid_box b -> vertex b v -> corner b ps v.
Proof.
  intros S H. split; [now apply vertex_in|]. unfold vertex in H.
  assert (FX : exists f, In f (faces b) /\ on f v /\ pl_axis f = ex). { destruct (proj1 H) as [E|E]; [exists (PL (V (xmin b) 0 0) ex)|exists (PL (V (xmax b) 0 0) ex)]; (split; [unfold faces; cbn; tauto|split; [unfold on, pl_dist, dot, vsub, ex; cbn; lra|reflexivity]]). }
  assert (FY : exists f, In f (faces b) /\ on f v /\ pl_axis f = ey). { destruct (proj1 (proj2 H)) as [E|E]; [exists (PL (V 0 (ymin b) 0) ey)|exists (PL (V 0 (ymax b) 0) ey)]; (split; [unfold faces; cbn; tauto|split; [unfold on, pl_dist, dot, vsub, ey; cbn; lra|reflexivity]]). }
  assert (FZ : exists f, In f (faces b) /\ on f v /\ pl_axis f = ez). { destruct (proj2 (proj2 H)) as [E|E]; [exists (PL (V 0 0 (zmin b)) ez)|exists (PL (V 0 0 (zmax b)) ez)]; (split; [unfold faces; cbn; tauto|split; [unfold on, pl_dist, dot, vsub, ez; cbn; lra|reflexivity]]). }
  destruct FX as (f & F1 & F2 & F3), FY as (g & G1 & G2 & G3), FZ as (h & H1 & H2 & H3). exists f, g, h. repeat split; auto using in_or_app. unfold indep. rewrite F3, G3, H3. unfold dot, cross, ex, ey, ez; cbn. lra.
Qed.

(** ** all the points *)
Lemma inter_cut_corner b v ps : solid_box b -> In v (inter_cut Rops b ps) -> corner b ps v.
Proof.
  intros S. induction ps as [|h t IH]; cbn [inter_cut]; [intros []|]. intros H. apply in_app_or in H. destruct H as [H|H]; [|apply in_app_or in H; destruct H as [H|H]].
  - destruct (plane_boundary_corner b h v S H) as (B & f & g & F & G & T1 & T2 & T3 & T4). split; auto. exists h, f, g. split; [now left|]. split; [right; apply in_or_app; auto|]. split; [right; apply in_or_app; auto|]. auto.
  - apply in_flat_map in H. destruct H as (q & Q & H). destruct (plane_plane Rops h q) as [l|] eqn:P; [|destruct H]. apply in_app_or in H. destruct H as [H|H].
    + destruct (line_boundary_corner b h q l v S P H) as (B & f & F & T1 & T2 & T3 & T4). split; auto. exists h, q, f. split; [now left|]. split; [right; apply in_or_app; auto|]. split; [right; apply in_or_app; auto|]. auto.
    + apply (triple_points_in b h q l _ v P) in H. destruct H as (B & r & R3 & T1 & T2 & T3 & T4). split; auto. exists h, q, r. split; [now left|]. split; [right; apply in_or_app; auto|]. split; [right; apply in_or_app; left; now apply in_tl|]. auto.
  - destruct (IH H) as (B & p & q & r & P & Q & R3 & T). split; auto. exists p, q, r. split; [now right|]. split; [now right|]. split; [now right|]. exact T.
Qed.
Lemma points_corner cut b ps v : solid_box b -> In v (plane_intersect Rops cut b ps) -> corner b ps v.
Proof.
  intros S. unfold plane_intersect. destruct cut; intros H.
  - apply in_app_or in H. destruct H as [H|H]; [now apply inter_cut_corner|]. apply vertex_corner; auto. now apply box_points_vertex.
  - apply inter_free_corner in H. destruct H as (p & q & r & P & Q & R3 & (T1 & T2 & T3 & T4) & B). split; auto. exists p, q, r. repeat split; auto using in_or_app.
Qed.
Lemma cut_two b v h t q r : at3 h q r v -> in_box b v -> In q t -> In r t -> In v (inter_cut Rops b (h :: t)).
Proof.
  intros T B Q R3. cbn [inter_cut]. apply in_or_app. right. apply in_or_app. left. apply in_flat_map.
  destruct t as [|s t]; [destruct Q|]. destruct R3 as [R3|R3].
  - subst s. destruct Q as [Q|Q]; [subst q; apply at3_rot in T; destruct T as (T & _); now apply indep_ne in T|].
    exists r. split; [now left|]. assert (T' : at3 h r q v) by now apply at3_rot, at3_swap. destruct (at3_line _ _ _ _ T') as (l & P & L). rewrite P. apply in_or_app. right. eapply triple_points_in; eauto.
  - exists q. split; auto. destruct (at3_line _ _ _ _ T) as (l & P & L). rewrite P. apply in_or_app. right. eapply triple_points_in; eauto.
Qed.
Lemma inter_cut_three b v ps : forall p q r, In p ps -> In q ps -> In r ps -> at3 p q r v -> in_box b v -> In v (inter_cut Rops b ps).
Proof.
  induction ps as [|h t IH]; intros p q r P Q R3 T B; [destruct P|].
  assert (N1 : p <> q) by (destruct T as (T & _); now apply indep_ne in T).
  assert (N2 : q <> r) by (apply at3_rot in T; destruct T as (T & _); now apply indep_ne in T).
  assert (N3 : r <> p) by (apply at3_rot, at3_rot in T; destruct T as (T & _); now apply indep_ne in T).
  destruct P as [P|P]; [|destruct Q as [Q|Q]; [|destruct R3 as [R3|R3]]].
  - subst h. destruct Q as [Q|Q]; [congruence|]. destruct R3 as [R3|R3]; [congruence|]. apply (cut_two b v p t q r); auto.
  - subst h. destruct R3 as [R3|R3]; [congruence|]. apply (cut_two b v q t p r); auto. now apply at3_swap.
  - subst h. apply (cut_two b v r t p q); auto. now apply at3_rot, at3_rot.
  - cbn [inter_cut]. apply in_or_app. right. apply in_or_app. right. exact (IH p q r P Q R3 T B).
Qed.
Definition no_edge (b : bbox) (p q : pl) : Prop := forall f g v, In f (faces b) -> In g (faces b) -> f <> g -> indep p q f -> indep p q g -> in_box b v -> on p v -> on q v -> on f v -> on g v -> False.
Lemma inter_cut_pair b v f ps : solid_box b -> In f (faces b) -> forall p q, (forall p q, In p ps -> In q ps -> no_edge b p q) -> In p ps -> In q ps -> at3 p q f v -> in_box b v -> In v (inter_cut Rops b ps).
Proof.
  intros S F. induction ps as [|h t IH]; intros p q E P Q T B; [destruct P|].
  assert (N1 : p <> q) by (destruct T as (T & _); now apply indep_ne in T).
  assert (K : forall q', In q' t -> at3 h q' f v -> In v (inter_cut Rops b (h :: t))).
  { intros q' Q' T'. cbn [inter_cut]. apply in_or_app. right. apply in_or_app. left. apply in_flat_map. exists q'. split; auto. destruct (at3_line _ _ _ _ T') as (l & PL' & L). rewrite PL'. apply in_or_app. left.
    apply (line_boundary_in b h q' l v S PL'); [apply E; [now left|now right]|]. split; auto. exists f. auto. }
  destruct P as [P|P]; [|destruct Q as [Q|Q]].
  - subst h. destruct Q as [Q|Q]; [congruence|]. apply (K q); auto.
  - subst h. apply (K p); auto. now apply at3_swap.
  - cbn [inter_cut]. apply in_or_app. right. apply in_or_app. right. apply (IH p q); auto. intros p' q' P' Q'. apply E; now right.
Qed.
Lemma inter_cut_one b v f g ps : solid_box b -> In f (faces b) -> In g (faces b) -> forall p, In p ps -> at3 p f g v -> in_box b v -> In v (inter_cut Rops b ps).
Proof.
  intros S F G. induction ps as [|h t IH]; intros p P T B; [destruct P|]. cbn [inter_cut]. apply in_or_app. destruct P as [->|P].
  - left. apply (plane_boundary_in b p f g); auto.
  - right. apply in_or_app. right. now apply (IH p).
Qed.
Lemma corner_in_list b ps v : solid_box b -> (forall p q, In p ps -> In q ps -> no_edge b p q) -> corner b ps v -> In v (plane_intersect Rops true b ps).
Proof.
  intros S E (B & p & q & r & P & Q & R3 & D & A1 & A2 & A3). assert (T : at3 p q r v) by (repeat split; auto). clear D A1 A2 A3. unfold plane_intersect. apply in_or_app.
  apply in_app_or in P, Q, R3. destruct P as [P|P], Q as [Q|Q], R3 as [R3|R3].
  - left. now apply (inter_cut_three b v ps p q r).
  - left. now apply (inter_cut_pair b v r ps S R3 p q).
  - left. apply (inter_cut_pair b v q ps S Q p r); auto. now apply at3_rot, at3_swap.
  - left. now apply (inter_cut_one b v q r ps S Q R3 p).
  - left. apply (inter_cut_pair b v p ps S P q r); auto. now apply at3_rot.
  - left. apply (inter_cut_one b v p r ps S P R3 q); auto. now apply at3_swap.
  - left. apply (inter_cut_one b v p q ps S P Q r); auto. now apply at3_rot, at3_rot.
  - right. apply box_points_vertex. exact (three_faces b p q r v P Q R3 T).
Qed.
Lemma points_sep cut b ps : solid_box b -> spread b ps -> sep (plane_intersect Rops cut b ps).
Proof.
  intros S D v w A C. apply points_corner in A, C; auto. destruct (D v w A C) as [E|E]; auto. right. unfold near. apply nlt_false. change (gsub Rops) with vsub. change (gdot Rops) with dot. cbn [nq Rops].
  replace (Q2R (1 # 100)) with (1 / 10 * (1 / 10)) by (unfold Q2R; cbn; field). rewrite <- vlen_sq. apply Rmult_le_compat; lra.
Qed.
