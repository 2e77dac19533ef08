(** Geometry for RVertex: from a point of a bounded convex set one can go to a vertex of it
    without increasing a given linear function. *)
From Verif Require Import Prelude BoolSpec Vec3 Prim RBox RBoxSpec RPlanes RPlaneSpec RVertexSpec.
Open Scope R_scope.

(** a constraint: the closed positive side of a plane *)
Definition sat (c : pl) (x : vec) : Prop := 0 <= pl_dist c x.
Definition walk (x : vec) (t : R) (d : vec) : vec := vadd x (vscale t d).
Lemma dist_walk c x t d : pl_dist c (walk x t d) = pl_dist c x + t * dot (pl_axis c) d.
Proof. unfold pl_dist, walk, dot, vsub, vadd, vscale; cbn. ring. Qed.
Lemma dot_walk e x t d : dot e (walk x t d) = dot e x + t * dot e d.
Proof. unfold walk, dot, vadd, vscale; cbn. ring. Qed.

Lemma step_list x d cs : (forall c, In c cs -> sat c x) ->
  (forall c, In c cs -> 0 <= dot (pl_axis c) d) \/
  exists t c, 0 <= t /\ In c cs /\ dot (pl_axis c) d < 0 /\ on c (walk x t d) /\ forall c', In c' cs -> sat c' (walk x t d).
Proof.
  induction cs as [|c cs IH]; intros S; [left; intros ? []|].
  assert (SC : 0 <= pl_dist c x) by (apply S; now left).
  destruct IH as [A|(t & e & T & E & D & O & A)]; [intros e E; apply S; now right| |].
  - destruct (Rle_or_lt 0 (dot (pl_axis c) d)) as [L|L]; [left; intros e [<-|E]; auto|]. right.
    exists (pl_dist c x / - dot (pl_axis c) d), c. assert (0 <= pl_dist c x / - dot (pl_axis c) d). { apply Rmult_le_pos; [exact SC|]. apply Rlt_le, Rinv_0_lt_compat. lra. }
    assert (ON : on c (walk x (pl_dist c x / - dot (pl_axis c) d) d)) by (unfold on; rewrite dist_walk; field; lra).
    split; auto. split; [now left|]. split; auto. split; auto. intros e [<-|E].
    + unfold sat. rewrite ON. lra.
    + unfold sat. rewrite dist_walk. specialize (A e E). assert (0 <= pl_dist e x) by (apply S; now right). nra.
  - right. destruct (Rle_or_lt 0 (pl_dist c (walk x t d))) as [L|L].
    + exists t, e. split; auto. split; [now right|]. split; auto. split; auto. intros f [<-|F]; auto.
    + rewrite dist_walk in L. assert (N : dot (pl_axis c) d < 0) by nra.
      exists (pl_dist c x / - dot (pl_axis c) d), c. set (k := - dot (pl_axis c) d) in *. assert (K : 0 < k) by (unfold k; lra).
      assert (P : 0 <= pl_dist c x / k). { apply Rmult_le_pos; [exact SC|]. apply Rlt_le, Rinv_0_lt_compat. lra. }
      assert (Q : pl_dist c x / k <= t). { apply (Rmult_le_reg_r k); auto. unfold Rdiv. rewrite Rmult_assoc, Rinv_l by lra. unfold k in *. lra. }
      assert (ON : on c (walk x (pl_dist c x / k) d)) by (unfold on; rewrite dist_walk; unfold k; field; unfold k in K; lra).
      split; auto. split; [now left|]. split; auto. split; auto. intros f [<-|F].
      * unfold sat. rewrite ON. lra.
      * assert (S1 : 0 <= pl_dist f x) by (apply S; now right). specialize (A f F). unfold sat in *. rewrite dist_walk in *. set (s := pl_dist c x / k) in *. set (m := dot (pl_axis f) d) in *. destruct (Rle_or_lt 0 m); nra.
Qed.
(** the six oriented faces *)
Definition inward (b : bbox) : list pl :=
  [ PL (V (xmin b) 0 0) ex; PL (V (xmax b) 0 0) (vopp ex); PL (V 0 (ymin b) 0) ey; PL (V 0 (ymax b) 0) (vopp ey);
    PL (V 0 0 (zmin b)) ez; PL (V 0 0 (zmax b)) (vopp ez) ].
Lemma inward_sat b x : (forall c, In c (inward b) -> sat c x) <-> in_box b x.
Proof.
  unfold inward, sat, in_box, pl_dist, dot, vsub, vopp, ex, ey, ez; cbn. split.
  - intros H. pose proof (H _ (or_introl eq_refl)). pose proof (H _ (or_intror (or_introl eq_refl))). pose proof (H _ (or_intror (or_intror (or_introl eq_refl)))).
    pose proof (H _ (or_intror (or_intror (or_intror (or_introl eq_refl))))). pose proof (H _ (or_intror (or_intror (or_intror (or_intror (or_introl eq_refl)))))).
    pose proof (H _ (or_intror (or_intror (or_intror (or_intror (or_intror (or_introl eq_refl))))))). cbn in *. lra.
  - intros H c [<-|[<-|[<-|[<-|[<-|[<-|[]]]]]]]; cbn; lra.
Qed.
Lemma bounded b d : d <> vzero -> exists c, In c (inward b) /\ dot (pl_axis c) d < 0.
Proof.
  intros H. destruct d as [a e f].
  assert (K : forall n, In n [ex; vopp ex; ey; vopp ey; ez; vopp ez] -> exists c, In c (inward b) /\ pl_axis c = n).
  { intros n I. assert (X : In n (map pl_axis (inward b))) by exact I. apply in_map_iff in X. destruct X as (c & E & C). exists c. auto. }
  assert (K' : forall n, In n [ex; vopp ex; ey; vopp ey; ez; vopp ez] -> dot n (V a e f) < 0 -> exists c, In c (inward b) /\ dot (pl_axis c) (V a e f) < 0).
  { intros n I L. destruct (K n I) as (c & C & E). exists c. rewrite E. auto. }
  destruct (Rtotal_order a 0) as [L|[L|L]]; [apply (K' ex)|destruct (Rtotal_order e 0) as [M|[M|M]]; [apply (K' ey)|destruct (Rtotal_order f 0) as [N|[N|N]]; [apply (K' ez)|elim H; subst; reflexivity|apply (K' (vopp ez))]|apply (K' (vopp ey))]|apply (K' (vopp ex))];
    try (unfold dot, vopp, ex, ey, ez; cbn; lra); cbn; tauto.
Qed.
Lemma step b cs x d : incl (inward b) cs -> (forall c, In c cs -> sat c x) -> d <> vzero ->
  exists t c, 0 <= t /\ In c cs /\ dot (pl_axis c) d < 0 /\ on c (walk x t d) /\ forall c', In c' cs -> sat c' (walk x t d).
Proof.
  intros I S D. destruct (step_list x d cs S) as [A|A]; auto. exfalso. destruct (bounded b d D) as (c & C & L). specialize (A c (I c C)). lra.
Qed.
Lemma vzero_dec (d : vec) : d = vzero \/ d <> vzero.
Proof.
  destruct d as [x y z]. destruct (Req_EM_T x 0), (Req_EM_T y 0), (Req_EM_T z 0); [left; subst; reflexivity|right; intros E; injection E; auto..].
Qed.
Lemma perp n : n <> vzero -> exists u, u <> vzero /\ dot n u = 0.
Proof.
  intros H. destruct n as [a b c]. destruct (Req_EM_T a 0) as [->|A].
  - exists ex. split; [intros E; injection E; lra|unfold dot, ex; cbn; ring].
  - exists (V (- b) a 0). split; [intros E; injection E; lra|unfold dot; cbn; ring].
Qed.
Lemma down e u : u <> vzero -> exists d, d <> vzero /\ dot e d <= 0 /\ (forall n, dot n u = 0 -> dot n d = 0) /\ (d = u \/ d = vopp u).
Proof.
  intros H. destruct (Rle_or_lt (dot e u) 0); [exists u; repeat split; auto|]. exists (vopp u).
  assert (X : forall n, dot n (vopp u) = - dot n u) by (intros; unfold dot, vopp; cbn; ring).
  split; [|split; [rewrite X; lra|split; [intros n N; rewrite X, N; ring|auto]]].
  intros E. apply H. destruct u as [a b c]. injection E as A B C. unfold vzero. f_equal; lra.
Qed.
Lemma indep_dir n1 n2 u : n1 <> vzero -> dot n1 u = 0 -> dot n2 u <> 0 -> cross n1 n2 <> vzero.
Proof.
  intros H1 H2 H3 E. assert (X : dot n1 n1 * dot n2 u = dot n1 n2 * dot n1 u + dot (cross n1 n2) (cross n1 u)).
  { destruct n1, n2, u; unfold dot, cross; cbn; ring. }
  rewrite H2, E in X. pose proof (dot_pos n1 H1). assert (Y : dot n1 n1 * dot n2 u = 0). { rewrite X. unfold dot, vzero, cross; cbn. ring. }
  apply Rmult_integral in Y. lra.
Qed.
(** the vertex *)
Lemma purify b cs x e : incl (inward b) cs -> (forall c, In c cs -> sat c x) -> e <> vzero ->
  exists y p q r, (forall c, In c cs -> sat c y) /\ dot e y <= dot e x /\
    In p cs /\ In q cs /\ In r cs /\ indep p q r /\ on p y /\ on q y /\ on r y.
Proof.
  intros I S E.
  assert (NE : vopp e <> vzero). { intros Z. apply E. destruct e as [a b' c]. injection Z as A B C. unfold vzero. f_equal; lra. }
  destruct (step b cs x (vopp e) I S NE) as (t1 & p & T1 & P & D1 & O1 & S1).
  assert (NP : pl_axis p <> vzero). { intros Z. rewrite Z in D1. unfold dot, vzero in D1; cbn in D1. lra. }
  destruct (perp (pl_axis p) NP) as (u & U & PU). destruct (down e u U) as (d2 & N2 & L2 & K2 & _).
  destruct (step b cs (walk x t1 (vopp e)) d2 I S1 N2) as (t2 & q & T2 & Q & D2 & O2 & S2).
  assert (O1' : on p (walk (walk x t1 (vopp e)) t2 d2)). { unfold on. rewrite dist_walk, O1, (K2 _ PU). ring. }
  assert (C : cross (pl_axis p) (pl_axis q) <> vzero) by (eapply indep_dir; [exact NP|exact (K2 _ PU)|lra]).
  destruct (down e _ C) as (d3 & N3 & L3 & K3 & SG).
  destruct (step b cs _ d3 I S2 N3) as (t3 & r & T3 & R3 & D3 & O3 & S3).
  exists (walk (walk (walk x t1 (vopp e)) t2 d2) t3 d3), p, q, r. split; [exact S3|]. split; [|split; [exact P|split; [exact Q|split; [exact R3|split; [|split; [|split]]]]]].
  - rewrite !dot_walk. assert (X : dot e (vopp e) = - dot e e) by (unfold dot, vopp; cbn; ring). rewrite X. pose proof (dot_nonneg e). nra.
  - unfold indep. intros Z. assert (X : dot (pl_axis r) (cross (pl_axis p) (pl_axis q)) = 0) by (rewrite <- Z; unfold dot; ring). rewrite (K3 _ X) in D3. lra.
  - unfold on. rewrite dist_walk, O1'. rewrite K3; [ring|]. unfold dot, cross; cbn; ring.
  - unfold on. rewrite dist_walk, O2. rewrite K3; [ring|]. unfold dot, cross; cbn; ring.
  - exact O3.
Qed.

(** flipping a plane *)
Definition flip (p : pl) : pl := PL (pl_pos p) (vopp (pl_axis p)).
Lemma flip_dist p x : pl_dist (flip p) x = - pl_dist p x.
Proof. unfold pl_dist, flip, dot, vopp; cbn. ring. Qed.
Definition same_pl (c p : pl) : Prop := c = p \/ c = flip p.
Lemma same_on c p x : same_pl c p -> on c x -> on p x.
Proof. intros [->| ->]; auto. unfold on. rewrite flip_dist. lra. Qed.
Lemma same_indep c1 c2 c3 p1 p2 p3 : same_pl c1 p1 -> same_pl c2 p2 -> same_pl c3 p3 -> indep c1 c2 c3 -> indep p1 p2 p3.
Proof.
  unfold same_pl, indep, flip. intros [->| ->] [->| ->] [->| ->] H Z; apply H; destruct p1 as [? []], p2 as [? []], p3 as [? []]; unfold dot, cross, vopp in *; cbn in *; lra.
Qed.
Lemma inward_face b c : In c (inward b) -> exists f, In f (faces b) /\ same_pl c f.
Proof.
  unfold inward, faces. intros [<-|[<-|[<-|[<-|[<-|[<-|[]]]]]]]; [exists (PL (V (xmin b) 0 0) ex)|exists (PL (V (xmax b) 0 0) ex)|exists (PL (V 0 (ymin b) 0) ey)|exists (PL (V 0 (ymax b) 0) ey)|exists (PL (V 0 0 (zmin b)) ez)|exists (PL (V 0 0 (zmax b)) ez)];
    (split; [cbn; tauto|]); unfold same_pl, flip; cbn; auto.
Qed.
(** the point where three planes meet is unique *)
Lemma meet_unique p q r x y : indep p q r -> on p x -> on q x -> on r x -> on p y -> on q y -> on r y -> x = y.
Proof.
  unfold indep, on. intros D A1 A2 A3 B1 B2 B3.
  assert (K : forall n, pl_dist n x = 0 -> pl_dist n y = 0 -> dot (pl_axis n) (vsub x y) = 0). { intros n X Y. unfold pl_dist in *. replace (vsub x y) with (vsub (vsub x (pl_pos n)) (vsub y (pl_pos n))) by (apply vec_eq; unfold vsub; cbn; ring).
    replace (dot (pl_axis n) (vsub (vsub x (pl_pos n)) (vsub y (pl_pos n)))) with (dot (pl_axis n) (vsub x (pl_pos n)) - dot (pl_axis n) (vsub y (pl_pos n))) by (unfold dot, vsub; cbn; ring). lra. }
  pose proof (K p A1 B1) as K1. pose proof (K q A2 B2) as K2. pose proof (K r A3 B3) as K3. clear - D K1 K2 K3.
  set (w := vsub x y) in *. set (a := pl_axis p) in *. set (b := pl_axis q) in *. set (c := pl_axis r) in *.
  assert (W : w = vzero).
  { assert (X : forall e, dot (cross a b) c * dot w e = dot a w * dot (cross b c) e + dot b w * dot (cross c a) e + dot c w * dot (cross a b) e). { intros e. destruct a, b, c, w, e; unfold dot, cross; cbn; ring. }
    rewrite K1, K2, K3 in X. apply dot_zero. specialize (X w). assert (Z : dot (cross a b) c * dot w w = 0) by (rewrite X; ring). apply Rmult_integral in Z. tauto. }
  unfold w, vsub, vzero in W. injection W as W1 W2 W3. apply vec_eq; lra.
Qed.
