(** The planes contain the surface (outer), or are inside of the cone (inner). *)
From Verif Require Import Prelude BoolSpec Vec3 Prim PrimSpec PrimProofs Quadric CardsSpec QuadricSpec QuadricProofs RBox RPlanes RPlaneSpec.
Open Scope R_scope.

Lemma normalize_inv a u : normalize a = Ok u -> 0 < vlen a /\ u = vscale (/ vlen a) a /\ dot u u = 1.
Proof.
  unfold normalize. destruct (Req_EM_T (vlen a) 0) as [|N]; [discriminate|]. intros H. injection H as <-.
  pose proof (vlen_nonneg a). assert (P : 0 < vlen a) by lra. split; [exact P|]. split; [reflexivity|].
  replace (dot (vscale (/ vlen a) a) (vscale (/ vlen a) a)) with (/ vlen a * / vlen a * dot a a) by (unfold dot, vscale; simpl; ring).
  rewrite <- vlen_sq. field. lra.
Qed.
Lemma mk_plane_inv q n p : mk_plane q n = Ok p -> pl_pos p = q /\ pl_axis p = vscale (/ vlen n) n /\ 0 < vlen n.
Proof.
  unfold mk_plane. destruct (normalize n) as [u|e|] eqn:E; try discriminate. cbn [bind]. intros H. injection H as <-.
  apply normalize_inv in E. cbn. tauto.
Qed.
Lemma mk_plane_pos q n p x : mk_plane q n = Ok p -> (pl_pos_side x p = true <-> 0 < dot n (vsub x q)).
Proof.
  intros H. apply mk_plane_inv in H. destruct H as (A & B & C). unfold pl_pos_side, pl_dist. rewrite rltb_true, A, B, scale_dot.
  assert (0 < / vlen n) by now apply Rinv_0_lt_compat. split; intros; [|nra].
  destruct (Rlt_dec 0 (dot n (vsub x q))); auto. nra.
Qed.
Lemma mapM_planes l ps x : mapM (fun q => mk_plane (fst q) (snd q)) l = Ok ps ->
  (forallb (pl_pos_side x) ps = true <-> Forall (fun q => 0 < dot (snd q) (vsub x (fst q))) l).
Proof.
  revert ps. induction l as [|(q, n) l IH]; intros ps H.
  - cbn in H. injection H as <-. split; auto.
  - cbn [mapM fst snd] in H. destruct (mk_plane q n) as [p|e|] eqn:E; try discriminate. cbn [bind] in H.
    destruct (mapM _ l) as [ps'|e|]; try discriminate. cbn [bind] in H. injection H as <-. cbn [forallb].
    rewrite andb_true_iff, (IH ps' eq_refl), (mk_plane_pos _ _ _ x E), Forall_cons_iff. cbn. tauto.
Qed.
Lemma mapM_planes_ex l ps x : mapM (fun q => mk_plane (fst q) (snd q)) l = Ok ps ->
  (existsb (pl_pos_side x) ps = true <-> Exists (fun q => 0 < dot (snd q) (vsub x (fst q))) l).
Proof.
  revert ps. induction l as [|(q, n) l IH]; intros ps H.
  - cbn in H. injection H as <-. cbn. rewrite Exists_nil. split; [discriminate|tauto].
  - cbn [mapM fst snd] in H. destruct (mk_plane q n) as [p|e|] eqn:E; try discriminate. cbn [bind] in H.
    destruct (mapM _ l) as [ps'|e|]; try discriminate. cbn [bind] in H. injection H as <-. cbn [existsb].
    rewrite orb_true_iff, (IH ps' eq_refl), (mk_plane_pos _ _ _ x E), Exists_cons. cbn. tauto.
Qed.
Lemma mapM_length {A B} (f : A -> res B) l r : mapM f l = Ok r -> length r = length l.
Proof.
  revert r. induction l as [|a l IH]; intros r H; cbn [mapM] in H; [injection H as <-; auto|].
  destruct (f a); try discriminate. cbn [bind] in H. destruct (mapM f l); try discriminate. injection H as <-. cbn. f_equal. auto.
Qed.

Lemma mapM_In {A B} (f : A -> res B) l r b : mapM f l = Ok r -> In b r -> exists a, In a l /\ f a = Ok b.
Proof.
  revert r. induction l as [|a l IH]; intros r H I; cbn [mapM] in H; [injection H as <-; destruct I|].
  destruct (f a) as [b'|e|] eqn:E; try discriminate. cbn [bind] in H. destruct (mapM f l) as [r'|e|]; try discriminate. injection H as <-.
  destruct I as [<-|I]; [exists a; split; [now left|exact E]|]. destruct (IH r' eq_refl I) as (a' & I' & E'). exists a'. split; [now right|exact E'].
Qed.

Lemma orto_spec a x y : orto_axis a = Ok (x, y) ->
  dot x x = 1 /\ dot y y = 1 /\ dot x a = 0 /\ dot y a = 0 /\ dot x y = 0 /\ exists k, 0 < k /\ y = vscale k (cross x a).
Proof.
  unfold orto_axis. set (u := if Rlt_dec _ _ then _ else _).
  destruct (normalize u) as [v|e|] eqn:E; try discriminate. cbn [bind].
  destruct (normalize (cross v a)) as [w|e|] eqn:F; try discriminate. cbn [bind]. intros H. injection H as <- <-.
  apply normalize_inv in E. apply normalize_inv in F. destruct E as (E1 & E2 & E3), F as (F1 & F2 & F3).
  assert (U : dot u a = 0) by (unfold u; destruct (Rlt_dec _ _); unfold dot, cross, ex, ez; simpl; ring).
  assert (VA : dot v a = 0) by (rewrite E2, scale_dot, U; ring).
  assert (WA : dot w a = 0) by (rewrite F2, scale_dot; unfold dot, cross; simpl; ring).
  assert (VW : dot v w = 0) by (rewrite F2, dot_comm, scale_dot; unfold dot, cross; simpl; ring).
  repeat split; auto. exists (/ vlen (cross v a)). split; [now apply Rinv_0_lt_compat|exact F2].
Qed.
Lemma orto_on a x y : dot a a = 1 -> orto_axis a = Ok (x, y) -> orthonormal (x, y, a).
Proof.
  intros A H. apply orto_spec in H. destruct H as (H1 & H2 & H3 & H4 & H5 & _). unfold orthonormal. repeat split; auto.
Qed.
Lemma radial_orto p a x y q : dot a a = 1 -> orto_axis a = Ok (x, y) ->
  radial2 p a q = dot x (vsub q p) ^ 2 + dot y (vsub q p) ^ 2.
Proof.
  intros A H. apply (orto_on a) in H; auto. unfold radial2, height. rewrite (basis_dot _ _ _ (vsub q p) (vsub q p) H).
  rewrite (dot_comm (vsub q p) a). ring.
Qed.
Lemma orto_bound a x y d : a <> vzero -> orto_axis a = Ok (x, y) ->
  dot x d ^ 2 <= dot d d - dot a d ^ 2 / dot a a /\ dot y d ^ 2 <= dot d d - dot a d ^ 2 / dot a a.
Proof.
  intros A H. apply orto_spec in H. destruct H as (H1 & H2 & H3 & H4 & H5 & _).
  pose proof (dot_pos a A) as P. set (k := dot a d / dot a a). set (e := vsub d (vscale k a)).
  assert (E : dot e e = dot d d - dot a d ^ 2 / dot a a).
  { unfold e. replace (dot (vsub d (vscale k a)) (vsub d (vscale k a))) with (dot d d - 2 * k * dot a d + k * k * dot a a) by (unfold dot, vsub, vscale; simpl; ring).
    unfold k. field. lra. }
  rewrite <- E. split.
  - replace (dot x d) with (dot x e) by (unfold e; rewrite dot_sub_r, (dot_comm x (vscale k a)), scale_dot, (dot_comm a x), H3; ring).
    pose proof (cauchy x e) as C. rewrite H1 in C. lra.
  - replace (dot y d) with (dot y e) by (unfold e; rewrite dot_sub_r, (dot_comm y (vscale k a)), scale_dot, (dot_comm a y), H4; ring).
    pose proof (cauchy y e) as C. rewrite H2 in C. lra.
Qed.

Lemma sq_bound k r : 0 < r -> k ^ 2 < r ^ 2 -> - r < k < r.
Proof. intros. split; nra. Qed.
Lemma plane_add u c r x : dot (vopp u) (vsub x (vadd c (vscale r u))) = r * dot u u - dot u (vsub x c).
Proof. unfold dot, vopp, vsub, vadd, vscale; simpl; ring. Qed.
Lemma plane_sub u c r x : dot u (vsub x (vsub c (vscale r u))) = dot u (vsub x c) + r * dot u u.
Proof. unfold dot, vopp, vsub, vadd, vscale; simpl; ring. Qed.
Lemma hole_add u c r x : dot u (vsub x (vadd c (vscale r u))) = dot u (vsub x c) - r * dot u u.
Proof. unfold dot, vopp, vsub, vadd, vscale; simpl; ring. Qed.
Lemma hole_sub u c r x : dot (vopp u) (vsub x (vsub c (vscale r u))) = - dot u (vsub x c) - r * dot u u.
Proof. unfold dot, vopp, vsub, vadd, vscale; simpl; ring. Qed.
Lemma e_unit : dot ex ex = 1 /\ dot ey ey = 1 /\ dot ez ez = 1.
Proof. unfold dot, ex, ey, ez; simpl. lra. Qed.

Lemma cyl_planes_in c a r ps x : a <> vzero -> 0 < r -> cyl_planes c a r (Some false) = Ok ps ->
  dot (vsub x c) (vsub x c) - dot a (vsub x c) ^ 2 / dot a a < r ^ 2 -> forallb (pl_pos_side x) ps = true.
Proof.
  intros A R H I. unfold cyl_planes in H. cbn [shrink] in H. destruct (orto_axis a) as [[u w]|e|] eqn:O; try discriminate. cbn [bind] in H.
  apply (mapM_planes _ _ x) in H. apply H. pose proof (orto_bound a u w (vsub x c) A O) as (B1 & B2).
  apply orto_spec in O. destruct O as (H1 & H2 & _).
  assert (K1 : dot u (vsub x c) ^ 2 < r ^ 2) by lra. assert (K2 : dot w (vsub x c) ^ 2 < r ^ 2) by lra.
  apply sq_bound in K1; auto. apply sq_bound in K2; auto.
  repeat constructor; cbn [fst snd]; rewrite ?plane_add, ?plane_sub, ?H1, ?H2; lra.
Qed.
Lemma six_in c rx ry rz ps x : six c rx ry rz = Ok ps ->
  (forallb (pl_pos_side x) ps = true <->
   - rx < vx x - vx c < rx /\ - ry < vy x - vy c < ry /\ - rz < vz x - vz c < rz).
Proof.
  intros H. unfold six in H. apply (mapM_planes _ _ x) in H. rewrite H. clear H. destruct e_unit as (E1 & E2 & E3).
  rewrite !Forall_cons_iff, Forall_nil_iff. cbn [fst snd]. rewrite !plane_add, !plane_sub, E1, E2, E3.
  unfold dot, ex, ey, ez, vsub; cbn. lra.
Qed.
Lemma hole_in c d u w ps x : dot u u = 1 -> dot w w = 1 -> hole c d u w = Ok ps ->
  0 < d -> (existsb (pl_pos_side x) ps = true <->
   d < dot u (vsub x c) \/ dot u (vsub x c) < - d \/ d < dot w (vsub x c) \/ dot w (vsub x c) < - d) /\ ps <> [].
Proof.
  intros U W H D. unfold hole in H. destruct (rltb 0 d) eqn:E; [|apply rltb_false in E; lra]. split.
  - apply (mapM_planes_ex _ _ x) in H. rewrite H. rewrite !Exists_cons, Exists_nil. cbn [fst snd]. rewrite !hole_add, !hole_sub, U, W. intuition lra.
  - apply mapM_length in H. intros ->. discriminate.
Qed.
Lemma box_planes_in o v1 v2 v3 ps x : box_planes o v1 v2 v3 = Ok ps ->
  (forallb (pl_pos_side x) ps = true <-> slab o v1 x /\ slab o v2 x /\ slab o v3 x).
Proof.
  intros H. unfold box_planes in H. apply (mapM_planes _ _ x) in H. rewrite H. clear H.
  rewrite !Forall_cons_iff, Forall_nil_iff. cbn [fst snd].
  assert (E : forall v, dot (vopp v) (vsub x (vadd o v)) = dot v v - dot v (vsub x o)) by (intros; unfold dot, vopp, vsub, vadd; simpl; ring).
  rewrite !E. unfold slab. lra.
Qed.

(** cone: cos and sin of atan t *)
Lemma cos_atan_pos t : 0 < cos (atan t).
Proof. apply cos_gt_0; pose proof (atan_bound t); lra. Qed.
Lemma sin_atan t : sin (atan t) = t * cos (atan t).
Proof.
  pose proof (cos_atan_pos t). assert (T : tan (atan t) = t) by apply tan_atan. unfold tan in T.
  assert (sin (atan t) = sin (atan t) / cos (atan t) * cos (atan t)) by (field; lra). rewrite T in H0. exact H0.
Qed.
Lemma cone_dir a rho t d : dot (vopp (vadd (vscale (- sin (atan t)) a) (vscale (cos (atan t)) rho))) d =
  cos (atan t) * (t * dot a d - dot rho d).
Proof. rewrite sin_atan. unfold dot, vopp, vadd, vscale; simpl. ring. Qed.
Lemma mapM_gen {A} (f : A -> res pl) (P : A -> Prop) (w : pl -> bool) l ps :
  (forall a p, f a = Ok p -> (w p = true <-> P a)) -> mapM f l = Ok ps ->
  (forallb w ps = true <-> Forall P l) /\ (forallb (fun p => negb (w p)) ps = true <-> Forall (fun a => ~ P a) l).
Proof.
  intros F. revert ps. induction l as [|q l IH]; intros ps H.
  - cbn in H. injection H as <-. split; split; auto.
  - cbn [mapM] in H. destruct (f q) as [p|e|] eqn:E; try discriminate. cbn [bind] in H.
    destruct (mapM f l) as [ps'|e|]; try discriminate. cbn [bind] in H. injection H as <-. cbn [forallb].
    specialize (F _ _ E). destruct (IH ps' eq_refl) as (I1 & I2). rewrite !andb_true_iff, I1, I2, !Forall_cons_iff, F, negb_true_iff.
    split; [tauto|]. rewrite <- F. destruct (w p); intuition congruence.
Qed.
Lemma cone_planes_spec c a t0 pos ps x : cone_planes c a t0 pos = Ok ps ->
  let t := shrink pos t0 in
  exists u w, orto_axis a = Ok (u, w) /\
  (forallb (pl_pos_side x) ps = true <->
     let d := vsub x c in 0 < dot a d /\ - (t * dot a d) < dot u d < t * dot a d /\ - (t * dot a d) < dot w d < t * dot a d) /\
  (forallb (fun p => negb (pl_pos_side x p)) ps = true <->
     let d := vsub x c in dot a d <= 0 /\ t * dot a d <= dot u d <= - (t * dot a d) /\ t * dot a d <= dot w d <= - (t * dot a d)).
Proof.
  intros H t. unfold cone_planes in H. fold t in H. destruct (orto_axis a) as [[u w]|e|] eqn:O; try discriminate. cbn [bind] in H.
  destruct (mapM _ _) as [l|e|] eqn:M; try discriminate. cbn [bind] in H.
  destruct (mk_plane c a) as [p|e|] eqn:P; try discriminate. cbn [bind] in H. injection H as <-.
  exists u, w. split; [reflexivity|].
  pose proof (mk_plane_pos _ _ _ x P) as HP.
  assert (G : forall rho p, mk_plane c (vopp (vadd (vscale (- sin (atan t)) a) (vscale (cos (atan t)) rho))) = Ok p ->
     (pl_pos_side x p = true <-> dot rho (vsub x c) < t * dot a (vsub x c))).
  { intros rho q Q. rewrite (mk_plane_pos _ _ _ x Q), cone_dir. pose proof (cos_atan_pos t). split; intros; nra. }
  destruct (mapM_gen _ _ (pl_pos_side x) _ _ G M) as (M1 & M2).
  assert (OU : dot (vopp u) (vsub x c) = - dot u (vsub x c)) by (unfold dot, vopp; simpl; ring).
  assert (OW : dot (vopp w) (vsub x c) = - dot w (vsub x c)) by (unfold dot, vopp; simpl; ring).
  rewrite !forallb_app, !andb_true_iff, M1, M2, !Forall_cons_iff, !Forall_nil_iff. cbn [forallb]. rewrite !andb_true_r, negb_true_iff, HP, OU, OW.
  cbv zeta. split; [intuition lra|].
  assert (NP : pl_pos_side x p = false <-> dot a (vsub x c) <= 0).
  { destruct (pl_pos_side x p); split; intros; auto; try discriminate; [assert (0 < dot a (vsub x c)) by (apply HP; auto); lra|].
    destruct (Rlt_dec 0 (dot a (vsub x c))); [|lra]. exfalso. apply HP in r. discriminate. }
  rewrite NP. intuition lra.
Qed.
Lemma f070_sq : 0 < f070 /\ 2 * f070 ^ 2 < 1.
Proof. unfold f070. split; lra. Qed.
Lemma f070_root2 m k : 0 <= m -> 0 < k -> 2 * m ^ 2 >= k ^ 2 -> f070 * k < m.
Proof.
  intros M K Q. destruct f070_sq as (F & G). destruct (Rlt_dec (f070 * k) m) as [|N]; auto. exfalso.
  assert (m * m <= (f070 * k) * (f070 * k)) by (apply Rmult_le_compat; lra).
  assert (0 < k ^ 2) by nra. assert (2 * f070 ^ 2 * k ^ 2 < 1 * k ^ 2) by (apply Rmult_lt_compat_r; auto). nra.
Qed.

Lemma cone_outer c a t dbl ps x : vlen a = 1 -> 0 < t -> cone_planes c a t (Some false) = Ok ps ->
  inside (PCone c a t dbl) x -> within (SCone dbl ps) x = true.
Proof.
  intros A T H I. apply vlen_unit in A. apply (cone_planes_spec _ _ _ _ _ x) in H. cbn [shrink] in H. destruct H as (u & w & O & P & N).
  cbn [inside] in I. destruct I as (I & S). rewrite (radial_orto c a u w x A O) in I. unfold height in I, S. rewrite (dot_comm (vsub x c) a) in I, S.
  cbv zeta in P, N. set (h := dot a (vsub x c)) in *. set (k := dot u (vsub x c)) in *. set (m := dot w (vsub x c)) in *.
  assert (I' : k ^ 2 < (t * h) ^ 2) by nra. assert (J' : m ^ 2 < (t * h) ^ 2) by nra.
  cbn [within]. destruct (Rlt_dec 0 h) as [Hh|Hh].
  - assert (0 < t * h) by nra. apply sq_bound in I'; auto. apply sq_bound in J'; auto.
    assert (P' : forallb (pl_pos_side x) ps = true) by (apply P; lra). rewrite P'. destruct dbl; reflexivity.
  - destruct S as [->|]; [|lra]. assert (h <> 0) by (intros E; rewrite E in I'; nra). assert (0 < t * - h) by nra.
    replace ((t * h) ^ 2) with ((t * - h) ^ 2) in I', J' by ring. apply sq_bound in I'; auto. apply sq_bound in J'; auto.
    assert (N' : forallb (fun p => negb (pl_pos_side x p)) ps = true) by (apply N; lra). rewrite N'. apply orb_true_r.
Qed.
Lemma cone_inner c a t dbl ps x : vlen a = 1 -> 0 < t -> cone_planes c a t (Some true) = Ok ps ->
  within (SCone dbl ps) x = true -> ~ outside (PCone c a t dbl) x.
Proof.
  intros A T H I. apply vlen_unit in A. apply (cone_planes_spec _ _ _ _ _ x) in H. cbn [shrink] in H. destruct H as (u & w & O & P & N).
  cbn [outside]. rewrite (radial_orto c a u w x A O). unfold height. rewrite (dot_comm (vsub x c) a).
  cbv zeta in P, N. set (h := dot a (vsub x c)) in *. set (k := dot u (vsub x c)) in *. set (m := dot w (vsub x c)) in *.
  destruct f070_sq as (F1 & F2).
  assert (K : forall z s, 0 <= s -> - s <= z <= s -> z ^ 2 <= s ^ 2) by (intros; nra).
  assert (Q : (t * f070 * h) ^ 2 + (t * f070 * h) ^ 2 <= t ^ 2 * h ^ 2).
  { replace ((t * f070 * h) ^ 2 + (t * f070 * h) ^ 2) with (t ^ 2 * h ^ 2 * (2 * f070 ^ 2)) by ring. assert (0 <= t ^ 2 * h ^ 2) by nra. nra. }
  assert (B : (0 < h /\ - (t * f070 * h) < k < t * f070 * h /\ - (t * f070 * h) < m < t * f070 * h) -> k ^ 2 + m ^ 2 <= t ^ 2 * h ^ 2).
  { intros (B1 & B2 & B3). assert (0 <= t * f070 * h) by (apply Rmult_le_pos; [nra|lra]). pose proof (K k (t * f070 * h)). pose proof (K m (t * f070 * h)). lra. }
  cbn [within] in I. destruct dbl.
  - apply orb_true_iff in I. destruct I as [I|I].
    + apply P, B in I. intros [|[]]; [lra|discriminate].
    + apply N in I. assert (0 <= - (t * f070 * h)) by (assert (0 <= t * f070 * - h) by (apply Rmult_le_pos; [nra|lra]); lra).
      pose proof (K k (- (t * f070 * h))). pose proof (K m (- (t * f070 * h))). replace ((- (t * f070 * h)) ^ 2) with ((t * f070 * h) ^ 2) in * by ring.
      intros [|[]]; [lra|discriminate].
  - apply P in I. pose proof (B I). intros [|(_ & ?)]; lra.
Qed.

(** paraboloid *)
Lemma tangent_in c a x y f xp rho w p q : dot a a = 1 -> 0 < f ->
  dot rho rho = 1 -> cross w rho = a -> cross w a = vopp rho -> dot rho a = 0 ->
  tangent c a x y f xp rho w = Ok p -> inside (PPara c a f) q -> pl_pos_side q p = true.
Proof.
  intros A F R C1 C2 RA H I. unfold tangent in H. destruct (normalize _) as [n|e|] eqn:E; try discriminate. cbn [bind] in H.
  apply (mk_plane_pos _ _ _ q) in H. apply H. apply normalize_inv in E. destruct E as (E1 & E2 & _). rewrite E2, scale_dot.
  apply Rmult_lt_0_compat; [now apply Rinv_0_lt_compat|].
  assert (X : cross w (vadd (vscale (2 * f) rho) (vscale xp a)) = vsub (vscale (2 * f) a) (vscale xp rho)).
  { transitivity (vadd (vscale (2 * f) (cross w rho)) (vscale xp (cross w a))).
    - apply vec_eq; unfold cross, vadd, vscale; simpl; ring.
    - rewrite C1, C2. apply vec_eq; unfold vsub, vopp, vadd, vscale; simpl; ring. }
  rewrite X.
  set (d := vsub q c).
  replace (dot (vsub (vscale (2 * f) a) (vscale xp rho)) (vsub q (vadd (vadd c (vscale xp rho)) (vscale (/ 4 * xp * xp / f) a))))
    with (2 * f * dot a d - xp * dot rho d - 2 * f * xp * dot rho a - 2 * f * (/ 4 * xp * xp / f) * dot a a + xp * xp * dot rho rho + xp * (/ 4 * xp * xp / f) * dot rho a)
    by (unfold d, dot, vsub, vadd, vscale; simpl; ring).
  rewrite A, R, RA. replace (2 * f * (/ 4 * xp * xp / f) * 1) with (xp * xp / 2) by (field; lra).
  cbn [inside] in I. unfold height in I. rewrite (dot_comm (vsub q c) a) in I. fold d in I.
  assert (B : dot rho d ^ 2 <= radial2 c a q).
  { unfold radial2, height. fold d. set (e := vsub d (vscale (dot a d) a)). pose proof (cauchy rho e) as Cy. rewrite R in Cy.
    replace (dot e e) with (dot d d - dot d a * dot d a) in Cy.
    - replace (dot rho e) with (dot rho d) in Cy; [lra|]. unfold e. rewrite dot_sub_r, (dot_comm rho (vscale _ _)), scale_dot, (dot_comm a rho), RA. ring.
    - unfold e. rewrite (dot_comm a d). rewrite len_sub_axis; auto. }
  pose proof (pow2_ge_0 (dot rho d - xp)) as PG. lra.
Qed.
Lemma para_in c a0 f ps q : vlen a0 = 1 -> 0 < f -> para_planes c a0 f = Ok ps -> inside (PPara c a0 f) q ->
  forallb (pl_pos_side q) ps = true.
Proof.
  intros A F H I. unfold para_planes in H. destruct (normalize a0) as [a|e|] eqn:E; try discriminate. cbn [bind] in H.
  assert (a = a0). { apply normalize_inv in E. destruct E as (_ & -> & _). rewrite A, Rinv_1. apply vec_eq; unfold vscale; simpl; ring. } subst a.
  apply vlen_unit in A. destruct (orto_axis a0) as [[x y]|e|] eqn:O; try discriminate. cbn [bind] in H.
  destruct (mk_plane c a0) as [p0|e|] eqn:P; try discriminate. cbn [bind] in H.
  destruct (mapM _ (seq 0 8)) as [ls|e|] eqn:M; try discriminate. cbn [bind] in H. injection H as <-.
  cbn [forallb]. apply andb_true_iff. split.
  - apply (mk_plane_pos _ _ _ q P). cbn [inside] in I. pose proof (radial2_nonneg c a0 q A). unfold height in I. rewrite (dot_comm (vsub q c) a0) in I.
    destruct (Rlt_dec 0 (dot a0 (vsub q c))); auto. nra.
  - apply orto_spec in O. destruct O as (X1 & Y1 & XA & YA & XY & k & K & EY).
    (* y = x cross a (k = 1) *)
    assert (L : dot (cross x a0) (cross x a0) = 1) by (rewrite cross_len2, X1, A, XA; ring).
    assert (k = 1).
    { rewrite EY in Y1. replace (dot (vscale k (cross x a0)) (vscale k (cross x a0))) with (k ^ 2 * dot (cross x a0) (cross x a0)) in Y1 by (unfold dot, vscale; simpl; ring). rewrite L in Y1. nra. }
    subst k. assert (EY' : y = cross x a0) by (rewrite EY; apply vec_eq; unfold vscale; simpl; ring). clear EY.
    assert (T1 : forall p s t, cross (cross p s) t = vsub (vscale (dot p t) s) (vscale (dot s t) p)) by (intros; apply vec_eq; unfold cross, vsub, vscale, dot; simpl; ring).
    assert (YX : cross y x = a0). { rewrite EY', T1, X1, (dot_comm a0 x), XA. apply vec_eq; unfold vsub, vscale; simpl; ring. }
    assert (YAA : cross y a0 = vopp x). { rewrite EY', T1, XA, A. apply vec_eq; unfold vsub, vopp, vscale; simpl; ring. }
    assert (O1 : forall p s, cross (vopp p) s = vopp (cross p s)) by (intros; apply vec_eq; unfold cross, vopp; simpl; ring).
    assert (O2 : forall p s, cross p (vopp s) = vopp (cross p s)) by (intros; apply vec_eq; unfold cross, vopp; simpl; ring).
    assert (O3 : forall p, vopp (vopp p) = p) by (intros; apply vec_eq; unfold vopp; simpl; ring).
    assert (O4 : forall p s, cross p s = vopp (cross s p)) by (intros; apply vec_eq; unfold cross, vopp; simpl; ring).
    assert (DO : forall p, dot (vopp p) (vopp p) = dot p p) by (intros; unfold dot, vopp; simpl; ring).
    assert (DA : forall p s, dot (vopp p) s = - dot p s) by (intros; unfold dot, vopp; simpl; ring).
    apply forallb_forall. intros p Ip. apply in_concat in Ip. destruct Ip as (l & Il & Ip).
    assert (T : forall n l, mapM (fun q0 => tangent c a0 x y f (para_x0 f / para_b ^ n) (fst q0) (snd q0)) [(x, y); (y, vopp x); (vopp x, vopp y); (vopp y, x)] = Ok l -> In p l -> pl_pos_side q p = true).
    { clear l Il Ip M. intros n l M Ip.
      assert (G : forall r w p, (r, w) = (x, y) \/ (r, w) = (y, vopp x) \/ (r, w) = (vopp x, vopp y) \/ (r, w) = (vopp y, x) ->
                  tangent c a0 x y f (para_x0 f / para_b ^ n) r w = Ok p -> pl_pos_side q p = true).
      { intros r w p' C Q. eapply tangent_in; [exact A|exact F| | | | |exact Q|exact I];
          destruct C as [C|[C|[C|C]]]; injection C as -> ->; rewrite ?DO, ?DA, ?O1, ?O2, ?O3, ?XA, ?YA, ?YAA, <- ?EY', ?YX, ?(O4 x y), ?O3, ?YX; auto; lra. }
      apply (mapM_In _ _ _ _ M) in Ip. destruct Ip as ((r & w) & Ia & Q). cbn [fst snd] in Q. apply (G r w); auto.
      cbn [In] in Ia. intuition congruence. }
    apply (mapM_In _ _ _ _ M) in Il. destruct Il as (n & _ & Q). eapply T; eauto.
Qed.

(** torus *)
Lemma torus_abs h s ra r : 0 < r -> (h / r) ^ 2 + ((s - ra) / r) ^ 2 < 1 -> - r < h < r /\ - r < s - ra < r.
Proof.
  intros R H. assert (E : h ^ 2 + (s - ra) ^ 2 < r ^ 2).
  { replace ((h / r) ^ 2 + ((s - ra) / r) ^ 2) with ((h ^ 2 + (s - ra) ^ 2) * / r ^ 2) in H by (field; lra).
    assert (0 < r ^ 2) by nra. apply (Rmult_lt_compat_r (r ^ 2)) in H; auto. rewrite Rmult_assoc, Rinv_l in H by lra. lra. }
  split; apply sq_bound; auto; pose proof (pow2_ge_0 h); pose proof (pow2_ge_0 (s - ra)); lra.
Qed.
Lemma hole_dif c d u w ps x s : dot u u = 1 -> dot w w = 1 -> hole c (d * f070) u w = Ok ps -> 0 <= s ->
  s ^ 2 = dot u (vsub x c) ^ 2 + dot w (vsub x c) ^ 2 -> d < s -> ps = [] \/ existsb (pl_pos_side x) ps = true.
Proof.
  intros U W H S E D. destruct (Rlt_dec 0 d) as [P|P].
  - right. assert (P' : 0 < d * f070) by (destruct f070_sq; nra). destruct (hole_in _ _ _ _ _ x U W H P') as (I & _). apply I.
    set (k := dot u (vsub x c)) in *. set (m := dot w (vsub x c)) in *.
    assert (K : forall z, 2 * z ^ 2 >= s ^ 2 -> d * f070 < z \/ z < - (d * f070)).
    { intros z Z. assert (s > 0) by lra. destruct f070_sq as (F1 & F2).
      destruct (Rle_dec 0 z).
      - left. assert (f070 * s < z) by (apply f070_root2; auto). nra.
      - right. assert (f070 * s < - z) by (apply f070_root2; nra). nra. }
    destruct (Rle_dec (s ^ 2) (2 * k ^ 2)) as [A|A]; [destruct (K k); [lra|auto|auto]|].
    assert (2 * m ^ 2 >= s ^ 2) by lra. destruct (K m); auto.
  - left. unfold hole in H. destruct (rltb 0 (d * f070)) eqn:B; [apply rltb_true in B; destruct f070_sq; nra|]. congruence.
Qed.
Lemma within_torus e i x : forallb (pl_pos_side x) e = true -> (i = [] \/ existsb (pl_pos_side x) i = true) -> within (STorus e i) x = true.
Proof. intros E [->|I]; cbn [within]; [exact E|]. destruct i; [exact E|]. rewrite E, I. reflexivity. Qed.
Lemma aligned_same a e : dot a e ^ 2 = 1 -> aligned a e = true.
Proof. intros E. unfold aligned. apply rltb_true. assert (R : Rabs (dot a e) = 1) by (unfold Rabs; destruct (Rcase_abs (dot a e)); nra). rewrite R. replace (1 - 1) with 0 by ring. rewrite Rabs_R0. apply Rinv_0_lt_compat. lra. Qed.
Lemma aligned_orth a e : dot a e = 0 -> aligned a e = false.
Proof. intros E. unfold aligned. apply rltb_false. rewrite E, Rabs_R0. replace (0 - 1) with (-1) by ring. rewrite Rabs_left by lra. lra. Qed.
Lemma torus_outer c a ra rb rc e i x : proper (PTorus c a ra rb rc) -> boxable (PTorus c a ra rb rc) ->
  torus_planes c a ra rb rc (Some false) = Ok (e, i) -> inside (PTorus c a ra rb rc) x -> within (STorus e i) x = true.
Proof.
  intros (A & RA & RB & RC) (<- & D) H I. cbn [inside] in I. clear RC.
  apply torus_abs in I; auto. destruct I as (I1 & I2). pose proof (radial2_nonneg c a x (vlen_unit _ A)) as RN.
  set (s := sqrt (radial2 c a x)) in *. assert (S0 : 0 <= s) by apply sqrt_pos. assert (S2 : s ^ 2 = radial2 c a x) by (unfold s; simpl; rewrite Rmult_1_r; apply sqrt_sqrt; auto).
  assert (DIR : forall u, - s <= u <= s -> ra - rb < s < ra + rb -> - (ra + rb) < u < ra + rb) by (intros; lra).
  assert (ABS : forall u v, s ^ 2 = u ^ 2 + v ^ 2 -> - s <= u <= s /\ - s <= v <= s) by (intros; split; split; nra).
  unfold torus_planes in H. cbn [shrink] in H. destruct e_unit as (U1 & U2 & U3).
  assert (DX : dot ex (vsub x c) = vx x - vx c) by (unfold dot, ex, vsub; simpl; ring).
  assert (DY : dot ey (vsub x c) = vy x - vy c) by (unfold dot, ey, vsub; simpl; ring).
  assert (DZ : dot ez (vsub x c) = vz x - vz c) by (unfold dot, ez, vsub; simpl; ring).
  assert (CX : (a = ex \/ a = vopp ex) \/ (a = ey \/ a = vopp ey) \/ (a = ez \/ a = vopp ez)) by tauto. clear D.
  destruct CX as [CX|[CX|CX]].
  - assert (T : aligned a ex = true) by (apply aligned_same; destruct CX; subst a; unfold dot, vopp, ex; simpl; lra). rewrite T in H.
    destruct (six _ _ _ _) as [e'|?|] eqn:E1; try discriminate. cbn [bind] in H. destruct (hole _ _ _ _) as [i'|?|] eqn:E2; try discriminate. cbn [bind] in H. injection H as <- <-.
    assert (Q : s ^ 2 = dot ey (vsub x c) ^ 2 + dot ez (vsub x c) ^ 2) by (rewrite S2; unfold radial2, height; destruct CX; subst a; unfold dot, vopp, ex, ey, ez, vsub; simpl; ring).
    apply within_torus; [|apply (hole_dif c (ra - rb) ey ez _ x s); [assumption|assumption|exact E2|exact S0|exact Q|lra]].
    apply (six_in _ _ _ _ _ x E1). destruct (ABS _ _ Q) as (Q1 & Q2). rewrite DY in Q1. rewrite DZ in Q2.
    assert (HH : height c a x = vx x - vx c \/ height c a x = - (vx x - vx c)) by (unfold height; destruct CX; subst a; [left|right]; unfold dot, vopp, ex, vsub; simpl; ring).
    split; [lra|]. lra.
  - assert (F : aligned a ex = false) by (apply aligned_orth; destruct CX; subst a; unfold dot, vopp, ex, ey; simpl; lra).
    assert (T : aligned a ey = true) by (apply aligned_same; destruct CX; subst a; unfold dot, vopp, ey; simpl; lra). rewrite F, T in H.
    destruct (six _ _ _ _) as [e'|?|] eqn:E1; try discriminate. cbn [bind] in H. destruct (hole _ _ _ _) as [i'|?|] eqn:E2; try discriminate. cbn [bind] in H. injection H as <- <-.
    assert (Q : s ^ 2 = dot ex (vsub x c) ^ 2 + dot ez (vsub x c) ^ 2) by (rewrite S2; unfold radial2, height; destruct CX; subst a; unfold dot, vopp, ex, ey, ez, vsub; simpl; ring).
    apply within_torus; [|apply (hole_dif c (ra - rb) ex ez _ x s); [assumption|assumption|exact E2|exact S0|exact Q|lra]].
    apply (six_in _ _ _ _ _ x E1). destruct (ABS _ _ Q) as (Q1 & Q2). rewrite DX in Q1. rewrite DZ in Q2.
    assert (HH : height c a x = vy x - vy c \/ height c a x = - (vy x - vy c)) by (unfold height; destruct CX; subst a; [left|right]; unfold dot, vopp, ey, vsub; simpl; ring).
    split; [lra|]. lra.
  - assert (F : aligned a ex = false) by (apply aligned_orth; destruct CX; subst a; unfold dot, vopp, ex, ez; simpl; lra).
    assert (F' : aligned a ey = false) by (apply aligned_orth; destruct CX; subst a; unfold dot, vopp, ey, ez; simpl; lra).
    assert (T : aligned a ez = true) by (apply aligned_same; destruct CX; subst a; unfold dot, vopp, ez; simpl; lra). rewrite F, F', T in H.
    destruct (six _ _ _ _) as [e'|?|] eqn:E1; try discriminate. cbn [bind] in H. destruct (hole _ _ _ _) as [i'|?|] eqn:E2; try discriminate. cbn [bind] in H. injection H as <- <-.
    assert (Q : s ^ 2 = dot ex (vsub x c) ^ 2 + dot ey (vsub x c) ^ 2) by (rewrite S2; unfold radial2, height; destruct CX; subst a; unfold dot, vopp, ex, ey, ez, vsub; simpl; ring).
    apply within_torus; [|apply (hole_dif c (ra - rb) ex ey _ x s); [assumption|assumption|exact E2|exact S0|exact Q|lra]].
    apply (six_in _ _ _ _ _ x E1). destruct (ABS _ _ Q) as (Q1 & Q2). rewrite DX in Q1. rewrite DY in Q2.
    assert (HH : height c a x = vz x - vz c \/ height c a x = - (vz x - vz c)) by (unfold height; destruct CX; subst a; [left|right]; unfold dot, vopp, ez, vsub; simpl; ring).
    split; [lra|]. lra.
Qed.

Lemma len_nz a : vlen a = 1 -> a <> vzero.
Proof. intros A ->. rewrite vlen_zero in A. lra. Qed.
(** Outer planes: what is inside of the surface is inside of the planes. *)
Lemma outer_spec s sp x : proper s -> boxable s -> to_planes s (Some false) = Ok sp -> inside s x -> within sp x = true.
Proof.
  intros P B H I. destruct s; cbn [boxable] in B; try contradiction; cbn [to_planes] in H.
  - destruct (sphere_planes _ _ _) as [l|?|] eqn:E; try discriminate. injection H as <-. cbn [within]. unfold sphere_planes in E. cbn [shrink] in E.
    apply (six_in _ _ _ _ _ x E). cbn [inside proper] in *. unfold dot, vsub in I; cbn [vx vy vz] in I.
    pose proof (pow2_ge_0 (vx x - vx c)). pose proof (pow2_ge_0 (vy x - vy c)). pose proof (pow2_ge_0 (vz x - vz c)).
    split; [|split]; (apply sq_bound; [exact P|lra]).
  - destruct (cyl_planes _ _ _ _) as [l|?|] eqn:E; try discriminate. injection H as <-. cbn [within]. destruct P as (P1 & P2).
    eapply cyl_planes_in; eauto using len_nz. cbn [inside] in I. unfold radial2, height in I. rewrite (vlen_unit _ P1). rewrite (dot_comm v). lra.
  - destruct (cyl_planes _ _ _ _) as [l|?|] eqn:E; try discriminate. injection H as <-. cbn [within]. destruct P as (P1 & P2).
    eapply cyl_planes_in; eauto. cbn [inside] in I. destruct I as (I & _). exact I.
  - destruct (cone_planes _ _ _ _) as [l|?|] eqn:E; try discriminate. injection H as <-. destruct P. eapply cone_outer; eauto.
  - destruct (para_planes _ _ _) as [l|?|] eqn:E; try discriminate. injection H as <-. cbn [within]. destruct P. eapply para_in; eauto.
  - destruct (torus_planes _ _ _ _ _ _) as [[e i]|?|] eqn:E; try discriminate. injection H as <-. eapply torus_outer; eauto.
  - destruct (box_planes _ _ _ _) as [l|?|] eqn:E; try discriminate. injection H as <-. cbn [within]. eapply box_planes_in; eauto.
Qed.
(** Inner planes of a cone: what is inside of them is not outside of the cone. *)
Lemma inner_spec c a t dbl sp x : proper (PCone c a t dbl) -> to_planes (PCone c a t dbl) (Some true) = Ok sp ->
  within sp x = true -> ~ outside (PCone c a t dbl) x.
Proof.
  intros P H I. cbn [to_planes] in H. destruct (cone_planes _ _ _ _) as [l|?|] eqn:E; try discriminate. injection H as <-. destruct P. eapply cone_inner; eauto.
Qed.
