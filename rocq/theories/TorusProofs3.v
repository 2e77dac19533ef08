(** The annex planes around the axis. *)
From Verif Require Import Prelude Vec3 Geom Prim PrimProofs SurfCards SurfCardSpec SurfCardProofs SameProofs.
From Verif Require Import AddPlane AddPlaneSpec AddPlaneProofs AddPlaneProofs2 AddPlaneProofs3 TorusAnnex TorusSpec TorusProofs.
From Coq Require Import List.
Open Scope R_scope.

Lemma sin_turn x z : sin (x + 2 * PI * IZR z) = sin x.
Proof.
  assert (N : forall n x, sin (x + 2 * PI * INR n) = sin x).
  { intros n y. rewrite <- (sin_period y n). f_equal. ring. }
  destruct z as [|p|p].
  - f_equal. ring.
  - rewrite <- (positive_nat_Z p), <- INR_IZR_INZ. apply N.
  - rewrite <- Pos2Z.opp_pos, opp_IZR, <- (positive_nat_Z p), <- INR_IZR_INZ.
    rewrite <- (N (Pos.to_nat p) (x + _)). f_equal. ring.
Qed.
Lemma cos_turn x z : cos (x + 2 * PI * IZR z) = cos x.
Proof. rewrite !cos_sin, <- (sin_turn (PI / 2 + x) z). f_equal. ring. Qed.
Lemma reduce_turn a u : exists z : Z, a <= u + 2 * PI * IZR z < a + 2 * PI.
Proof.
  pose proof PI_RGT_0 as P. set (q := (u - a) / (2 * PI)). exists (- Int_part q)%Z.
  destruct (base_Int_part q) as [H1 H2]. rewrite opp_IZR.
  assert (E : u = a + 2 * PI * q) by (unfold q; field; lra). rewrite E. nra.
Qed.

Section UPlanes.
Variables (X Y A C : vec) (ro ri : R).
Hypothesis F : frame X Y A.
Hypothesis rr : 0 < ri < ro.
Notation pt := (torus_point X Y A C ro ri).
Definition polar (k w : R) : vec := comb X Y A (k * cos w) (k * sin w) 0.

Lemma polar_dot k w a b u z : dot (polar k w) (comb X Y A (a * cos u) (b * sin u) z) = k * (a * cos w * cos u + b * sin w * sin u).
Proof. unfold polar. rewrite comb_dot by exact F. ring. Qed.
Lemma polar_side k w u v : side C (polar k w) (pt u v) = k * ((ro + ri * cos v) * cos (u - w)).
Proof. unfold side. rewrite (tor_rel X Y A C ro ri F), polar_dot, cos_minus. ring. Qed.

Lemma toward_polar k w c w' z : eps_len <= Rabs k -> 0 < c -> cos (w' - w) <> 0 ->
  toward (polar k w) (comb X Y A (c * cos w') (c * sin w') z) = Ok (polar (if rltb (cos (w' - w)) 0 then -1 else 1) w).
Proof.
  intros Hk Hc Hw. assert (He : 0 < eps_len) by (unfold eps_len; apply Rinv_0_lt_compat, pow_lt; lra).
  unfold toward, normalize. replace (vlen (polar k w)) with (Rabs k) by (unfold polar; rewrite (comb_len_polar X Y A F); auto).
  destruct (rltb (Rabs k) eps_len) eqn:E; [apply rltb_true in E; lra|]. cbn [bind].
  set (g := / Rabs k * k).
  assert (Hg : g = 1 \/ g = -1).
  { unfold g, Rabs. unfold Rabs in Hk. destruct (Rcase_abs k); [right|left]; field; lra. }
  assert (Eg : vscale (/ Rabs k) (polar k w) = polar g w).
  { unfold polar. rewrite comb_scale by exact F. unfold polar, g. f_equal; ring. }
  rewrite Eg. rewrite polar_dot. 
  replace (g * (c * cos w * cos w' + c * sin w * sin w')) with (g * (c * cos (w' - w))) by (rewrite cos_minus; ring).
  f_equal.
  assert (Op : vopp (polar g w) = polar (- g) w) by (unfold polar; rewrite comb_opp by exact F; f_equal; ring).
  destruct (rltb (g * (c * cos (w' - w))) 0) eqn:L1, (rltb (cos (w' - w)) 0) eqn:L2;
    rewrite ?Op; (apply rltb_true in L1 || apply rltb_false in L1); (apply rltb_true in L2 || apply rltb_false in L2); f_equal;
    destruct Hg as [-> | ->]; try ring; exfalso; nra.
Qed.

Lemma narrow_normal s u1 u2 v : s = 1 \/ s = -1 ->
  cross (vscale s A) (vsub (pt u2 v) (pt u1 v)) = polar (- 2 * s * (ro + ri * cos v) * sin ((u2 - u1) / 2)) (1 / 2 * (u1 + u2)).
Proof.
  intros Hs. rewrite (tor_diff X Y A C ro ri F), (cross_A_comb X Y A F). unfold polar. 
  replace (1 / 2 * (u1 + u2)) with ((u2 + u1) / 2) by field. set (k := ro + ri * cos v).
  f_equal.
  - replace (k * sin u2 - k * sin u1) with (k * (sin u2 - sin u1)) by ring. rewrite form4. ring.
  - replace (k * cos u2 - k * cos u1) with (k * (cos u2 - cos u1)) by ring. rewrite form2. ring.
Qed.
Lemma wide_normal s h u v : s = 1 \/ s = -1 -> C = vscale h A ->
  cross (vscale s A) (pt u v) = polar (s * (ro + ri * cos v)) (u + PI / 2).
Proof.
  intros Hs HC. 
  assert (E : pt u v = comb X Y A ((ro + ri * cos v) * cos u) ((ro + ri * cos v) * sin u) (h + ri * sin v)).
  { unfold torus_point, comb. rewrite HC. destruct X, Y, A. unfold vadd, vscale. cbn. apply vec_eq; cbn; ring. }
  rewrite E, (cross_A_comb X Y A F). unfold polar. rewrite cos_plus, sin_plus, cos_PI2, sin_PI2. f_equal; ring.
Qed.
End UPlanes.

Lemma eps_pos : 0 < eps_len.
Proof. unfold eps_len. apply Rinv_0_lt_compat, pow_lt. lra. Qed.

Lemma u_narrow_eq f X Y A C ro ri ta tv u1 u2 vm :
  torus_face f X Y A C ro ri -> 0 < ta <= PI / 2 ->
  Rabs (Rabs (u2 - u1) - PI) < tv \/ u2 - u1 < PI ->
  eps_len <= 2 * (ro + ri * cos vm) * Rabs (sin ((u2 - u1) / 2)) ->
  u_planes ta tv f u1 u2 vm = Ok ((C, polar X Y A 1 (1 / 2 * (u1 + u2))), None, false).
Proof.
  intros (F & HA & rr & ->) Hta Hb He. destruct (tor_axis_ok ta A Hta HA) as (s & Hs & EA).
  unfold u_planes. cbn [tf_axis tf_center tf_major tf_value]. rewrite EA. cbn [bind].
  pose proof (tube_pos ro ri rr vm) as P.
  assert (T : toward (cross (vscale s A) (vsub (torus_point X Y A C ro ri u2 vm) (torus_point X Y A C ro ri u1 vm)))
               (vsub (torus_point X Y A C ro ri (1 / 2 * (u1 + u2)) vm) C) = Ok (polar X Y A 1 (1 / 2 * (u1 + u2)))).
  { rewrite (narrow_normal X Y A C ro ri F s u1 u2 vm Hs), (tor_rel X Y A C ro ri F).
    rewrite (toward_polar X Y A F).
    - replace (1 / 2 * (u1 + u2) - 1 / 2 * (u1 + u2)) with 0 by ring. rewrite cos_0.
      destruct (rltb 1 0) eqn:E; auto. apply rltb_true in E. lra.
    - rewrite !Rabs_mult, (Rabs_right (ro + _)) by lra.
      replace (Rabs (- 2)) with 2 by (rewrite Rabs_left; lra).
      replace (Rabs s) with 1; [lra|]. destruct Hs as [-> | ->]; [rewrite Rabs_R1|rewrite Rabs_left]; lra.
    - exact P.
    - replace (1 / 2 * (u1 + u2) - 1 / 2 * (u1 + u2)) with 0 by ring. rewrite cos_0. lra. }
  rewrite T. cbn [bind].
  destruct (rltb _ tv) eqn:E1; auto. destruct (rltb (u2 - u1) PI) eqn:E2; auto.
  apply rltb_false in E1, E2. lra.
Qed.

Lemma u_wide_eq f X Y A C ro ri ta tv u1 u2 vm h :
  torus_face f X Y A C ro ri -> 0 < ta <= PI / 2 -> C = vscale h A ->
  0 < tv -> PI + tv <= u2 - u1 < 2 * PI -> eps_len <= ro + ri * cos vm ->
  u_planes ta tv f u1 u2 vm = Ok ((C, polar X Y A 1 (u1 + PI / 2)), Some (C, polar X Y A (-1) (u2 + PI / 2)), true).
Proof.
  intros (F & HA & rr & ->) Hta HC Htv Hu He. destruct (tor_axis_ok ta A Hta HA) as (s & Hs & EA).
  unfold u_planes. cbn [tf_axis tf_center tf_major tf_value]. rewrite EA. cbn [bind].
  pose proof (tube_pos ro ri rr vm) as P. pose proof PI_RGT_0 as PP.
  assert (E1 : rltb (Rabs (Rabs (u2 - u1) - PI)) tv = false).
  { apply rltb_false. rewrite (Rabs_right (u2 - u1)) by lra. rewrite Rabs_right; lra. }
  assert (E2 : rltb (u2 - u1) PI = false) by (apply rltb_false; lra).
  rewrite E1, E2.
  assert (S : 0 < sin ((u2 - u1) / 2)) by (apply half_pos; lra).
  assert (K : eps_len <= Rabs (s * (ro + ri * cos vm))).
  { rewrite Rabs_mult, (Rabs_right (ro + _)) by lra.
    replace (Rabs s) with 1; [lra|]. destruct Hs as [-> | ->]; [rewrite Rabs_R1|rewrite Rabs_left]; lra. }
  assert (C1 : cos (1 / 2 * (u1 + u2) - (u1 + PI / 2)) = sin ((u2 - u1) / 2)).
  { rewrite <- sin_shift, <- (sin_PI_x ((u2 - u1) / 2)). f_equal. field. }
  assert (C2 : cos (1 / 2 * (u1 + u2) - (u2 + PI / 2)) = - sin ((u2 - u1) / 2)).
  { rewrite <- sin_neg, <- sin_shift. replace (PI / 2 - (1 / 2 * (u1 + u2) - (u2 + PI / 2))) with (PI - - ((u2 - u1) / 2)) by field. apply sin_PI_x. }
  rewrite !(wide_normal X Y A C ro ri F s h) by auto. rewrite (tor_rel X Y A C ro ri F).
  rewrite !(toward_polar X Y A F); auto; try lra. rewrite C1, C2. cbn [bind].
  destruct (rltb (sin _) 0) eqn:L1; [apply rltb_true in L1; lra|].
  destruct (rltb (- sin _) 0) eqn:L2; [|apply rltb_false in L2; lra]. reflexivity.
Qed.
