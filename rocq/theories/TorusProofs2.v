(** The annex surface along the tube. *)
From Verif Require Import Prelude Vec3 Geom Prim PrimProofs SurfCards SurfCardSpec SurfCardProofs SameProofs.
From Verif Require Import AddPlane AddPlaneSpec AddPlaneProofs AddPlaneProofs2 AddPlaneProofs3 TorusAnnex TorusSpec TorusProofs.
From Coq Require Import List.
Open Scope R_scope.

Definition sided (f : R -> R) (inn : bool) (v1 v2 : R) : Prop :=
  (forall v, v1 < v < v2 -> if inn then f v < 0 else 0 < f v)
  /\ (forall v, v2 < v < v1 + 2 * PI -> if inn then 0 < f v else f v < 0).

Lemma sided_mid f k v1 v2 (inn : bool) : 0 < v2 - v1 < 2 * PI -> k <> 0 -> (forall v, f v = k * chord v1 v2 v) ->
  (if inn then f ((v1 + v2) * (1 / 2)) < 0 else 0 <= f ((v1 + v2) * (1 / 2))) -> sided f inn v1 v2.
Proof.
  intros H K E M. assert (P : 0 < chord v1 v2 ((v1 + v2) * (1 / 2))) by (apply chord_in_strict; lra).
  rewrite E in M. unfold sided.
  destruct inn.
  - assert (k < 0) by nra. split; intros v Hv; rewrite E.
    + pose proof (chord_in_strict v1 v2 v H Hv). nra.
    + pose proof (chord_out v1 v2 v H Hv). nra.
  - assert (0 < k) by nra. split; intros v Hv; rewrite E.
    + pose proof (chord_in_strict v1 v2 v H Hv). nra.
    + pose proof (chord_out v1 v2 v H Hv). nra.
Qed.

Lemma chord_eq v1 v2 v : (sin v2 - sin v1) * (cos v - cos v1) - (cos v2 - cos v1) * (sin v - sin v1) = chord v1 v2 v.
Proof. apply chord_trig. Qed.
Lemma not_both v1 v2 : 0 < v2 - v1 < 2 * PI -> ~ (sin v2 = sin v1 /\ cos v2 = cos v1).
Proof.
  intros H [E1 E2]. assert (P : 0 < chord v1 v2 ((v1 + v2) * (1 / 2))) by (apply chord_in_strict; lra).
  rewrite <- chord_eq, E1, E2 in P. lra.
Qed.

Lemma plane_sided ri s v1 v2 (inn : bool) : 0 < v2 - v1 < 2 * PI -> 0 < ri -> s = 1 \/ s = -1 -> sin v1 = sin v2 ->
  (if inn then s * (ri * sin ((v1 + v2) * (1 / 2))) < s * (ri * sin v1) else s * (ri * sin v1) <= s * (ri * sin ((v1 + v2) * (1 / 2)))) ->
  sided (fun v => s * (ri * sin v) - s * (ri * sin v1)) inn v1 v2.
Proof.
  intros H Hr Hs E M. assert (N : cos v2 - cos v1 <> 0) by (intros Z; apply (not_both v1 v2 H); split; lra).
  apply (sided_mid _ (- (s * ri) / (cos v2 - cos v1))); auto.
  - intros Z. assert (s * ri <> 0) by (destruct Hs as [-> | ->]; lra). apply H0.
    replace (s * ri) with (- ((- (s * ri) / (cos v2 - cos v1)) * (cos v2 - cos v1))) by (field; auto). rewrite Z. ring.
  - intros v. rewrite <- chord_eq, <- E. field. auto.
  - destruct inn; lra.
Qed.

Lemma cyl_sided ri v1 v2 (inn : bool) : 0 < v2 - v1 < 2 * PI -> 0 < ri -> cos v1 = cos v2 ->
  (if inn then cos ((v1 + v2) * (1 / 2)) < cos v1 else cos v1 <= cos ((v1 + v2) * (1 / 2))) ->
  sided (fun v => ri * cos v - ri * cos v1) inn v1 v2.
Proof.
  intros H Hr E M. assert (N : sin v2 - sin v1 <> 0) by (intros Z; apply (not_both v1 v2 H); split; lra).
  apply (sided_mid _ (ri / (sin v2 - sin v1))); auto.
  - intros Z. assert (ri <> 0) by lra. apply H0.
    replace ri with ((ri / (sin v2 - sin v1)) * (sin v2 - sin v1)) by (field; auto). rewrite Z. ring.
  - intros v. rewrite <- chord_eq, <- E. field. auto.
  - destruct inn; nra.
Qed.

(** equal distances to the axis, at most half a turn: the middle is the innermost or outermost point *)
Lemma cyl_mid v1 v2 : 0 < v2 - v1 <= PI -> cos v1 = cos v2 ->
  (cos v1 < 0 -> cos ((v1 + v2) * (1 / 2)) < cos v1) /\ (0 < cos v1 -> cos v1 < cos ((v1 + v2) * (1 / 2))).
Proof.
  intros H E. set (m := (v1 + v2) * (1 / 2)). set (d := (v2 - v1) * (1 / 2)).
  assert (E1 : v1 = m - d) by (unfold m, d; field). assert (E2 : v2 = m + d) by (unfold m, d; field).
  assert (Hd : 0 < d <= PI / 2) by (unfold d; lra).
  assert (S : 0 < sin d) by (apply sin_gt_0; lra).
  assert (Cd : 0 <= cos d) by (apply cos_ge_0; lra).
  assert (C1 : cos d < 1). { pose proof (sin2_cos2 d) as Q. unfold Rsqr in Q. nra. }
  rewrite E1, E2, cos_minus, cos_plus in E. rewrite E1, cos_minus.
  assert (Z : sin m = 0) by nra. rewrite Z, Rmult_0_l, Rplus_0_r.
  assert (Q : cos m * cos m = 1). { pose proof (sin2_cos2 m) as Q. unfold Rsqr in Q. rewrite Z in Q. lra. }
  assert (cos m = 1 \/ cos m = -1) as [-> | ->] by (assert ((cos m - 1) * (cos m + 1) = 0) as T by lra; apply Rmult_integral in T as [T|T]; [left|right]; lra).
  - split; intros; nra.
  - split; intros; nra.
Qed.

Lemma cone_sided ri v1 v2 (inn : bool) : 0 < v2 - v1 < 2 * PI -> 0 < ri -> sin v1 <> sin v2 ->
  let f v := ri * (cos v - cos v1) - ri * ((cos v2 - cos v1) / (sin v2 - sin v1)) * (sin v - sin v1) in
  (if inn then f ((v1 + v2) * (1 / 2)) < 0 else 0 <= f ((v1 + v2) * (1 / 2))) ->
  sided f inn v1 v2.
Proof.
  intros H Hr E f M. assert (N : sin v2 - sin v1 <> 0) by lra.
  apply (sided_mid f (ri / (sin v2 - sin v1))); auto.
  - intros Z. assert (ri <> 0) by lra. apply H0.
    replace ri with ((ri / (sin v2 - sin v1)) * (sin v2 - sin v1)) by (field; auto). rewrite Z. ring.
  - intros v. unfold f. rewrite <- chord_eq. field. auto.
Qed.

Lemma clear_lt t a b : clear_cut t a b -> rltb (Rabs (a - b)) t = true -> a = b.
Proof. intros [?|?]; auto. intros T. apply rltb_true in T. lra. Qed.
Lemma clear_ge t a b : 0 < t -> rltb (Rabs (a - b)) t = false -> a <> b.
Proof. intros Ht T ->. apply rltb_false in T. replace (b - b) with 0 in T by ring; rewrite Rabs_R0 in T. lra. Qed.

Lemma sided_ext f g inn v1 v2 : (forall v, f v = g v) -> sided f inn v1 v2 -> sided g inn v1 v2.
Proof. intros E [H1 H2]. split; intros v Hv; [specialize (H1 v Hv)|specialize (H2 v Hv)]; destruct inn; rewrite <- E; assumption. Qed.

Lemma vscale_pm s A : vscale (-1 * s) A = vopp (vscale s A).
Proof. destruct A. unfold vscale, vopp. cbn. apply vec_eq; cbn; ring. Qed.

Section VSurf.
Variables (f : tface) (X Y A C : vec) (ro ri ta td v1 v2 : R).
Hypothesis T : torus_face f X Y A C ro ri.
Hypothesis Hta : 0 < ta <= PI / 2.
Hypothesis Htd : 0 < td.
Hypothesis Hv : 0 < v2 - v1 < 2 * PI.
Hypothesis Cz : clear_cut td (ri * sin v1) (ri * sin v2).
Hypothesis Cd : clear_cut td (ri * cos v1) (ri * cos v2).
Hypothesis Cm : clear_cut td (ri * cos v1) 0.
Hypothesis Hc : cos v1 = cos v2 -> v2 - v1 <= PI.
Notation pt := (torus_point X Y A C ro ri).

Definition good (s : annex) (inn : bool) : Prop :=
  (forall u, beyond s (pt u v1) = 0 /\ beyond s (pt u v2) = 0)
  /\ (forall u, sided (fun v => beyond s (pt u v)) inn v1 v2).

Lemma v_surface_good : exists s inn, v_surface ta td false f v1 v2 = Ok (s, inn) /\ good s inn.
Proof.
  destruct T as (F & HA & rr & ->). destruct (tor_axis_ok ta A Hta HA) as (s & Hs & EA).
  pose proof (pm_sq s Hs) as SS.
  unfold v_surface. cbn [tf_axis tf_center tf_major tf_value]. rewrite EA. cbn [bind].
  rewrite !(tor_z X Y A C ro ri F), !(tor_d X Y A C ro ri F rr s) by auto.
  set (m := (v1 + v2) * (1 / 2)).
  replace (Rabs (s * (ri * sin v1) - s * (ri * sin v2))) with (Rabs (ri * sin v1 - ri * sin v2)).
  2:{ destruct Hs as [-> | ->]; [f_equal; ring|]. rewrite <- (Rabs_Ropp (ri * sin v1 - ri * sin v2)). f_equal. ring. }
  replace (ro + ri * cos v1 - (ro + ri * cos v2)) with (ri * cos v1 - ri * cos v2) by ring.
  destruct (rltb (Rabs (ri * sin v1 - ri * sin v2)) td) eqn:Bz.
  - apply (clear_lt td) in Bz; auto. assert (Es : sin v1 = sin v2) by nra. clear Bz.
    eexists _, _. split; [reflexivity|].
    assert (B : forall u v, beyond (NPlane (vadd C (vscale (s * (ri * sin v1)) (vscale s A))) (vscale s A)) (pt u v) = s * (ri * sin v) - s * (ri * sin v1)).
    { intros u v. cbn [beyond]. replace (vscale (s * (ri * sin v1)) (vscale s A)) with (vscale (ri * sin v1) A).
      - rewrite (tor_side X Y A C ro ri F). ring.
      - destruct Hs as [-> | ->]; destruct A; unfold vscale; cbn; apply vec_eq; cbn; ring. }
    split; intros u; [rewrite !B, <- Es; split; ring|].
    eapply sided_ext; [intros v; symmetry; apply B|]. apply plane_sided; auto; [lra|].
    destruct (rltb _ _) eqn:L; [apply rltb_true in L; auto|apply rltb_false in L; auto].
  - apply clear_ge in Bz; auto. assert (Es : sin v1 <> sin v2) by (intros E; apply Bz; rewrite E; auto). clear Bz.
    rewrite orb_false_r. destruct (rltb (Rabs (ri * cos v1 - ri * cos v2)) td) eqn:Bd.
    + apply (clear_lt td) in Bd; auto. assert (Ec : cos v1 = cos v2) by nra. clear Bd. specialize (Hc Ec).
      replace (ro + ri * cos v1 - ro) with (ri * cos v1 - 0) by ring. rewrite <- Ec, Rmax_left, Rmin_left by lra.
      assert (B : forall u v, beyond (NCyl C (vscale s A) (ro + ri * cos v1)) (pt u v) = ri * cos v - ri * cos v1).
      { intros u v. cbn [beyond]. unfold off_line. rewrite (tor_d X Y A C ro ri F rr s) by auto. ring. }
      assert (G : forall inn : bool, (if inn then cos m < cos v1 else cos v1 <= cos m) -> good (NCyl C (vscale s A) (ro + ri * cos v1)) inn).
      { intros inn M. split; intros u; [rewrite !B, <- Ec; split; ring|].
        eapply sided_ext; [intros v; symmetry; apply B|]. apply cyl_sided; auto. lra. }
      destruct (cyl_mid v1 v2 ltac:(lra) Ec) as [M1 M2]. fold m in M1, M2.
      destruct (rltb (Rabs (ri * cos v1 - 0)) td) eqn:Bm.
      * apply (clear_lt td) in Bm; auto. assert (Z : cos v1 = 0) by nra. clear Bm.
        destruct (rltb (ro + ri * cos m) ro) eqn:L; [apply rltb_true in L|apply rltb_false in L];
          (eexists _, _; split; [reflexivity|]); apply G; rewrite Z; nra.
      * apply clear_ge in Bm; auto. assert (Z : cos v1 <> 0) by (intros E; apply Bm; rewrite E; ring).
        destruct (rltb (ro + ri * cos v1) ro) eqn:L; [apply rltb_true in L|apply rltb_false in L];
          (eexists _, _; split; [reflexivity|]); apply G.
        -- apply M1. nra.
        -- assert (0 < cos v1) by (assert (0 <= cos v1) by nra; lra). specialize (M2 H). lra.
    + apply clear_ge in Bd; auto. 
      pose proof (tube_pos ro ri rr v1) as P1. pose proof (tube_pos ro ri rr v2) as P2.
      set (d1 := ro + ri * cos v1) in *. set (d2 := ro + ri * cos v2) in *.
      replace (ri * cos v1 - ri * cos v2) with (d1 - d2) by (unfold d1, d2; ring).
      assert (N : d1 - d2 <> 0) by (unfold d1, d2; lra). destruct (Req_EM_T (d1 - d2) 0); [contradiction|].
      set (z1 := s * (ri * sin v1)). set (z2 := s * (ri * sin v2)).
      assert (Nz : z1 - z2 <> 0).
      { unfold z1, z2. intros E. assert (s * ri * (sin v1 - sin v2) = 0) by lra.
        apply Rmult_integral in H as [H|H]; [|lra]. destruct Hs as [-> | ->]; lra. }
      set (za := (z2 * d1 - z1 * d2) / (d1 - d2)).
      assert (Ez : z1 - za = d1 * (z1 - z2) / (d1 - d2)) by (unfold za; field; auto).
      assert (Nza : z1 - za <> 0).
      { rewrite Ez. intros E. assert (d1 * (z1 - z2) = 0).
        { replace (d1 * (z1 - z2)) with (d1 * (z1 - z2) / (d1 - d2) * (d1 - d2)) by (field; auto). rewrite E. ring. }
        apply Rmult_integral in H as [H|H]; lra. }
      destruct (Req_EM_T (z1 - za) 0); [contradiction|].
      eexists _, _. split; [reflexivity|].
      set (ax := if rltb 0 (z1 - za) then vscale s A else vopp (vscale s A)).
      set (semi := Rabs (atan (d1 / (z1 - za)))).
      set (q := (cos v2 - cos v1) / (sin v2 - sin v1)).
      set (y := d1 / (z1 - za)).
      assert (Ey : y = (d1 - d2) / (z1 - z2)) by (unfold y; rewrite Ez; field; repeat split; auto; lra).
      assert (Q : s * y = q).
      { rewrite Ey. unfold q. replace (d1 - d2) with (ri * (cos v1 - cos v2)) by (unfold d1, d2; ring).
        replace (z1 - z2) with (s * ri * (sin v1 - sin v2)) by (unfold z1, z2; ring).
        destruct Hs as [-> | ->]; field; repeat split; lra. }
      assert (Hax : exists s', (s' = 1 \/ s' = -1) /\ ax = vscale s' A /\ s' * Rabs y = s * y).
      { assert (y * (z1 - za) = d1) by (unfold y; field; auto).
        unfold ax. destruct (rltb 0 (z1 - za)) eqn:L; [apply rltb_true in L|apply rltb_false in L].
        - exists s. rewrite Rabs_right; [auto|]. assert (0 < y) by (unfold y; apply Rdiv_lt_0_compat; lra). lra.
        - exists (-1 * s). rewrite <- vscale_pm. split; [destruct Hs as [-> | ->]; [right|left]; ring|]. split; auto.
          rewrite Rabs_left; [ring|]. assert (z1 - za < 0) by lra. nra. }
      destruct Hax as (s' & Hs' & Eax & Es').
      assert (Et : tan semi = Rabs y).
      { unfold semi. fold y. unfold Rabs at 1. destruct (Rcase_abs (atan y)) as [L|L].
        - rewrite tan_neg, tan_atan. rewrite Rabs_left; auto. rewrite <- atan_0 in L.
          destruct (Rlt_le_dec y 0) as [|G]; auto. destruct G as [G|G]; [apply atan_increasing in G; lra|subst; rewrite <- G in L; lra].
        - rewrite tan_atan, Rabs_right; auto. rewrite <- atan_0 in L.
          destruct (Rlt_le_dec y 0) as [G|G]; [apply atan_increasing in G; lra|lra]. }
      assert (B : forall u v, beyond (NCone (vadd C (vscale za (vscale s A))) ax semi) (pt u v)
         = ri * (cos v - cos v1) - ri * q * (sin v - sin v1)).
      { intros u v. cbn [beyond]. unfold off_line. rewrite Eax.
        replace (vscale za (vscale s A)) with (vscale (s * za) A) by (destruct A; unfold vscale; cbn; apply vec_eq; cbn; ring).
        rewrite (tor_off X Y A C ro ri F rr s') by auto. rewrite (tor_side X Y A C ro ri F), Et.
        replace (Rabs y * (s' * (ri * sin v - s * za))) with (q * (ri * sin v - s * za)) by (rewrite <- Q, <- Es'; ring).
        assert (D1 : q * (ri * sin v1 - s * za) = d1).
        { rewrite <- Q. transitivity (y * (z1 - (s * s) * za)); [unfold z1; ring|]. rewrite SS, Rmult_1_l. unfold y. field. auto. }
        transitivity (ro + ri * cos v - d1 - q * ri * (sin v - sin v1)); [rewrite <- D1; ring|unfold d1; ring]. }
      split; intros u; [rewrite !B; split; [ring|unfold q; field; lra]|].
      eapply sided_ext; [intros v; symmetry; apply B|]. apply cone_sided; auto; [lra|]. fold m q.
      assert (E : ri * (cos m - cos v1) - ri * q * (sin m - sin v1) = ro + ri * cos m - d1 * (s * (ri * sin m) - za) / (z1 - za)).
      { replace (d1 * (s * (ri * sin m) - za) / (z1 - za)) with (y * (s * (ri * sin m) - za)) by (unfold y; field; auto).
        assert (D1 : y * (z1 - za) = d1) by (unfold y; field; auto).
        transitivity (ri * (cos m - cos v1) - y * (s * (ri * sin m) - z1)).
        - rewrite <- Q. unfold z1. ring.
        - transitivity (ro + ri * cos m - d1 - y * (s * (ri * sin m) - z1)); [unfold d1; ring|rewrite <- D1; ring]. }
      rewrite E. destruct (rltb (ro + ri * cos m) _) eqn:L; [apply rltb_true in L|apply rltb_false in L]; lra.
Qed.
End VSurf.
