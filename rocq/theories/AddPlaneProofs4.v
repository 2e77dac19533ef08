From Verif Require Import Prelude Vec3 Geom Prim PrimProofs SurfCards AddPlane AddPlaneSpec AddPlaneProofs AddPlaneProofs2 AddPlaneProofs3 SameProofs.
From Coq Require Import List Relations.
Open Scope R_scope.

Lemma vec_eqb_true a b : vec_eqb a b = true <-> a = b.
Proof.
  unfold vec_eqb. destruct a, b; cbn. destruct (Req_EM_T vx vx0), (Req_EM_T vy vy0), (Req_EM_T vz vz0); subst; split; intros H; try discriminate; try (inversion H; congruence); auto.
Qed.

(** chains of faces at a distance below 1e-6 *)
Definition close_chain (dist : nat -> nat -> R) (same : list nat) : Prop :=
  forall l1 i l2, same = l1 ++ i :: l2 -> l1 <> [] -> exists j, In j l1 /\ dist i j < 1 / 10 ^ 6.

Lemma chain_snoc dist same i : close_chain dist same -> (exists j, In j same /\ dist i j < 1 / 10 ^ 6) -> close_chain dist (same ++ [i]).
Proof.
  intros H E l1 x l2 Hs Hne. destruct l2 as [|y l2].
  - apply app_inj_tail in Hs as [-> ->]. auto.
  - assert (exists l3, y :: l2 = l3 ++ [i] /\ same = l1 ++ x :: l3) as [l3 [E1 E2]].
    { destruct (exists_last (l := y :: l2)) as [l3 [z Ez]]; [discriminate|]. rewrite Ez in Hs.
      rewrite app_comm_cons, app_assoc in Hs. apply app_inj_tail in Hs as [-> <-]. exists l3. auto. }
    eapply H; eauto.
Qed.

Lemma group_chain dist fs f my : forall todo i same, close_chain dist same -> In my same -> 
  close_chain dist (sphere_group dist fs f my i todo same) /\ (forall j, In j same -> In j (sphere_group dist fs f my i todo same)).
Proof.
  induction todo as [|g r IH]; intros i same H Hm; cbn [sphere_group]; [auto|].
  match goal with |- context [sphere_group _ _ _ _ _ r ?X] => set (s' := X) end.
  assert (H' : close_chain dist s' /\ forall j, In j same -> In j s').
  { unfold s'. destruct (Nat.eqb i my || negb (sf_sphere g)); [auto|].
    destruct (_ && _); [|auto]. destruct (existsb _ same) eqn:E; [|auto].
    apply existsb_exists in E as [j [Hj Hd]]. apply rltb_true in Hd. split; [apply chain_snoc; eauto|].
    intros x Hx. apply in_or_app; auto. }
  destruct H' as [H1 H2]. destruct (IH (S i) s') as [I1 I2]; auto.
Qed.

Lemma group_valid dist fs f my : forall todo i same,
  (forall k g, nth_error todo k = Some g -> nth_error fs (i + k) = Some g) ->
  (forall j, In j same -> exists g, nth_error fs j = Some g) ->
  forall j, In j (sphere_group dist fs f my i todo same) -> exists g, nth_error fs j = Some g.
Proof.
  induction todo as [|g r IH]; intros i same Hi Hs j; cbn [sphere_group]; [auto|].
  apply IH.
  - intros k g' Hk. specialize (Hi (S k) g' Hk). rewrite Nat.add_succ_r in Hi. cbn. auto.
  - intros x. destruct (_ || _); [auto|]. destruct (_ && _); [|auto]. destruct (existsb _ same); [|auto].
    intros Hx. apply in_app_or in Hx as [Hx|[<-|[]]]; auto. exists g. specialize (Hi 0%nat g eq_refl). rewrite Nat.add_0_r in Hi. auto.
Qed.

Lemma rmin_le m l : rmin_list m l <= m /\ forall x, In x l -> rmin_list m l <= x.
Proof.
  revert m. induction l as [|a r IH]; intros m; cbn [rmin_list]; [split; [lra|intros x []]|].
  destruct (IH (Rmin m a)) as [H1 H2]. pose proof (Rmin_l m a). pose proof (Rmin_r m a).
  split; [lra|]. intros x [<-|Hx]; [lra|auto].
Qed.

Lemma dot_unit_le n v : vlen n = 1 -> dot n v <= vlen v.
Proof.
  intros H. pose proof (dot_len n v) as D. rewrite H in D. pose proof (Rle_abs (dot n v)). lra.
Qed.

Lemma dot_vsum n l : dot n (vsum l) = fold_right Rplus 0 (map (dot n) l).
Proof.
  induction l as [|v r IH]; cbn [vsum map fold_right]; [unfold dot, vzero; cbn; ring|].
  rewrite <- IH. destruct n, v, (vsum r). unfold dot, vadd. cbn. ring.
Qed.

Section Sphere.
Variables (dist : nat -> nat -> R) (pdist : vec -> vec -> nat -> R) (fs : list sface) (my : nat).
Variable pts : nat -> vec -> Prop.
Hypothesis Hpiece : forall j g, nth_error fs j = Some g -> piece_of_surface (pts j) (sf_com g).
Hypothesis Harea : forall j g, nth_error fs j = Some g -> 0 < sf_area g.
Hypothesis Hdist : forall i j, dist i j < 1 / 10 ^ 6 -> exists x y, pts i x /\ pts j y /\ vlen (vsub x y) < 1 / 10 ^ 6.
Hypothesis Hpdist : forall c n j x, pts j x -> vlen n = 1 -> pdist c n j <= Rabs (side c n x).

Lemma sphere_plane_ok f p n : nth_error fs my = Some f ->
  gen_plane_sphere dist pdist fs my = Ok (Some (p, n)) ->
  vlen n = 1 /\ forall j x, In j (sphere_group dist fs f my 0 fs [my]) -> pts j x -> 0 < side p n x.
Proof.
  intros Hf H. unfold gen_plane_sphere in H. rewrite Hf in H. cbn [look bind] in H.
  set (same := sphere_group dist fs f my 0 fs [my]) in *.
  destruct (mapM _ same) as [parts| |] eqn:Em; cbn [bind] in H; try discriminate.
  destruct (rltb (vlen (vsum parts)) eps_len) eqn:El; [discriminate|]. apply rltb_false in El.
  set (N := vsum parts) in *. set (nn := vscale (/ vlen N) N) in *.
  set (dmin := rmin_list _ _) in *. destruct (rltb _ dmin) eqn:Ed; [|discriminate]. apply rltb_true in Ed.
  injection H as <- <-.
  assert (HN : 0 < vlen N) by (assert (0 < eps_len) by (unfold eps_len; apply Rinv_0_lt_compat, pow_lt; lra); lra).
  assert (Hu : vlen nn = 1) by (unfold nn; rewrite vlen_scale, Rabs_right; [field; lra|left; apply Rinv_0_lt_compat; auto]).
  split; auto.
  destruct (rmin_le (2 * sf_radius f) (map (pdist (sf_center f) nn) same)) as [_ Hmin]. fold dmin in Hmin.
  assert (Hd : forall j x, In j same -> pts j x -> dmin <= Rabs (side (sf_center f) nn x)).
  { intros j x Hj Hx. eapply Rle_trans; [apply Hmin, in_map; exact Hj|]. apply Hpdist; auto. }
  assert (Hval : forall j, In j same -> exists g, nth_error fs j = Some g).
  { intros j. unfold same. apply group_valid; [intros k g Hk; exact Hk|]. intros i [<-|[]]. eauto. }
  assert (Hpos6 : 0 < 1 / 10 ^ 6) by lra.
  assert (Hsgn : forall j, In j same -> (forall x, pts j x -> dmin <= side (sf_center f) nn x) \/ (forall x, pts j x -> side (sf_center f) nn x <= - dmin)).
  { intros j Hj. destruct (Hval j Hj) as [g Hg]. destruct (piece_one _ _ (Hpiece j g Hg) (sf_center f) nn) as [X|X].
    - intros x Hx E0. specialize (Hd j x Hj Hx). rewrite E0, Rabs_R0 in Hd. lra.
    - left. intros x Hx. specialize (X x Hx). specialize (Hd j x Hj Hx). rewrite Rabs_right in Hd by lra. auto.
    - right. intros x Hx. specialize (X x Hx). specialize (Hd j x Hj Hx). rewrite Rabs_left in Hd by lra. lra. }
  destruct (group_chain dist fs f my fs 0%nat [my]) as [Hch Hmem]; [|left; auto|].
  { intros l1 i l2 E Hne. destruct l1 as [|a [|b l1]]; [congruence| |]; discriminate. }
  fold same in Hch, Hmem. assert (Hmy : In my same) by (apply Hmem; left; auto).
  (* all the faces on the side of the first *)
  assert (Hsame0 : exists t, same = my :: t).
  { unfold same. assert (G : forall todo i l, exists t, sphere_group dist fs f my i todo (my :: l) = my :: t).
    { induction todo as [|g r IH]; intros i l; cbn [sphere_group]; [eauto|].
      destruct (_ || _); [apply IH|]. destruct (_ && _); [|apply IH]. destruct (existsb _ _); [|apply IH]. apply (IH (S i) (l ++ [i])). }
    apply G. }
  destruct Hsame0 as [tl Etl].
  assert (Hprop : forall l1 l2, same = l1 ++ l2 ->
    ((forall x, pts my x -> dmin <= side (sf_center f) nn x) -> forall j x, In j l1 -> pts j x -> dmin <= side (sf_center f) nn x)
    /\ ((forall x, pts my x -> side (sf_center f) nn x <= - dmin) -> forall j x, In j l1 -> pts j x -> side (sf_center f) nn x <= - dmin)).
  { induction l1 as [|i l1 IH] using rev_ind; intros l2 E; [split; intros _ j x []|].
    rewrite <- app_assoc in E. cbn in E. destruct (IH (i :: l2) E) as [I1 I2].
    assert (Hi : In i same) by (rewrite E; apply in_or_app; right; left; auto).
    destruct l1 as [|a l1].
    { cbn in E. rewrite Etl in E. injection E as <- _. split; intros X j x [<-|[]] Hx; apply X; auto. }
    destruct (Hch (a :: l1) i l2 E) as [j [Hj Hdj]]; [discriminate|].
    destruct (Hdist i j Hdj) as [x [y [Hx [Hy Hxy]]]].
    assert (Hdiff : Rabs (side (sf_center f) nn x - side (sf_center f) nn y) < 1 / 10 ^ 6).
    { assert (E1 : side (sf_center f) nn x - side (sf_center f) nn y = dot nn (vsub x y)).
      { unfold side. destruct nn, x, y, (sf_center f). unfold dot, vsub; cbn. ring. }
      assert (E2 : side (sf_center f) nn y - side (sf_center f) nn x = dot nn (vsub y x)).
      { unfold side. destruct nn, x, y, (sf_center f). unfold dot, vsub; cbn. ring. }
      assert (E3 : vlen (vsub y x) = vlen (vsub x y)).
      { unfold vlen. f_equal. destruct x, y. unfold dot, vsub; cbn. ring. }
      pose proof (dot_unit_le nn (vsub x y) Hu). pose proof (dot_unit_le nn (vsub y x) Hu). apply Rabs_def1; lra. }
    apply Rabs_def2 in Hdiff.
    split; intros X k z Hk Hz; apply in_app_or in Hk as [Hk|[<-|[]]].
    - eapply I1; eauto.
    - pose proof (I1 X j y Hj Hy). destruct (Hsgn i Hi) as [Y|Y]; [auto|]. specialize (Y x Hx). lra.
    - eapply I2; eauto.
    - pose proof (I2 X j y Hj Hy). destruct (Hsgn i Hi) as [Y|Y]; [|auto]. specialize (Y x Hx). lra. }
  destruct (Hprop same []) as [P1 P2]; [rewrite app_nil_r; auto|].
  assert (HnN : dot nn N = vlen N).
  { unfold nn. transitivity (/ vlen N * dot N N); [destruct N; unfold dot, vscale; cbn; ring|]. rewrite <- vlen_sq. field. lra. }
  assert (Hside : forall j x, In j same -> pts j x -> dmin <= side (sf_center f) nn x).
  { destruct (Hsgn my Hmy) as [X|X]; [apply P1; auto|]. exfalso. specialize (P2 X).
    assert (Hparts : forall v, In v parts -> dot nn v < 0).
    { intros v Hv.
      assert (G : exists j g, In j same /\ nth_error fs j = Some g /\ v = vscale (sf_area g) (vsub (sf_com g) (sf_center f))).
      { clear - Em Hv. revert parts Em Hv. induction same as [|j r IH]; intros parts Em Hv; cbn [mapM] in Em.
        - injection Em as <-. destruct Hv.
        - destruct (nth_error fs j) as [g|] eqn:Eg; cbn [look bind] in Em; [|discriminate].
          destruct (mapM _ r) as [ys| |]; cbn [bind] in Em; try discriminate. injection Em as <-.
          destruct Hv as [<-|Hv]; [exists j, g; cbn; auto|]. destruct (IH ys eq_refl Hv) as (j' & g' & H1 & H2 & H3).
          exists j', g'. cbn; auto. }
      destruct G as (j & g & Hj & Hg & ->).
      assert (C : side (sf_center f) nn (sf_com g) < 0).
      { apply (piece_com' _ _ (Hpiece j g Hg)). intros x Hx. specialize (P2 j x Hj Hx). lra. }
      pose proof (Harea j g Hg). assert (E : dot nn (vscale (sf_area g) (vsub (sf_com g) (sf_center f))) = sf_area g * side (sf_center f) nn (sf_com g)).
      { unfold side. destruct nn, (vsub (sf_com g) (sf_center f)). unfold dot, vscale; cbn. ring. }
      rewrite E. nra. }
    assert (S : dot nn N <= 0).
    { unfold N. rewrite dot_vsum. revert Hparts. clearbody nn. clear. intros Hparts. induction parts as [|v r IH]; cbn [map fold_right]; [lra|].
      assert (dot nn v < 0) by (apply Hparts; left; auto). assert (fold_right Rplus 0 (map (dot nn) r) <= 0) by (apply IH; intros; apply Hparts; right; auto). lra. }
    lra. }
  intros j x Hj Hx. specialize (Hside j x Hj Hx).
  assert (E : side (vadd (sf_center f) (vscale (95 / 100 * dmin) nn)) nn x = side (sf_center f) nn x - 95 / 100 * dmin * dot nn nn).
  { unfold side. destruct nn, x, (sf_center f). unfold dot, vsub, vadd, vscale; cbn. ring. }
  assert (E1 : dot nn nn = 1) by (rewrite <- vlen_sq, Hu; ring).
  rewrite E, E1. lra.
Qed.
End Sphere.

(** *** same_faces *)
Section SameFaces.
Variables (touch : nat -> nat -> bool) (n : nat).
Definition linked : nat -> nat -> Prop :=
  clos_refl_trans nat (fun i j => (i < n)%nat /\ (j < n)%nat /\ (touch i j = true \/ touch j i = true)).
Lemma couples_in i j : In j (couples touch n i) <-> (i < j < n)%nat /\ touch i j = true.
Proof. unfold couples. rewrite filter_In, in_seq. split; intros [H1 H2]; split; auto; lia. Qed.
Lemma has_in x l : has x l = true <-> In x l.
Proof. unfold has. rewrite existsb_exists. split; [intros [y [H E]]; apply Nat.eqb_eq in E; subst; auto|intros H; exists x; split; auto; apply Nat.eqb_refl]. Qed.
Lemma same_loop_sound : forall elems lista, (forall x, In x elems -> (x < n)%nat) ->
  (forall x, In x lista -> (x < n)%nat /\ linked 0 x) -> forall x, In x (same_loop touch n elems lista) -> (x < n)%nat /\ linked 0 x.
Proof.
  induction elems as [|e r IH]; intros lista He Hl; cbn [same_loop]; [auto|]. apply IH; [intros; apply He; right; auto|].
  assert (Hen : (e < n)%nat) by (apply He; left; auto).
  destruct (has e lista) eqn:E.
  - apply has_in in E. intros x Hx. apply in_app_or in Hx as [Hx|Hx]; auto. apply couples_in in Hx as [Hx1 Hx2].
    split; [lia|]. eapply rt_trans; [apply (Hl e E)|]. apply rt_step. repeat split; auto; lia.
  - assert (G : forall cs l, (forall c, In c cs -> (e < c < n)%nat /\ touch e c = true) -> (forall x, In x l -> (x < n)%nat /\ linked 0 x) ->
      forall x, In x (fold_left (fun l e2 => if has e2 l then l ++ [e] else l) cs l) -> (x < n)%nat /\ linked 0 x).
    { induction cs as [|c cs IHc]; intros l Hc Hl' x; cbn [fold_left]; [auto|]. apply IHc; [intros; apply Hc; right; auto|].
      destruct (has c l) eqn:Ec; auto. intros y Hy. apply in_app_or in Hy as [Hy|[<-|[]]]; auto. split; auto.
      apply has_in in Ec. destruct (Hc c) as [[A B] T]; [left; auto|]. eapply rt_trans; [apply (Hl' c Ec)|].
      apply rt_step. repeat split; auto. }
    apply G; auto. intros c Hc. apply couples_in; auto.
Qed.
Lemma same_faces_sound l : same_faces touch n = Ok l -> forall x, In x l -> (0 < x < n)%nat /\ linked 0 x.
Proof.
  unfold same_faces. destruct n as [|[|m]] eqn:En; [discriminate|intros H; injection H as <-; intros x []|].
  rewrite <- En in *. assert (Hc : forall x, In x (couples touch n 0) -> (x < n)%nat /\ linked 0 x).
  { intros x Hx. apply couples_in in Hx as [Hx1 Hx2]. split; [lia|]. apply rt_step. repeat split; auto; lia. }
  destruct (couples touch n 0) as [|c cs] eqn:Ec; [intros H; injection H as <-; intros x []|].
  intros H. injection H as <-. intros x Hx.
  assert (Hx' := same_loop_sound (seq 1 (n - 2)) (c :: cs) ltac:(intros y Hy; apply in_seq in Hy; lia) Hc x Hx).
  split; [|apply Hx']. split; [|apply Hx'].
  assert (Z : forall elems l, (forall x, In x elems -> (0 < x)%nat) -> (forall x, In x l -> (0 < x)%nat) -> forall x, In x (same_loop touch n elems l) -> (0 < x)%nat).
  { clear. induction elems as [|e r IH]; intros l He Hl; cbn [same_loop]; [auto|]. apply IH; [intros; apply He; right; auto|].
    destruct (has e l).
    - intros x Hx. apply in_app_or in Hx as [Hx|Hx]; auto. apply couples_in in Hx. lia.
    - generalize (couples touch n e). intros cs. revert l Hl. induction cs as [|c cs IHc]; intros l Hl x; cbn [fold_left]; [auto|].
      apply IHc. destruct (has c l); auto. intros y Hy. apply in_app_or in Hy as [Hy|[<-|[]]]; auto. apply He. left; auto. }
  apply (Z (seq 1 (n - 2)) (c :: cs)); auto.
  - intros y Hy. apply in_seq in Hy. lia.
  - rewrite <- Ec. intros y Hy. apply couples_in in Hy. lia.
Qed.
End SameFaces.
