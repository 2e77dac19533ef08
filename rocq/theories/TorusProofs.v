(** Lemmas for the auxiliary surfaces of toroidal faces: geometry. *)
From Verif Require Import Prelude Vec3 Geom Prim PrimProofs SurfCards SurfCardSpec SurfCardProofs SameProofs.
From Verif Require Import AddPlane AddPlaneSpec AddPlaneProofs AddPlaneProofs2 AddPlaneProofs3 TorusAnnex TorusSpec.
From Coq Require Import List.
Open Scope R_scope.

Definition unit_axis (e : vec) := e = EX \/ e = EY \/ e = EZ.
Lemma unit_len e : unit_axis e -> vlen e = 1 /\ vlen (vopp e) = 1 /\ dot e e = 1.
Proof.
  intros [-> | [-> | ->]]; unfold vlen, dot, vopp, EX, EY, EZ; cbn; repeat split; try ring;
    match goal with |- sqrt ?x = 1 => replace x with 1 by ring; apply sqrt_1 end.
Qed.
Lemma ang_unit a b : vlen a = 1 -> vlen b = 1 -> ang a b = acos (dot a b).
Proof. intros A B. unfold ang. rewrite A, B. f_equal. field. Qed.
Lemma par_yes t e s : 0 < t -> unit_axis e -> s = e \/ s = vopp e -> parallel_tol t s e = true.
Proof.
  intros Ht He Hs. destruct (unit_len e He) as (L1 & L2 & D).
  assert (Ls : vlen s = 1) by (destruct Hs as [-> | ->]; auto).
  apply parallel_true; auto. { unfold visible. rewrite Ls. lra. }
  rewrite !ang_unit by auto.
  destruct Hs as [-> | ->]; [left; rewrite D, acos_1; auto|right].
  replace (dot (vopp e) (vopp e)) with 1 by (rewrite <- D; destruct e; unfold dot, vopp; cbn; ring). rewrite acos_1. auto.
Qed.
Lemma par_no t e e' s : t <= PI / 2 -> unit_axis e -> unit_axis e' -> e <> e' -> s = e \/ s = vopp e -> parallel_tol t s e' = false.
Proof.
  intros Ht He He' N Hs. destruct (unit_len e He) as (L1 & L2 & _). destruct (unit_len e' He') as (L3 & L4 & _).
  assert (Ls : vlen s = 1) by (destruct Hs as [-> | ->]; auto).
  destruct (parallel_tol t s e') eqn:E; auto. apply parallel_true in E; auto; [|unfold visible; rewrite Ls; lra].
  rewrite !ang_unit in E by auto.
  assert (Z : dot s e' = 0 /\ dot s (vopp e') = 0).
  { destruct Hs as [-> | ->], He as [-> | [-> | ->]], He' as [-> | [-> | ->]]; try congruence;
      unfold dot, vopp, EX, EY, EZ; cbn; split; ring. }
  destruct Z as [Z1 Z2]. rewrite Z1, Z2, acos_0 in E. lra.
Qed.
Lemma exyz : EX <> EY /\ EX <> EZ /\ EY <> EZ.
Proof. unfold EX, EY, EZ. repeat split; intros H; injection H; intros; lra. Qed.

Lemma tor_axis_ok t A : 0 < t <= PI / 2 -> coordinate A -> exists s, (s = 1 \/ s = -1) /\ tor_axis t A = Ok (vscale s A).
Proof.
  intros Ht HA. destruct exyz as (N1 & N2 & N3).
  assert (P : exists e, unit_axis e /\ (A = e \/ A = vopp e)).
  { unfold coordinate in HA. cbn [In] in HA. unfold unit_axis.
    destruct HA as [<-|[<-|[<-|[<-|[<-|[<-|[]]]]]]]; eauto 8. }
  destruct P as (e & He & HE).
  assert (S : exists s, (s = 1 \/ s = -1) /\ e = vscale s A).
  { destruct HE as [-> | ->]; [exists 1|exists (-1)]; (split; [auto|]); destruct e; unfold vscale, vopp; cbn; apply vec_eq; cbn; ring. }
  destruct S as (s & Hs & Es). exists s. split; auto. rewrite <- Es. unfold tor_axis.
  pose proof He as He'. destruct He' as [-> | [-> | ->]].
  - rewrite (par_yes t EX A) by (auto; lra). auto.
  - rewrite (par_no t EY EX A), (par_yes t EY A) by (auto; unfold unit_axis; auto; lra). auto.
  - rewrite (par_no t EZ EX A), (par_no t EZ EY A), (par_yes t EZ A) by (auto; unfold unit_axis; auto; lra). auto.
Qed.

(** *** coordinates in the frame *)
Lemma pm_sq s : s = 1 \/ s = -1 -> s * s = 1. Proof. intros [-> | ->]; ring. Qed.

Section Frame.
Variables (X Y A C : vec) (ro ri : R).
Hypothesis F : frame X Y A.
Notation pt := (torus_point X Y A C ro ri).

Lemma tor_rel u v : vsub (pt u v) C = comb X Y A ((ro + ri * cos v) * cos u) ((ro + ri * cos v) * sin u) (ri * sin v).
Proof. destruct X, Y, A, C. unfold torus_point, comb, vsub, vadd, vscale. cbn. apply vec_eq; cbn; ring. Qed.
Lemma tor_diff u v u' v' : vsub (pt u v) (pt u' v') =
  comb X Y A ((ro + ri * cos v) * cos u - (ro + ri * cos v') * cos u') ((ro + ri * cos v) * sin u - (ro + ri * cos v') * sin u') (ri * sin v - ri * sin v').
Proof. destruct X, Y, A, C. unfold torus_point, comb, vsub, vadd, vscale. cbn. apply vec_eq; cbn; ring. Qed.

Lemma comb_dot a b c a' b' c' : dot (comb X Y A a b c) (comb X Y A a' b' c') = a * a' + b * b' + c * c'.
Proof.
  destruct F as (HX & HY & HA & XY & XA & YA & _).
  transitivity (a * a' * dot X X + b * b' * dot Y Y + c * c' * dot A A + (a * b' + b * a') * dot X Y + (a * c' + c * a') * dot X A + (b * c' + c * b') * dot Y A).
  - destruct X, Y, A. unfold comb, dot, vadd, vscale. cbn. ring.
  - rewrite HX, HY, HA, XY, XA, YA. ring.
Qed.
Lemma comb_A c : vscale c A = comb X Y A 0 0 c.
Proof. destruct X, Y, A. unfold comb, vadd, vscale. cbn. apply vec_eq; cbn; ring. Qed.
Lemma frame_cross : cross A X = Y /\ cross Y A = X.
Proof.
  destruct F as (HX & HY & HA & XY & XA & YA & E). rewrite <- E. split.
  - transitivity (vsub (vscale (dot X X) Y) (vscale (dot X Y) X)); [destruct X, Y; unfold cross, dot, vsub, vscale; cbn; apply vec_eq; cbn; ring|].
    rewrite HX, XY. destruct X, Y; unfold vsub, vscale; cbn; apply vec_eq; cbn; ring.
  - transitivity (vsub (vscale (dot Y Y) X) (vscale (dot X Y) Y)); [destruct X, Y; unfold cross, dot, vsub, vscale; cbn; apply vec_eq; cbn; ring|].
    rewrite HY, XY. destruct X, Y; unfold vsub, vscale; cbn; apply vec_eq; cbn; ring.
Qed.
Lemma cross_A_comb s a b c : cross (vscale s A) (comb X Y A a b c) = comb X Y A (- s * b) (s * a) 0.
Proof.
  destruct frame_cross as [E1 E2].
  transitivity (vadd (vscale (s * a) (cross A X)) (vscale (- s * b) (cross Y A))).
  - destruct X, Y, A. unfold comb, cross, vadd, vscale. cbn. apply vec_eq; cbn; ring.
  - rewrite E1, E2. destruct X, Y, A. unfold comb, vadd, vscale. cbn. apply vec_eq; cbn; ring.
Qed.
Lemma cross_comb_A s a b c : cross (comb X Y A a b c) (vscale s A) = comb X Y A (s * b) (- s * a) 0.
Proof.
  destruct frame_cross as [E1 E2].
  transitivity (vadd (vscale (- s * a) (cross A X)) (vscale (s * b) (cross Y A))).
  - destruct X, Y, A. unfold comb, cross, vadd, vscale. cbn. apply vec_eq; cbn; ring.
  - rewrite E1, E2. destruct X, Y, A. unfold comb, vadd, vscale. cbn. apply vec_eq; cbn; ring.
Qed.
Lemma comb_scale k a b c : vscale k (comb X Y A a b c) = comb X Y A (k * a) (k * b) (k * c).
Proof. destruct X, Y, A. unfold comb, vadd, vscale. cbn. apply vec_eq; cbn; ring. Qed.
Lemma comb_opp a b c : vopp (comb X Y A a b c) = comb X Y A (- a) (- b) (- c).
Proof. destruct X, Y, A. unfold comb, vadd, vscale, vopp. cbn. apply vec_eq; cbn; ring. Qed.
Lemma comb_add a b c a' b' c' : vadd (comb X Y A a b c) (comb X Y A a' b' c') = comb X Y A (a + a') (b + b') (c + c').
Proof. destruct X, Y, A. unfold comb, vadd, vscale. cbn. apply vec_eq; cbn; ring. Qed.
Lemma comb_len_plane a b : vlen (comb X Y A a b 0) = sqrt (a * a + b * b).
Proof. unfold vlen. rewrite comb_dot. f_equal. ring. Qed.
Lemma comb_len_polar k u : vlen (comb X Y A (k * cos u) (k * sin u) 0) = Rabs k.
Proof.
  rewrite comb_len_plane. replace (k * cos u * (k * cos u) + k * sin u * (k * sin u)) with (Rsqr k).
  - apply sqrt_Rsqr_abs.
  - pose proof (sin2_cos2 u) as E. unfold Rsqr in *. nra.
Qed.

Hypothesis rr : 0 < ri < ro.
Lemma tube_pos v : 0 < ro + ri * cos v.
Proof. pose proof (COS_bound v). nra. Qed.

(** height and distance to the axis *)
Lemma tor_z s u v : dot (vsub (pt u v) C) (vscale s A) = s * (ri * sin v).
Proof. rewrite tor_rel, (comb_A s), comb_dot. ring. Qed.
Lemma tor_d s u v : s = 1 \/ s = -1 -> vlen (cross (vsub (pt u v) C) (vscale s A)) = ro + ri * cos v.
Proof.
  intros Hs. rewrite tor_rel, cross_comb_A. set (k := ro + ri * cos v).
  assert (0 < k) by apply tube_pos. unfold vlen. rewrite comb_dot.
  match goal with |- sqrt ?x = _ => replace x with (k * k) end; [apply sqrt_square; lra|].
  pose proof (sin2_cos2 u) as E. unfold Rsqr in E. pose proof (pm_sq s Hs). 
  transitivity ((s * s) * (k * k) * (sin u * sin u + cos u * cos u)); [rewrite H0, E; ring|ring].
Qed.
Lemma tor_off s z u v : s = 1 \/ s = -1 -> vlen (cross (vsub (pt u v) (vadd C (vscale z A))) (vscale s A)) = ro + ri * cos v.
Proof.
  intros Hs. rewrite <- (tor_d s u v Hs). f_equal.
  destruct X, Y, A, C. unfold torus_point, cross, vsub, vadd, vscale. cbn. apply vec_eq; cbn; ring.
Qed.
Lemma tor_side s z u v : side (vadd C (vscale z A)) (vscale s A) (pt u v) = s * (ri * sin v - z).
Proof.
  unfold side. transitivity (dot (vsub (pt u v) C) (vscale s A) - s * z * dot A A).
  - destruct X, Y, A, C. unfold torus_point, dot, vsub, vadd, vscale. cbn. ring.
  - rewrite tor_z. destruct F as (_ & _ & -> & _). ring.
Qed.
End Frame.
