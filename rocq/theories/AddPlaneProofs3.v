From Verif Require Import Prelude Vec3 Geom Prim PrimProofs SurfCards AddPlane AddPlaneSpec AddPlaneProofs AddPlaneProofs2.
From Coq Require Import List Relations.
Open Scope R_scope.

(** *** trigonometry *)
Lemma chord_trig u1 u2 u :
  (sin u2 - sin u1) * (cos u - cos u1) - (cos u2 - cos u1) * (sin u - sin u1)
  = 4 * sin ((u2 - u1) / 2) * sin ((u - u1) / 2) * sin ((u2 - u) / 2).
Proof.
  rewrite !form4, !form2.
  replace ((u2 - u) / 2) with ((u2 + u1) / 2 - (u + u1) / 2) by field.
  rewrite sin_minus. ring.
Qed.

Definition chord (u1 u2 u : R) : R := 4 * sin ((u2 - u1) / 2) * sin ((u - u1) / 2) * sin ((u2 - u) / 2).

Lemma chord_turn u1 u2 u : chord u1 u2 u = chord u1 u2 (u + 2 * PI).
Proof. unfold chord. rewrite <- !chord_trig. rewrite !sin_plus, !cos_plus, sin_2PI, cos_2PI. ring. Qed.
Lemma chord_turns u1 u2 u z : chord u1 u2 u = chord u1 u2 (u + 2 * PI * IZR z).
Proof.
  revert u. assert (N : forall n u, chord u1 u2 u = chord u1 u2 (u + 2 * PI * INR n)).
  { induction n as [|n IH]; intros u; [cbn; f_equal; ring|]. rewrite S_INR, (chord_turn _ _ u), (IH (u + 2 * PI)). f_equal. ring. }
  intros u. destruct z as [|p|p].
  - f_equal. ring.
  - rewrite <- (positive_nat_Z p), <- INR_IZR_INZ. apply N.
  - symmetry. rewrite <- Pos2Z.opp_pos, opp_IZR, <- (positive_nat_Z p), <- INR_IZR_INZ.
    rewrite (N (Pos.to_nat p)). f_equal. ring.
Qed.

Lemma half_pos x : 0 < x < 2 * PI -> 0 < sin (x / 2).
Proof. intros H. apply sin_gt_0; lra. Qed.
Lemma half_nonneg x : 0 <= x <= 2 * PI -> 0 <= sin (x / 2).
Proof. intros H. apply sin_ge_0; lra. Qed.
Lemma half_neg x : 0 < x < 2 * PI -> sin (- x / 2) < 0.
Proof. intros H. replace (- x / 2) with (- (x / 2)) by field. rewrite sin_neg. pose proof (half_pos x H). lra. Qed.

Lemma chord_in u1 u2 u : 0 < u2 - u1 < 2 * PI -> u1 <= u <= u2 -> 0 <= chord u1 u2 u.
Proof.
  intros H Hu. unfold chord. pose proof (half_pos _ H). assert (0 <= sin ((u - u1) / 2)) by (apply half_nonneg; lra).
  assert (0 <= sin ((u2 - u) / 2)) by (apply half_nonneg; lra). repeat apply Rmult_le_pos; lra.
Qed.
Lemma chord_in_strict u1 u2 u : 0 < u2 - u1 < 2 * PI -> u1 < u < u2 -> 0 < chord u1 u2 u.
Proof.
  intros H Hu. unfold chord. pose proof (half_pos _ H). assert (0 < sin ((u - u1) / 2)) by (apply half_pos; lra).
  assert (0 < sin ((u2 - u) / 2)) by (apply half_pos; lra). repeat apply Rmult_lt_0_compat; lra.
Qed.
Lemma chord_out u1 u2 u : 0 < u2 - u1 < 2 * PI -> u2 < u < u1 + 2 * PI -> chord u1 u2 u < 0.
Proof.
  intros H Hu. unfold chord. pose proof (half_pos _ H). assert (0 < sin ((u - u1) / 2)) by (apply half_pos; lra).
  assert (sin ((u2 - u) / 2) < 0). { replace (u2 - u) with (- (u - u2)) by ring. apply half_neg. lra. }
  assert (0 < 4 * sin ((u2 - u1) / 2) * sin ((u - u1) / 2)) by (repeat apply Rmult_lt_0_compat; lra). nra.
Qed.

(** *** frames *)
Definition comb (X Y A : vec) (a b c : R) : vec := vadd (vadd (vscale a X) (vscale b Y)) (vscale c A).
Lemma det_A X Y A a b c a' b' c' :
  dot (cross (comb X Y A a b c) A) (comb X Y A a' b' c') = (b * a' - a * b') * dot (cross X Y) A.
Proof. destruct X, Y, A. unfold comb, dot, cross, vadd, vscale. cbn. ring. Qed.
Lemma det_3 X Y A a b c a' b' c' a'' b'' c'' :
  dot (cross (comb X Y A a b c) (comb X Y A a' b' c')) (comb X Y A a'' b'' c'')
  = (a * (b' * c'' - c' * b'') - b * (a' * c'' - c' * a'') + c * (a' * b'' - b' * a'')) * dot (cross X Y) A.
Proof. destruct X, Y, A. unfold comb, dot, cross, vadd, vscale. cbn. ring. Qed.
Lemma frame_det X Y A : frame X Y A -> dot (cross X Y) A = 1.
Proof. intros (_ & _ & H & _ & _ & _ & E). rewrite E. auto. Qed.

Lemma cyl_diff X Y A C r u1 v1 u v :
  vsub (cyl_point X Y A C r u v) (cyl_point X Y A C r u1 v1)
  = comb X Y A (r * (cos u - cos u1)) (r * (sin u - sin u1)) (v - v1).
Proof. destruct X, Y, A, C. unfold comb, cyl_point, vsub, vadd, vscale. cbn. apply vec_eq; cbn; ring. Qed.

Lemma cyl_side X Y A C r u1 v1 u2 v2 u v : frame X Y A ->
  let p1 := cyl_point X Y A C r u1 v1 in let p2 := cyl_point X Y A C r u2 v2 in
  side p1 (cross (vsub p2 p1) A) (cyl_point X Y A C r u v) = r * r * chord u1 u2 u.
Proof.
  intros F. cbn zeta. unfold side. rewrite !cyl_diff, det_A, (frame_det X Y A F). unfold chord. rewrite <- chord_trig. ring.
Qed.

Lemma cone_diff X Y A P s u1 t1 u t :
  vsub (cone_point X Y A P s u t) (cone_point X Y A P s u1 t1)
  = comb X Y A (sin s * (t * cos u - t1 * cos u1)) (sin s * (t * sin u - t1 * sin u1)) (cos s * (t - t1)).
Proof. destruct X, Y, A, P. unfold comb, cone_point, vsub, vadd, vscale. cbn. apply vec_eq; cbn; ring. Qed.
Lemma cone_apex X Y A P s u1 t1 :
  vsub P (cone_point X Y A P s u1 t1) = comb X Y A (- (sin s * t1 * cos u1)) (- (sin s * t1 * sin u1)) (- (cos s * t1)).
Proof. destruct X, Y, A, P. unfold comb, cone_point, vsub, vadd, vscale. cbn. apply vec_eq; cbn; ring. Qed.

Lemma cone_side X Y A P s u1 t1 u2 t2 u t : frame X Y A ->
  let p1 := cone_point X Y A P s u1 t1 in let p2 := cone_point X Y A P s u2 t2 in
  side p1 (cross (vsub p2 p1) (vsub P p1)) (cone_point X Y A P s u t)
  = - (t1 * t2 * t * (sin s * sin s * cos s) * chord u1 u2 u).
Proof.
  intros F. cbn zeta. unfold side. rewrite !cone_diff, cone_apex, det_3, (frame_det X Y A F). unfold chord. rewrite <- chord_trig. ring.
Qed.

(** *** the group of faces *)
Lemma group_in same ma fs f my k : In k (face_group same ma fs f my) <->
  k = my \/ exists f2, nth_error fs k = Some f2 /\ ma <= gf_area f2 /\ k <> my /\ same f f2 = true.
Proof.
  unfold face_group. cbn [In]. rewrite filter_In, in_seq. split.
  - intros [H|[_ H]]; [auto|]. destruct (nth_error fs k) as [f2|] eqn:E; [|discriminate]. right. exists f2.
    apply andb_true_iff in H as [H H3]. apply andb_true_iff in H as [H1 H2].
    apply negb_true_iff in H1, H2. apply rltb_false in H1. apply Nat.eqb_neq in H2. auto.
  - intros [H|[f2 [E [H1 [H2 H3]]]]]; [left; auto|]. right. rewrite E. split.
    + assert (k < List.length fs)%nat by (apply nth_error_Some; congruence). lia.
    + apply rltb_false in H1. apply Nat.eqb_neq in H2. rewrite H1, H2, H3. auto.
Qed.
Lemma group_nodup same ma fs f my : NoDup (face_group same ma fs f my).
Proof.
  unfold face_group. constructor.
  - rewrite filter_In. intros [_ H]. destruct (nth_error fs my); [|discriminate]. rewrite Nat.eqb_refl in H.
    rewrite andb_false_r in H. discriminate.
  - apply NoDup_filter, seq_NoDup.
Qed.

(** the side of a face of the group, from its angular range *)
Section Sides.
Variables (us : nat -> R * R) (n1 n2 : node).
Hypothesis Hsmall : 0 < fst n2 - fst n1 < 2 * PI.
Lemma inside_chord k u : inside us (fst n1) (fst n2) k -> fst (us k) <= u <= snd (us k) -> 0 <= chord (fst n1) (fst n2) u.
Proof. intros [z [H1 H2]] Hu. rewrite (chord_turns _ _ u z). apply chord_in; auto; lra. Qed.
Lemma inside_chord_strict k u : inside us (fst n1) (fst n2) k -> fst (us k) < u < snd (us k) -> 0 < chord (fst n1) (fst n2) u.
Proof. intros [z [H1 H2]] Hu. rewrite (chord_turns _ _ u z). apply chord_in_strict; auto; lra. Qed.
Lemma outside_chord k u : outside us (fst n1) (fst n2) k -> fst (us k) <= u <= snd (us k) -> chord (fst n1) (fst n2) u < 0.
Proof. intros [z [H1 H2]] Hu. rewrite (chord_turns _ _ u z). apply chord_out; auto; lra. Qed.
End Sides.
