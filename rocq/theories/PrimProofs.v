(** Proofs for surface_side. *)
From Verif Require Import Prelude Vec3 Prim PrimSpec.
Open Scope R_scope.

Lemma rltb_true a b : rltb a b = true <-> a < b.
Proof. unfold rltb. destruct (Rlt_dec a b); split; auto; try discriminate; intros; contradiction. Qed.
Lemma rltb_false a b : rltb a b = false <-> b <= a.
Proof. unfold rltb. destruct (Rlt_dec a b); split; intros; try discriminate; auto; lra. Qed.
Lemma rdiv_ok a b : b <> 0 -> rdiv a b = Ok (a / b).
Proof. intros H. unfold rdiv. destruct (Req_EM_T b 0); congruence. Qed.
Lemma vlen_nonneg a : 0 <= vlen a. Proof. apply sqrt_pos. Qed.
Lemma dot_comm a b : dot a b = dot b a. Proof. unfold dot. ring. Qed.
Lemma dot_sub_r a b c : dot a (vsub b c) = dot a b - dot a c.
Proof. unfold dot, vsub; simpl; ring. Qed.
Lemma dot_add_r a b c : dot a (vadd b c) = dot a b + dot a c.
Proof. unfold dot, vadd; simpl; ring. Qed.
Lemma vlen_unit v : vlen v = 1 -> dot v v = 1.
Proof. intros H. rewrite <- vlen_sq, H. ring. Qed.
Lemma len_lt a r : 0 <= r -> (vlen a < r <-> dot a a < r ^ 2).
Proof. intros H. rewrite <- vlen_sq. pose proof (vlen_nonneg a). split; intros; nra. Qed.
Lemma len_gt a r : 0 <= r -> (r < vlen a <-> r ^ 2 < dot a a).
Proof. intros H. rewrite <- vlen_sq. pose proof (vlen_nonneg a). split; intros; nra. Qed.
Lemma cross_len2 d v : dot (cross d v) (cross d v) = dot d d * dot v v - dot d v ^ 2.
Proof. unfold dot, cross; simpl; ring. Qed.
Lemma cauchy a b : dot a b ^ 2 <= dot a a * dot b b.
Proof. pose proof (dot_nonneg (cross a b)). rewrite cross_len2 in H. lra. Qed.
Lemma vlen_nz v : v <> vzero -> vlen v <> 0.
Proof. intros H. pose proof (vlen_pos v H). lra. Qed.
Lemma len_sub_axis d v : dot v v = 1 -> dot (vsub d (vscale (dot d v) v)) (vsub d (vscale (dot d v) v)) = dot d d - dot d v * dot d v.
Proof.
  intros H. replace (dot (vsub d (vscale (dot d v) v)) (vsub d (vscale (dot d v) v)))
    with (dot d d - 2 * (dot d v * dot d v) + dot d v * dot d v * dot v v) by (unfold dot, vsub, vscale; simpl; ring).
  rewrite H. ring.
Qed.
Lemma radial2_nonneg p v x : dot v v = 1 -> 0 <= radial2 p v x.
Proof. intros H. unfold radial2, height. pose proof (cauchy (vsub x p) v). rewrite H in H0. lra. Qed.

Lemma between_in p x v : slab p v x -> between x p v = true.
Proof.
  intros (A & B). unfold between. apply andb_true_iff. rewrite !rltb_true. rewrite !dot_sub_r, dot_add_r in *. lra.
Qed.
Lemma between_out p x v : off_slab p v x -> between x p v = false.
Proof.
  intros H. unfold between. apply andb_false_iff. rewrite !rltb_false. unfold off_slab in H. rewrite !dot_sub_r, dot_add_r in *. lra.
Qed.

(** ** Angles *)
Lemma acos_lt c d : -1 <= c <= 1 -> -1 <= d <= 1 -> (acos c < acos d <-> d < c).
Proof.
  intros C D. pose proof (acos_bound c). pose proof (acos_bound d).
  split; intros L.
  - rewrite <- (cos_acos c), <- (cos_acos d) by auto. apply cos_decreasing_1; lra.
  - rewrite <- (cos_acos c), <- (cos_acos d) in L by auto. apply cos_decreasing_0 in L; lra.
Qed.
Lemma cone_bound t : 0 < t -> 0 < 1 / sqrt (1 + t ^ 2) < 1.
Proof.
  intros T. assert (1 < sqrt (1 + t ^ 2)). { rewrite <- sqrt_1 at 1. apply sqrt_lt_1; nra. }
  unfold Rdiv. rewrite Rmult_1_l. split; [apply Rinv_0_lt_compat; lra|]. rewrite <- Rinv_1 at 2. apply Rinv_lt_contravar; lra.
Qed.
Lemma atan_acos t : 0 < t -> atan t = acos (1 / sqrt (1 + t ^ 2)).
Proof.
  intros T. replace (1 / sqrt (1 + t ^ 2)) with (cos (atan t)).
  - symmetry. apply acos_cos. pose proof (atan_bound t). pose proof PI_RGT_0. pose proof (atan_increasing 0 t T) as L. rewrite atan_0 in L. lra.
  - rewrite cos_atan. unfold Rsqr. f_equal. f_equal. ring.
Qed.
(** cosine h / m of an angle compared with the angle of a cone *)
Lemma cone_angle h m r2 t : 0 < t -> 0 < m -> m ^ 2 = h ^ 2 + r2 -> 0 <= r2 ->
  (1 / sqrt (1 + t ^ 2) < h / m <-> (0 < h /\ r2 < t ^ 2 * h ^ 2)) /\
  (h / m < 1 / sqrt (1 + t ^ 2) <-> (h < 0 \/ t ^ 2 * h ^ 2 < r2 \/ (h = 0))).
Proof.
  intros T M E R2. set (k := sqrt (1 + t ^ 2)).
  assert (K2 : k * k = 1 + t ^ 2) by (apply sqrt_sqrt; nra).
  assert (K : 0 < k) by (apply sqrt_lt_R0; nra).
  assert (A : 1 / k < h / m <-> m < h * k).
  { split; intros H.
    - apply (Rmult_lt_compat_r (k * m)) in H; [|nra]. replace (1 / k * (k * m)) with m in H by (field; lra).
      replace (h / m * (k * m)) with (h * k) in H by (field; lra). auto.
    - apply (Rmult_lt_reg_r (k * m)); [nra|]. replace (1 / k * (k * m)) with m by (field; lra).
      replace (h / m * (k * m)) with (h * k) by (field; lra). auto. }
  assert (B : h / m < 1 / k <-> h * k < m).
  { split; intros H.
    - apply (Rmult_lt_compat_r (k * m)) in H; [|nra]. replace (1 / k * (k * m)) with m in H by (field; lra).
      replace (h / m * (k * m)) with (h * k) in H by (field; lra). auto.
    - apply (Rmult_lt_reg_r (k * m)); [nra|]. replace (1 / k * (k * m)) with m by (field; lra).
      replace (h / m * (k * m)) with (h * k) by (field; lra). auto. }
  assert (Q : (h * k) ^ 2 = h ^ 2 + t ^ 2 * h ^ 2) by (replace ((h * k) ^ 2) with (h ^ 2 * (k * k)) by ring; rewrite K2; ring).
  split.
  - rewrite A. split.
    + intros H. assert (0 < h) by nra. split; auto. nra.
    + intros (H & L). assert (0 < h * k) by nra. nra.
  - rewrite B. split.
    + intros H. destruct (Rlt_dec h 0); auto. right. destruct (Req_EM_T h 0); auto. left. assert (0 < h * k) by nra. nra.
    + intros [H|[H|H]]; nra.
Qed.
Lemma clamp_id x : -1 <= x <= 1 -> clamp x = x.
Proof. intros H. unfold clamp, Rmax, Rmin. destruct (Rle_dec 1 x); destruct (Rle_dec _ _); lra. Qed.
Lemma unit_dot_bound d v : dot d d <> 0 -> dot v v = 1 -> -1 <= dot d v / vlen d <= 1.
Proof.
  intros D Hv. assert (P : 0 < vlen d). { pose proof (vlen_nonneg d). pose proof (vlen_sq d). destruct (Req_EM_T (vlen d) 0) as [E|E]; [rewrite E in *; lra|lra]. }
  pose proof (cauchy d v). rewrite Hv in H. pose proof (vlen_sq d).
  assert (- vlen d <= dot d v <= vlen d) by nra. split.
  - apply (Rmult_le_reg_r (vlen d)); auto. replace (dot d v / vlen d * vlen d) with (dot d v) by (field; lra). lra.
  - apply (Rmult_le_reg_r (vlen d)); auto. replace (dot d v / vlen d * vlen d) with (dot d v) by (field; lra). lra.
Qed.
Lemma scale_dot k a b : dot (vscale k a) b = k * dot a b. Proof. unfold dot, vscale; simpl; ring. Qed.
Lemma zero_sub x p : dot (vsub x p) (vsub x p) = 0 -> x = p.
Proof. intros H. apply dot_zero in H. destruct x, p. unfold vsub, vzero in H; simpl in H. injection H. intros. f_equal; lra. Qed.
Lemma vlen_eq0 a : vlen a = 0 <-> dot a a = 0.
Proof. rewrite <- vlen_sq. pose proof (vlen_nonneg a). split; intros; nra. Qed.

(** the cone test without the clipping *)
Lemma cone_side p v t x : dot v v = 1 -> 0 < t -> dot (vsub x p) (vsub x p) <> 0 ->
  let c := height p v x / vlen (vsub x p) in
  -1 <= c <= 1 /\
  (acos c < atan t <-> 0 < height p v x /\ radial2 p v x < t ^ 2 * height p v x ^ 2) /\
  (atan t < acos c <-> height p v x < 0 \/ t ^ 2 * height p v x ^ 2 < radial2 p v x \/ height p v x = 0) /\
  (acos (Rabs c) < atan t <-> 0 < Rabs (height p v x) /\ radial2 p v x < t ^ 2 * height p v x ^ 2) /\
  (atan t < acos (Rabs c) <-> t ^ 2 * height p v x ^ 2 < radial2 p v x \/ height p v x = 0).
Proof.
  intros Hv T D c.
  assert (B : -1 <= c <= 1) by (apply unit_dot_bound; auto).
  assert (M : 0 < vlen (vsub x p)) by (apply vlen_pos; intros E; apply D; rewrite E; unfold dot, vzero; simpl; ring).
  assert (R2 : 0 <= radial2 p v x) by (apply radial2_nonneg; auto).
  assert (E : vlen (vsub x p) ^ 2 = height p v x ^ 2 + radial2 p v x).
  { unfold radial2. replace (vlen (vsub x p) ^ 2) with (vlen (vsub x p) * vlen (vsub x p)) by ring. rewrite vlen_sq. ring. }
  pose proof (cone_bound t T) as CB.
  destruct (cone_angle _ _ _ t T M E R2) as (A1 & A2).
  assert (CA : Rabs c = Rabs (height p v x) / vlen (vsub x p)).
  { unfold c, Rdiv. rewrite Rabs_mult. f_equal. apply Rabs_pos_eq. left. apply Rinv_0_lt_compat. auto. }
  assert (E' : vlen (vsub x p) ^ 2 = Rabs (height p v x) ^ 2 + radial2 p v x) by (rewrite pow2_abs; auto).
  destruct (cone_angle _ _ _ t T M E' R2) as (A3 & A4). rewrite pow2_abs in A3, A4.
  assert (BA : -1 <= Rabs c <= 1). { split; [pose proof (Rabs_pos c); lra|]. apply Rabs_le. lra. }
  split; auto. rewrite !atan_acos by auto. rewrite !acos_lt by lra. rewrite CA. unfold c. rewrite A1, A2, A3, A4.
  repeat split; try tauto.
  - intros [H|[H|H]]; auto; [pose proof (Rabs_pos (height p v x)); lra|]. right. destruct (Req_EM_T (height p v x) 0); auto. pose proof (Rabs_pos_lt _ n). lra.
  - intros [H|H]; auto. right. right. rewrite H. apply Rabs_R0.
Qed.


Lemma rsq_pow x : rsq x = x ^ 2. Proof. unfold rsq. ring. Qed.
Lemma cone_zero h r2 t : 0 <= r2 -> 0 < t -> h = 0 -> ~ r2 < t ^ 2 * h ^ 2.
Proof. intros. subst. lra. Qed.

Lemma norm_ok d : dot d d <> 0 -> normalize d = Ok (vscale (/ vlen d) d).
Proof. intros H. unfold normalize. destruct (Req_EM_T (vlen d) 0) as [E|E]; auto. exfalso. apply H, vlen_eq0, E. Qed.
Lemma side_cone x p v t dbl : vlen v = 1 -> 0 < t -> dot (vsub x p) (vsub x p) <> 0 ->
  surface_side x (PCone p v t dbl) = Ok (rltb (atan t) (if dbl then acos (Rabs (height p v x / vlen (vsub x p))) else acos (height p v x / vlen (vsub x p)))).
Proof.
  intros V T D. cbn [surface_side]. rewrite norm_ok by auto. cbn [bind]. rewrite scale_dot.
  replace (/ vlen (vsub x p) * dot (vsub x p) v) with (height p v x / vlen (vsub x p)) by (unfold height, Rdiv; ring).
  assert (B : -1 <= height p v x / vlen (vsub x p) <= 1) by (apply unit_dot_bound; auto; apply vlen_unit; auto).
  rewrite clamp_id by auto. f_equal. unfold rltb.
  destruct dbl; (destruct (Rlt_dec _ _) as [L|L]; destruct (Rlt_dec _ _) as [M|M]; auto; exfalso; lra).
Qed.
Lemma dist2_cross p v x : v <> vzero -> dot (cross (vsub x p) v) (cross (vsub x p) v) = dist2 p v x * dot v v.
Proof.
  intros V. rewrite cross_len2. unfold dist2. rewrite (dot_comm v (vsub x p)). pose proof (dot_pos v V). field. lra.
Qed.
Lemma div_len a b : 0 < b -> a / b * b = a. Proof. intros. field. lra. Qed.
Lemma can_cmp p v x r : v <> vzero -> 0 <= r ->
  (dist2 p v x < r ^ 2 -> vlen (cross (vsub x p) v) / vlen v < r) /\ (r ^ 2 < dist2 p v x -> r < vlen (cross (vsub x p) v) / vlen v).
Proof.
  intros V R0. pose proof (vlen_pos v V) as L. pose proof (dist2_cross p v x V) as E. rewrite <- (vlen_sq (cross (vsub x p) v)), <- (vlen_sq v) in E.
  set (k := vlen (cross (vsub x p) v) / vlen v). assert (K : vlen (cross (vsub x p) v) = k * vlen v) by (unfold k; field; lra).
  rewrite K in E. assert (Q : k ^ 2 = dist2 p v x) by (apply (Rmult_eq_reg_r (vlen v * vlen v)); nra).
  assert (0 <= k). { unfold k. pose proof (vlen_nonneg (cross (vsub x p) v)). apply Rmult_le_pos; auto. left. apply Rinv_0_lt_compat; auto. }
  rewrite <- Q. split; intros; nra.
Qed.

Lemma side_tcone x p v r1 r2 : v <> vzero -> 0 <= r2 < r1 -> x <> vadd p (vscale (r1 / (r1 - r2)) v) ->
  exists b, surface_side x (PTCone p v r1 r2) = Ok b /\
    (inside (PTCone p v r1 r2) x -> b = false) /\ (outside (PTCone p v r1 r2) x -> b = true).
Proof.
  intros V (R2 & R1) NA. cbn [surface_side]. rewrite rdiv_ok by lra. cbn [bind].
  set (k := r1 / (r1 - r2)). set (apex := vadd p (vscale k v)) in *.
  assert (D : dot (vsub x apex) (vsub x apex) <> 0) by (intros E; apply NA, zero_sub; auto).
  rewrite norm_ok by auto. cbn [bind]. pose proof (vlen_pos v V) as L. rewrite rdiv_ok by lra. cbn [bind].
  rewrite rdiv_ok by lra. cbn [bind]. eexists. split; [reflexivity|].
  (* unit axis pointing from the apex to the base *)
  set (u := vscale (- / vlen v) v).
  assert (U : dot u u = 1). { unfold u. replace (dot (vscale (- / vlen v) v) (vscale (- / vlen v) v)) with (/ vlen v * / vlen v * dot v v) by (unfold dot, vscale; simpl; ring).
    rewrite <- vlen_sq. field. lra. }
  replace (dot (vscale (/ vlen (vsub x apex)) (vsub x apex)) (vopp v) / vlen v) with (height apex u x / vlen (vsub x apex)).
  2:{ unfold height, u. replace (dot (vsub x apex) (vscale (- / vlen v) v)) with (/ vlen v * dot (vsub x apex) (vopp v)) by (unfold dot, vscale, vopp; simpl; ring).
      rewrite scale_dot. unfold Rdiv. ring. }
  set (t := (r1 - r2) / vlen v).
  assert (T : 0 < t). { unfold t. apply Rmult_lt_0_compat; [lra|]. apply Rinv_0_lt_compat; auto. }
  destruct (cone_side apex u t x U T D) as (B & A1 & A2 & _ & _). rewrite clamp_id by auto.
  (* coordinates *)
  set (y := dot v (vsub x p)).
  assert (HH : height apex u x = k * vlen v - y / vlen v).
  { unfold height, u, apex, y. 
    replace (dot (vsub x (vadd p (vscale k v))) (vscale (- / vlen v) v)) with (/ vlen v * (k * dot v v - dot v (vsub x p))) by (unfold dot, vsub, vadd, vscale; simpl; ring).
    rewrite <- vlen_sq. field. lra. }
  assert (RR : radial2 apex u x = dist2 p v x).
  { unfold radial2. rewrite HH. unfold dist2, y, apex. rewrite <- (vlen_sq v).
    replace (dot (vsub x (vadd p (vscale k v))) (vsub x (vadd p (vscale k v)))) with
      (dot (vsub x p) (vsub x p) - 2 * k * dot v (vsub x p) + k ^ 2 * dot v v) by (unfold dot, vsub, vadd, vscale; simpl; ring).
    rewrite <- (vlen_sq v). field. lra. }
  assert (RD : t * height apex u x = r1 + (r2 - r1) * (y / dot v v)).
  { rewrite HH. unfold t, k. rewrite <- (vlen_sq v). field. lra. }
  rewrite RR in A1, A2. cbn [inside outside]. fold y. rewrite <- RD.
  split.
  - intros (I & SL). rewrite between_in by auto. rewrite andb_true_r. apply negb_false_iff, rltb_true.
    assert (acos (height apex u x / vlen (vsub x apex)) < atan t); [|lra]. apply A1.
    replace ((t * height apex u x) ^ 2) with (t ^ 2 * height apex u x ^ 2) in I by ring. split; auto.
    destruct SL as (S1 & S2). fold y in S1, S2. rewrite HH. assert (1 <= k). { unfold k. apply (Rmult_le_reg_r (r1 - r2)); [lra|]. rewrite div_len; lra. }
    assert (y / vlen v < vlen v). { apply (Rmult_lt_reg_r (vlen v)); auto. rewrite div_len, vlen_sq; auto. } nra.
  - intros [O|O].
    + apply negb_true_iff, andb_false_iff. left. apply rltb_false.
      assert (atan t < acos (height apex u x / vlen (vsub x apex))); [|lra]. apply A2. right. left.
      replace ((t * height apex u x) ^ 2) with (t ^ 2 * height apex u x ^ 2) in O by ring. auto.
    + rewrite between_out by auto. rewrite andb_false_r. reflexivity.
Qed.

Lemma side_spec s x : proper s -> supported_side s ->
  (inside s x -> surface_side x s = Ok false) /\ (outside s x -> surface_side x s = Ok true \/ blind s x).
Proof.
  intros P U. destruct s; try contradiction; cbn [proper blind] in *.
  - split; cbn [inside outside surface_side]; intros H; rewrite (dot_comm x n); [|left]; f_equal; [apply rltb_false|apply rltb_true]; lra.
  - assert (A := len_lt (vsub x c) r ltac:(lra)). assert (B := len_gt (vsub x c) r ltac:(lra)).
    split; cbn [inside outside surface_side]; intros H; [|left]; f_equal; [apply rltb_false|apply rltb_true]; [apply A in H|apply B in H]; lra.
  - destruct P as (V & R0). apply vlen_unit in V.
    assert (E : dot (cross (vsub x p) v) (cross (vsub x p) v) = radial2 p v x) by (rewrite cross_len2, V; unfold radial2, height; ring).
    assert (A := len_lt (cross (vsub x p) v) r ltac:(lra)). assert (B := len_gt (cross (vsub x p) v) r ltac:(lra)). rewrite E in A, B.
    split; cbn [inside outside surface_side]; intros H; [|left]; f_equal; [apply rltb_false|apply rltb_true]; [apply A in H|apply B in H]; lra.
  - destruct P as (V & R0). destruct (can_cmp p v x r V) as (A & B); [lra|]. cbn [inside outside surface_side]. rewrite rdiv_ok by (apply vlen_nz; auto). cbn [bind].
    split.
    + intros (H & SL). f_equal. rewrite between_in by auto. rewrite andb_true_r. apply negb_false_iff, rltb_true. apply A in H. lra.
    + intros [H|H]; left; f_equal.
      * apply negb_true_iff, andb_false_iff. left. apply rltb_false. apply B in H. lra.
      * rewrite between_out by auto. rewrite andb_false_r. reflexivity.
  - destruct P as (V & T). pose proof (vlen_unit v V) as V'. pose proof (radial2_nonneg p v x V') as R2.
    assert (DN : dot (vsub x p) (vsub x p) = height p v x ^ 2 + radial2 p v x) by (unfold radial2; ring).
    split; cbn [inside outside].
    + intros (H & D). assert (HN : dot (vsub x p) (vsub x p) <> 0) by (rewrite DN; nra).
      rewrite side_cone by auto. destruct (cone_side p v t x V' T HN) as (B & A1 & A2 & A3 & A4). f_equal. apply rltb_false.
      destruct dbl.
      * assert (acos (Rabs (height p v x / vlen (vsub x p))) < atan t); [|lra]. apply A3. split; auto. apply Rabs_pos_lt. intros E. rewrite E in H. lra.
      * assert (acos (height p v x / vlen (vsub x p)) < atan t); [|lra]. apply A1. split; auto. destruct D; [discriminate|auto].
    + intros H. left. assert (HN : dot (vsub x p) (vsub x p) <> 0) by (rewrite DN; destruct H as [H|(_ & H)]; nra).
      rewrite side_cone by auto. destruct (cone_side p v t x V' T HN) as (B & A1 & A2 & A3 & A4). f_equal. apply rltb_true.
      destruct dbl; [apply A4|apply A2]; destruct H as [H|(E & H)]; auto; discriminate.
  - destruct P as (V & R0). split; intros H.
    + destruct (side_tcone x p v r1 r2 V R0) as (b & E & I & _).
      * intros ->. destruct H as (_ & (S1 & S2)).
        replace (dot v (vsub (vadd p (vscale (r1 / (r1 - r2)) v)) p)) with (r1 / (r1 - r2) * dot v v) in * by (unfold dot, vsub, vadd, vscale; simpl; ring).
        pose proof (dot_pos v V). assert (1 <= r1 / (r1 - r2)). { apply (Rmult_le_reg_r (r1 - r2)); [lra|]. rewrite div_len; lra. } nra.
      * rewrite E, I; auto.
    + destruct (Req_EM_T (dot (vsub x (vadd p (vscale (r1 / (r1 - r2)) v))) (vsub x (vadd p (vscale (r1 / (r1 - r2)) v)))) 0) as [Z|Z].
      * right. apply zero_sub. auto.
      * left. destruct (side_tcone x p v r1 r2 V R0) as (b & E & _ & O); [|rewrite E, O; auto].
        intros ->. apply Z. unfold dot, vsub; simpl. ring.
  - destruct P as (_ & _ & _ & R0 & R1). cbn [inside outside surface_side]. rewrite !rdiv_ok by lra. cbn [bind]. rewrite !rsq_pow.
    split; intros H; [|left]; f_equal; [apply rltb_false|apply rltb_true]; lra.
  - destruct P as (V & _ & _ & R0 & R1). cbn [inside outside surface_side]. rewrite !rdiv_ok by lra. cbn [bind]. rewrite !rsq_pow.
    split; intros H.
    + destruct H as (H & SL). f_equal. rewrite between_in by auto. unfold rltb at 1. destruct (Rlt_dec _ _); [reflexivity|lra].
    + destruct (Req_EM_T ((dot (vsub x c) a1 / r1) ^ 2 + (dot (vsub x c) a0 / r0) ^ 2) 1) as [E|E]; [right; exact E|].
      left. f_equal. unfold rltb at 1. destruct (Rlt_dec _ _) as [L|L].
      * destruct H as [H|H]; [lra|]. rewrite between_out by auto. reflexivity.
      * apply rltb_true. lra.
  - destruct P as (V & _ & _ & R0 & R1). cbn [inside outside surface_side]. rewrite !rdiv_ok by lra. cbn [bind]. rewrite !rsq_pow.
    split; intros H; [|left]; f_equal; [apply rltb_false|apply rltb_true]; lra.
  - destruct P as (V & F). apply vlen_unit in V. pose proof (radial2_nonneg c v x V) as R2.
    cbn [inside outside surface_side]. fold (height c v x).
    assert (E : dot (vsub (vsub x c) (vscale (height c v x) v)) (vsub (vsub x c) (vscale (height c v x) v)) = radial2 c v x).
    { unfold height. rewrite len_sub_axis by auto. reflexivity. }
    destruct (Rlt_dec (height c v x) 0) as [L|L].
    + split; intros H; auto. exfalso. nra.
    + assert (N : 0 <= 4 * f * height c v x) by nra.
      unfold rsqrt. destruct (Rlt_dec (4 * f * height c v x) 0); [lra|]. cbn [bind].
      pose proof (sqrt_pos (4 * f * height c v x)) as SP. pose proof (sqrt_sqrt _ N) as SS.
      assert (A := len_lt (vsub (vsub x c) (vscale (height c v x) v)) _ SP).
      assert (B := len_gt (vsub (vsub x c) (vscale (height c v x) v)) _ SP). rewrite E in A, B.
      split; intros H; [|left]; f_equal; [apply rltb_false|apply rltb_true].
      * assert (vlen (vsub (vsub x c) (vscale (height c v x) v)) < sqrt (4 * f * height c v x)); [|lra]. apply A. simpl. rewrite Rmult_1_r, SS. auto.
      * assert (sqrt (4 * f * height c v x) < vlen (vsub (vsub x c) (vscale (height c v x) v))); [|lra]. apply B. simpl. rewrite Rmult_1_r, SS. auto.
  - destruct P as (V & _ & RB & RC). apply vlen_unit in V.
    assert (E : vlen (vsub (vsub x c) (vscale (height c v x) v)) = sqrt (radial2 c v x)).
    { unfold vlen. f_equal. unfold height. rewrite len_sub_axis by auto. reflexivity. }
    cbn [inside outside surface_side]. fold (height c v x). rewrite !rdiv_ok by lra. cbn [bind]. rewrite !rsq_pow, E.
    split; intros H; [|left]; f_equal; [apply rltb_false|apply rltb_true]; lra.
  - cbn [inside outside surface_side]. split.
    + intros (A & B & C). rewrite !between_in by auto. reflexivity.
    + intros [A|[A|A]]; left; f_equal; rewrite (between_out _ _ _ A); rewrite ?andb_false_r; reflexivity.
Qed.
