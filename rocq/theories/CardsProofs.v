(** Proofs for the surface cards. *)
From Coq Require Import String.
From Verif Require Import Prelude Vec3 Geom GeomSpec GeomProofs Prim PrimSpec PrimProofs Cards CardsSpec.
Open Scope R_scope.

(** ** Rigid motions *)
Definition rigid (M : matrix) : Prop := orthonormal (col1 M, col2 M, col3 M).

Lemma rot_dot M a b : rigid M -> dot (rotv M a) (rotv M b) = dot a b.
Proof.
  intros (H1 & H2 & H3 & H12 & H13 & H23). unfold rotv.
  replace (dot (vadd (vscale (vx a) (col1 M)) (vadd (vscale (vy a) (col2 M)) (vscale (vz a) (col3 M))))
               (vadd (vscale (vx b) (col1 M)) (vadd (vscale (vy b) (col2 M)) (vscale (vz b) (col3 M)))))
    with (vx a * vx b * dot (col1 M) (col1 M) + vy a * vy b * dot (col2 M) (col2 M) + vz a * vz b * dot (col3 M) (col3 M)
          + (vx a * vy b + vy a * vx b) * dot (col1 M) (col2 M) + (vx a * vz b + vz a * vx b) * dot (col1 M) (col3 M)
          + (vy a * vz b + vz a * vy b) * dot (col2 M) (col3 M)) by (unfold dot, vadd, vscale; simpl; ring).
  rewrite H1, H2, H3, H12, H13, H23. unfold dot. ring.
Qed.
Lemma rot_len M a : rigid M -> vlen (rotv M a) = vlen a.
Proof. intros H. unfold vlen. rewrite rot_dot; auto. Qed.
Lemma mult_sub M x p : vsub (mult_vec M x) (mult_vec M p) = rotv M (vsub x p).
Proof. apply vec_eq; unfold mult_vec, rotv, vsub, vadd, vscale; simpl; ring. Qed.
Lemma rot_sub M x p : vsub (rotv M x) (rotv M p) = rotv M (vsub x p).
Proof. apply vec_eq; unfold rotv, vsub, vadd, vscale; simpl; ring. Qed.
Lemma rot_scale M k x : rotv M (vscale k x) = vscale k (rotv M x).
Proof. apply vec_eq; unfold rotv, vadd, vscale; simpl; ring. Qed.
Lemma rot_nz M v : rigid M -> v <> vzero -> rotv M v <> vzero.
Proof.
  intros H N E. pose proof (dot_pos v N). rewrite <- (rot_dot M) in H0 by auto. rewrite E in H0. unfold dot, vzero in H0; simpl in H0. lra.
Qed.
Lemma rot_inj M a b : rigid M -> rotv M a = rotv M b -> a = b.
Proof.
  intros H E. apply zero_sub. rewrite <- (rot_dot M) by auto. rewrite <- rot_sub, E. unfold dot, vsub; simpl; ring.
Qed.
Lemma rot_axis M v a : rigid M -> (rotv M v = rotv M a <-> v = a).
Proof. intros H. split; [apply rot_inj; auto|intros ->; auto]. Qed.

Section Motion.
  Variable M : matrix.
  Hypothesis HM : rigid M.
  Lemma m_height p v x : height (mult_vec M p) (rotv M v) (mult_vec M x) = height p v x.
  Proof. unfold height. rewrite mult_sub, rot_dot; auto. Qed.
  Lemma m_dot p v x : dot (vsub (mult_vec M x) (mult_vec M p)) (rotv M v) = dot (vsub x p) v.
  Proof. rewrite mult_sub, rot_dot; auto. Qed.
  Lemma m_dot' p v x : dot (rotv M v) (vsub (mult_vec M x) (mult_vec M p)) = dot v (vsub x p).
  Proof. rewrite mult_sub, rot_dot; auto. Qed.
  Lemma m_len2 p x : dot (vsub (mult_vec M x) (mult_vec M p)) (vsub (mult_vec M x) (mult_vec M p)) = dot (vsub x p) (vsub x p).
  Proof. rewrite mult_sub, rot_dot; auto. Qed.
  Lemma m_radial p v x : radial2 (mult_vec M p) (rotv M v) (mult_vec M x) = radial2 p v x.
  Proof. unfold radial2. rewrite m_height, m_len2. auto. Qed.
  Lemma m_slab p v x : slab (mult_vec M p) (rotv M v) (mult_vec M x) <-> slab p v x.
  Proof. unfold slab. rewrite m_dot', rot_dot by auto. tauto. Qed.
  Lemma m_off p v x : off_slab (mult_vec M p) (rotv M v) (mult_vec M x) <-> off_slab p v x.
  Proof. unfold off_slab. rewrite m_dot', rot_dot by auto. tauto. Qed.
  Lemma m_dist p v x : dist2 (mult_vec M p) (rotv M v) (mult_vec M x) = dist2 p v x.
  Proof. unfold dist2. rewrite m_dot', m_len2, rot_dot by auto. auto. Qed.
End Motion.

(** unit normal, no box *)
Definition movable (s : prim) : Prop :=
  match s with PPlane n _ => vlen n = 1 | PBox _ _ _ _ => False | _ => True end.

Lemma transform_spec M s : rigid M -> proper s -> movable s ->
  exists s', transform M s = Ok s' /\ proper s' /\
    forall x, (inside s' (mult_vec M x) <-> inside s x) /\ (outside s' (mult_vec M x) <-> outside s x).
Proof.
  intros H P W. destruct s; cbn [movable] in W; try contradiction; cbn [transform].
  { unfold normalize. rewrite rot_len, W by auto. destruct (Req_EM_T 1 0) as [E|_]; [lra|]. cbn [bind].
    assert (E : vscale (/ 1) (rotv M n) = rotv M n) by (apply vec_eq; unfold vscale; simpl; field). rewrite E.
    eexists. split; [reflexivity|]. split; [apply rot_nz; auto|]. intros x. cbn [inside outside].
    assert (D : dot (rotv M n) (mult_vec M x) - dot (mult_vec M (vscale d n)) (rotv M n) = dot n x - d).
    { rewrite (dot_comm (mult_vec M (vscale d n))). rewrite <- dot_sub_r, mult_sub, rot_dot, dot_sub_r by auto.
      replace (dot n (vscale d n)) with (d * dot n n) by (unfold dot, vscale; simpl; ring). rewrite (vlen_unit n W). ring. }
    lra. }
  all: (eexists; split; [reflexivity|]; cbn [proper] in *; rewrite ?rot_len by auto; split;
    [repeat match goal with
     | |- _ /\ _ => split
     | h : _ /\ _ |- _ => destruct h
     end; auto using rot_nz; try (intuition (subst; auto))
    |intros x; cbn [inside outside]; rewrite ?m_height, ?m_radial, ?m_dot, ?m_dot', ?m_dist, ?m_len2, ?rot_dot, ?m_slab, ?m_off by auto;
     rewrite ?rot_axis by auto; tauto]).
Qed.

(** ** Cards *)
Lemma sq_lt_10 a b : (10 * 10) * a < (10 * 10) * b <-> a < b. Proof. lra. Qed.

Definition uax (a : ax) : vec := match a with AX => X_vec | AY => Y_vec | AZ => Z_vec end.
Lemma uax_len a : vlen (uax a) = 1.
Proof. destruct a; unfold vlen, dot; simpl; replace (_ + _ + _) with 1 by ring; apply sqrt_1. Qed.
Lemma uax_len_opp a : vlen (vopp (uax a)) = 1.
Proof. destruct a; unfold vlen, dot, vopp; simpl; replace (_ + _ + _) with 1 by ring; apply sqrt_1. Qed.
Lemma h_ax a p x : height (vscale scale p) (uax a) (vscale scale x) = 10 * (along a x - along a p).
Proof. destruct a; unfold height, dot, vsub, vscale, scale; simpl; ring. Qed.
Lemma h_ax_opp a p x : height (vscale scale p) (vopp (uax a)) (vscale scale x) = - (10 * (along a x - along a p)).
Proof. destruct a; unfold height, dot, vsub, vscale, scale, vopp; simpl; ring. Qed.
Lemma r_ax a p x : radial2 (vscale scale p) (uax a) (vscale scale x) = 100 * line2 a p x.
Proof. unfold radial2. rewrite h_ax. destruct a; unfold line2, dot, vsub, vscale, scale; simpl; ring. Qed.
Lemma r_ax_opp a p x : radial2 (vscale scale p) (vopp (uax a)) (vscale scale x) = 100 * line2 a p x.
Proof. unfold radial2. rewrite h_ax_opp. destruct a; unfold line2, dot, vsub, vscale, scale; simpl; ring. Qed.
Lemma line2_nonneg a p x : 0 <= line2 a p x.
Proof. unfold line2. apply Rplus_le_le_0_compat; apply pow2_ge_0. Qed.

(** the cone card *)
Lemma cone_read_spec lo k a p t2 sht : 0 < t2 -> exists r s,
  cone_read lo k p (uax a) t2 sht = Ok r /\ rd_prim r = Some (Some s) /\ rd_hit r = None /\ proper s /\ movable s /\
  forall x, (cone_neg a p t2 (sheet_val sht) x <-> inside s (vscale scale x)) /\ (cone_pos a p t2 (sheet_val sht) x <-> outside s (vscale scale x)).
Proof.
  intros T. unfold cone_read, rsqrt. destruct (Rlt_dec t2 0); [lra|]. cbn [bind]. do 2 eexists. split; [reflexivity|]. split; [reflexivity|]. split; [reflexivity|].
  pose proof (sqrt_lt_R0 t2 T) as TP. assert (SQ : sqrt t2 ^ 2 = t2) by (simpl; rewrite Rmult_1_r; apply sqrt_sqrt; lra).
  assert (U : vlen (if match sht with None => false | Some s => rltb s 0 end then vopp (uax a) else uax a) = 1) by (destruct sht as [s|]; [destruct (rltb s 0)|]; auto using uax_len, uax_len_opp).
  split; [split; auto|]. split; [exact Logic.I|]. intros x. cbn [inside outside]. rewrite SQ. unfold cone_neg, cone_pos.
  set (h := along a x - along a p). set (l := line2 a p x).
  destruct sht as [s|]; cbn [sheet_val].
  - destruct (Req_EM_T s 0) as [->|NS].
    + assert (E : rltb 0 0 = false) by (apply rltb_false; lra). rewrite E. rewrite h_ax, r_ax. fold h l.
      split; split; intros H.
      * destruct H. split; [nra|auto].
      * destruct H. split; [nra|auto].
      * destruct H as [H|(H & _)]; [left; nra|congruence].
      * destruct H as [H|(H & _)]; [left; nra|congruence].
    + destruct (rltb s 0) eqn:E.
      * apply rltb_true in E. rewrite h_ax_opp, r_ax_opp. fold h l. split; split; intros H.
        -- destruct H as (H & [H'|H']); [congruence|]. split; [nra|right; nra].
        -- destruct H as (H & [H'|H']); [congruence|]. split; [nra|right; nra].
        -- destruct H as [H|(H & H')]; [left; nra|right; split; [auto|nra]].
        -- destruct H as [H|(H & H')]; [left; nra|right; split; [auto|nra]].
      * apply rltb_false in E. rewrite h_ax, r_ax. fold h l. split; split; intros H.
        -- destruct H as (H & [H'|H']); [congruence|]. split; [nra|right; nra].
        -- destruct H as (H & [H'|H']); [congruence|]. split; [nra|right; nra].
        -- destruct H as [H|(H & H')]; [left; nra|right; split; [auto|nra]].
        -- destruct H as [H|(H & H')]; [left; nra|right; split; [auto|nra]].
  - rewrite h_ax, r_ax. fold h l. split; split; intros H.
    + destruct H. split; [nra|auto].
    + destruct H. split; [nra|auto].
    + destruct H as [H|(H & _)]; [left; nra|congruence].
    + destruct H as [H|(H & _)]; [left; nra|discriminate].
Qed.

(** the cards X, Y, Z *)
Lemma points_read_spec lo k a h1 r1 h2 r2 : h1 <> h2 -> 0 < r1 -> 0 < r2 -> eps12 < Rabs (r1 - r2) -> exists r s,
  points_read lo k (uax a) [h1; r1; h2; r2] = Ok r /\ rd_prim r = Some (Some s) /\ rd_hit r = None /\ proper s /\ movable s /\
  forall x, (neg (MX2 a h1 r1 h2 r2) x <-> inside s (vscale scale x)) /\ (pos_ (MX2 a h1 r1 h2 r2) x <-> outside s (vscale scale x)).
Proof.
  intros HH R1 R2 RR. unfold points_read. apply rltb_true in RR as RR'. rewrite RR'.
  assert (NR : r2 - r1 <> 0). { intros E. replace (r1 - r2) with (- (r2 - r1)) in RR by ring. rewrite E, Ropp_0, Rabs_R0 in RR. unfold eps12 in RR.
    assert (0 < 1 / 10 ^ 12) by (apply Rmult_lt_0_compat; [lra|apply Rinv_0_lt_compat, pow_lt; lra]). lra. }
  rewrite rdiv_ok by lra. cbn [bind]. set (t := (r2 - r1) / (h2 - h1)).
  assert (NT : t <> 0). { unfold t, Rdiv. apply Rmult_integral_contrapositive. split; auto. apply Rinv_neq_0_compat. lra. }
  rewrite rdiv_ok by auto. cbn [bind]. set (x0 := h1 - r1 / t).
  assert (E1 : h1 - x0 = r1 / t) by (unfold x0; ring).
  assert (E2 : h2 - x0 = r2 / t). { unfold x0. replace (h2 - (h1 - r1 / t)) with (h2 - h1 + r1 / t) by ring. unfold t. field. lra. }
  assert (S1 : 0 < (h1 - x0) * (h2 - x0)).
  { rewrite E1, E2. replace (r1 / t * (r2 / t)) with (r1 * r2 * (/ t) ^ 2) by (field; auto).
    apply Rmult_lt_0_compat; [nra|]. assert (/ t <> 0) by (apply Rinv_neq_0_compat; auto). nra. }
  apply rltb_true in S1. rewrite S1. do 2 eexists. split; [reflexivity|]. split; [reflexivity|]. split; [reflexivity|].
  assert (TP : 0 < Rabs t) by (apply Rabs_pos_lt; auto).
  split. { split; auto. destruct (rltb 0 (h1 - x0)); auto using uax_len, uax_len_opp. }
  split; [exact Logic.I|]. intros x. cbn [inside outside neg pos_]. rewrite pow2_abs.
  assert (LP : line2 a (vscale x0 (uax a)) x = line2 a vzero x) by (destruct a; unfold line2, vscale; simpl; ring).
  assert (AP : along a (vscale x0 (uax a)) = x0) by (destruct a; unfold vscale; simpl; ring).
  assert (RD : r1 + (r2 - r1) * (along a x - h1) / (h2 - h1) = t * (along a x - x0)).
  { replace (t * (along a x - x0)) with (t * (along a x - h1) + t * (h1 - x0)) by ring. rewrite E1. unfold t. field. lra. }
  rewrite RD. set (h := along a x - x0). set (l := line2 a vzero x).
  destruct (rltb 0 (h1 - x0)) eqn:EP.
  - assert (T : 0 < t). { apply rltb_true in EP. rewrite E1 in EP. destruct (Rlt_dec 0 t); auto. assert (t < 0) by lra.
      assert (/ t < 0) by (apply Rinv_lt_0_compat; auto). unfold Rdiv in EP. nra. }
    rewrite h_ax, r_ax, LP, AP. fold h l. replace ((t * h) ^ 2) with (t ^ 2 * h ^ 2) by ring. split; split; intros H.
    + destruct H. split; [nra|right; nra].
    + destruct H as (H & [H'|H']); [discriminate|]. split; nra.
    + destruct H as [H|H]; [left; nra|right; split; [auto|nra]].
    + destruct H as [H|(H & H')]; [left; nra|right; nra].
  - assert (T : t < 0). { apply rltb_false in EP. rewrite E1 in EP. destruct (Rlt_dec t 0); auto. assert (0 < t) by lra.
      assert (0 < / t) by (apply Rinv_0_lt_compat; auto). unfold Rdiv in EP. nra. }
    rewrite h_ax_opp, r_ax_opp, LP, AP. fold h l. replace ((t * h) ^ 2) with (t ^ 2 * h ^ 2) by ring. split; split; intros H.
    + destruct H. split; [nra|right; nra].
    + destruct H as (H & [H'|H']); [discriminate|]. split; nra.
    + destruct H as [H|H]; [left; nra|right; split; [auto|nra]].
    + destruct H as [H|(H & H')]; [left; nra|right; nra].
Qed.

(** the cards the code reads as the manual says *)
Definition read_well (c : mcnp) : Prop :=
  match c with MX2 _ h1 r1 h2 r2 => 0 < r1 /\ 0 < r2 /\ eps12 < Rabs (r1 - r2) | _ => True end.
(** the cards that can be transformed *)
Definition moved_well (c : mcnp) : Prop :=
  match c with MP a b c d => a ^ 2 + b ^ 2 + c ^ 2 = 1 | MBOX _ _ _ _ | MRPP _ _ _ _ _ _ => False | _ => True end.

Lemma comp_scale p v x : v <> vzero -> dot (vscale scale v) (vsub (vscale scale x) (vscale scale p)) = comp p v x * dot (vscale scale v) (vscale scale v).
Proof.
  intros H. pose proof (dot_pos v H). unfold comp.
  replace (dot (vscale scale v) (vscale scale v)) with (100 * dot v v) by (unfold dot, vscale, scale; simpl; ring).
  replace (dot (vscale scale v) (vsub (vscale scale x) (vscale scale p))) with (100 * dot (vsub x p) v) by (unfold dot, vscale, vsub, scale; simpl; ring).
  field. lra.
Qed.
Lemma slab_ends p v x : v <> vzero -> (in_ends p v x <-> slab (vscale scale p) (vscale scale v) (vscale scale x)).
Proof.
  intros H. unfold slab, in_ends. rewrite comp_scale by auto. pose proof (dot_pos v H).
  assert (0 < dot (vscale scale v) (vscale scale v)). { replace (dot (vscale scale v) (vscale scale v)) with (100 * dot v v) by (unfold dot, vscale, scale; simpl; ring). lra. }
  set (d := dot _ _) in *. clearbody d. split; intros (A & B); split; nra.
Qed.
Lemma off_ends p v x : v <> vzero -> (out_ends p v x <-> off_slab (vscale scale p) (vscale scale v) (vscale scale x)).
Proof.
  intros H. unfold off_slab, out_ends. rewrite comp_scale by auto. pose proof (dot_pos v H).
  assert (0 < dot (vscale scale v) (vscale scale v)). { replace (dot (vscale scale v) (vscale scale v)) with (100 * dot v v) by (unfold dot, vscale, scale; simpl; ring). lra. }
  set (d := dot _ _) in *. clearbody d. split; intros [A|A]; [left|right|left|right]; nra.
Qed.
Lemma scale_nz v : v <> vzero -> vscale scale v <> vzero.
Proof. intros H E. apply H. destruct v. unfold vscale, vzero, scale in *. simpl in *. injection E. intros. f_equal; lra. Qed.
Lemma dist_axis p v x : v <> vzero -> dist2 (vscale scale p) (vscale scale v) (vscale scale x) = 100 * axis2 p v x.
Proof.
  intros H. unfold dist2, axis2. rewrite comp_scale by auto. pose proof (dot_pos v H).
  replace (dot (vscale scale v) (vscale scale v)) with (100 * dot v v) by (unfold dot, vscale, scale; simpl; ring).
  replace (dot (vsub (vscale scale x) (vscale scale p)) (vsub (vscale scale x) (vscale scale p))) with (100 * dot (vsub x p) (vsub x p)) by (unfold dot, vscale, vsub, scale; simpl; ring).
  field. lra.
Qed.
Lemma rec_comp p v x : v <> vzero ->
  dot (vsub (vscale scale x) (vscale scale p)) (vscale (/ vlen v) v) / (vlen v * scale) = comp p v x.
Proof.
  intros H. pose proof (vlen_pos v H). unfold comp. rewrite <- (vlen_sq v).
  replace (dot (vsub (vscale scale x) (vscale scale p)) (vscale (/ vlen v) v)) with (10 * / vlen v * dot (vsub x p) v) by (unfold dot, vscale, vsub, scale; simpl; ring).
  unfold scale. field. lra.
Qed.
Lemma normalize_ok v : v <> vzero -> normalize v = Ok (vscale (/ vlen v) v).
Proof. intros H. unfold normalize. destruct (Req_EM_T (vlen v) 0) as [E|_]; auto. pose proof (vlen_pos v H). lra. Qed.
Lemma unit_len v : v <> vzero -> vlen (vscale (/ vlen v) v) = 1.
Proof.
  intros H. pose proof (vlen_pos v H). rewrite vlen_scale, Rabs_pos_eq; [field; lra|]. left. apply Rinv_0_lt_compat. auto.
Qed.

Lemma dot_scale_r k a b : dot a (vscale k b) = k * dot a b.
Proof. unfold dot, vscale; simpl; ring. Qed.
Lemma three_point_neg p1 p2 p3 n d x : ~ collinear p1 p2 p3 -> three_point_plane p1 p2 p3 n d ->
  ((exists n' d', three_point_plane p1 p2 p3 n' d' /\ dot n' x < d') <-> dot n x < d).
Proof.
  intros N T. split; [|eauto]. intros (n' & d' & T' & L).
  destruct (three_point_unique _ _ _ _ _ _ _ N T' T) as (k & K & -> & ->). rewrite scale_dot. nra.
Qed.
Lemma v_eta v : V (vx v) (vy v) (vz v) = v. Proof. destruct v; reflexivity. Qed.
Lemma nz_unit v : vlen v = 1 -> v <> vzero.
Proof. intros H E. subst. rewrite vlen_zero in H. lra. Qed.
Lemma len2_scale x c : dot (vsub (vscale scale x) (vscale scale c)) (vsub (vscale scale x) (vscale scale c))
  = 100 * ((vx x - vx c) ^ 2 + (vy x - vy c) ^ 2 + (vz x - vz c) ^ 2).
Proof. unfold dot, vsub, vscale, scale; simpl; ring. Qed.

Definition card_ok (c : mcnp) (s : prim) : Prop :=
  forall x, (neg c x <-> inside s (vscale scale x)) /\ (pos_ c x <-> outside s (vscale scale x)).
Definition reads_as (lo : locals) (k : nat) (c : mcnp) : Prop :=
  exists r s, read_card lo k (fst (written c)) (snd (written c)) = Ok r /\ rd_prim r = Some (Some s) /\ rd_hit r = None /\
    proper s /\ (moved_well c -> movable s) /\ card_ok c s.

Ltac start := do 2 eexists; split; [reflexivity|]; split; [reflexivity|]; split; [reflexivity|].

Lemma rec_ok lo k p h v1 u2 ru minax : h <> vzero -> v1 <> vzero -> vlen minax = 1 -> 0 < ru ->
  (forall x, dot (vsub (vscale scale x) (vscale scale p)) minax / (ru * scale) = u2 x) ->
  exists r s,
  (if rltb (vlen v1 * scale) (ru * scale) then with_p lo k (vscale scale p) (PECan (vscale scale p) (vscale scale h) (vlen v1 * scale) (ru * scale) (vscale (/ vlen v1) v1) minax)
      else with_p lo k (vscale scale p) (PECan (vscale scale p) (vscale scale h) (ru * scale) (vlen v1 * scale) minax (vscale (/ vlen v1) v1))) = Ok r /\
  rd_prim r = Some (Some s) /\ rd_hit r = None /\ proper s /\ movable s /\
  forall x, (comp p v1 x ^ 2 + u2 x ^ 2 < 1 /\ in_ends p h x <-> inside s (vscale scale x)) /\
            (1 < comp p v1 x ^ 2 + u2 x ^ 2 \/ out_ends p h x <-> outside s (vscale scale x)).
Proof.
  intros H V1 U R0 E. pose proof (vlen_pos v1 V1) as L.
  destruct (rltb (vlen v1 * scale) (ru * scale)); start; (split; [split; [apply scale_nz; auto|]; unfold scale; repeat split; auto using unit_len; lra|]);
  (split; [exact Logic.I|]); intros x; cbn [inside outside]; rewrite E, rec_comp by auto; rewrite <- slab_ends, <- off_ends by auto.
  - rewrite (Rplus_comm (u2 x ^ 2)). tauto.
  - tauto.
Qed.

Lemma read_card_spec lo k c : legal c -> read_well c -> reads_as lo k c.
Proof.
  intros L W. unfold reads_as, card_ok. destruct c; cbn [legal read_well] in L, W.
  - start. split; [exact L|]. split.
    { cbn [movable moved_well]. intros E. unfold vlen, dot; simpl. replace (a * a + b * b + c * c) with 1 by (rewrite <- E; ring). apply sqrt_1. }
    intros x. cbn [neg pos_ inside outside]. unfold dot, vscale, scale; simpl. split; split; intros; lra.
  - cbn [written fst snd nums app read_card]. rewrite !v_eta.
    destruct (points_to_coeffs_spec p1 p2 p3 L) as (n & d & E & U & T). rewrite E. cbn [bind fst snd]. start.
    split; [apply nz_unit; auto|]. split; [intros _; exact U|]. intros x. cbn [neg pos_ inside outside].
    rewrite (three_point_neg _ _ _ _ _ x L T). pose proof (three_point_pos _ _ _ _ _ x L T) as TP. cbn [card_pos] in TP. rewrite TP.
    rewrite dot_scale_r. unfold scale. split; split; intros; lra.
  - assert (P : reads_as lo k (MPA a d)); [|exact P]. destruct a; start; (split; [apply nz_unit, (uax_len AX)|| apply nz_unit, (uax_len AY) || apply nz_unit, (uax_len AZ)|]);
    (split; [intros _; apply (uax_len AX) || apply (uax_len AY) || apply (uax_len AZ)|]);
    intros x; cbn [neg pos_ inside outside along]; unfold dot, X_vec, Y_vec, Z_vec, vscale, scale; simpl; split; split; intros; lra.
  - start. split; [cbn [proper]; unfold scale; lra|]. split; [auto|]. intros x. cbn [neg pos_ inside outside nums app]. rewrite v_eta, len2_scale.
    replace ((r * scale) ^ 2) with (100 * r ^ 2) by (unfold scale; ring). split; split; intros; lra.
  - start. split; [cbn [proper]; unfold scale; lra|]. split; [auto|]. intros x. cbn [neg pos_ inside outside nums app]. rewrite v_eta, len2_scale.
    replace ((r * scale) ^ 2) with (100 * r ^ 2) by (unfold scale; ring). split; split; intros; lra.
  - assert (E : forall x, dot (vsub (vscale scale x) (vscale scale (at_ a h))) (vsub (vscale scale x) (vscale scale (at_ a h))) = 100 * (line2 a vzero x + (along a x - h) ^ 2)).
    { intros x. rewrite len2_scale. destruct a; unfold line2; simpl; ring. }
    assert (F : vscale scale (at_ a h) = match a with AX => V (h * scale) 0 0 | AY => V 0 (h * scale) 0 | AZ => V 0 0 (h * scale) end).
    { destruct a; apply vec_eq; unfold vscale, scale; simpl; ring. }
    assert (P : reads_as lo k (MSA a h r)); [|exact P]. unfold reads_as, card_ok.
    destruct a; start; (split; [cbn [proper]; unfold scale; lra|]); (split; [intros _; exact Logic.I|]); intros x; cbn [neg pos_ inside outside];
    rewrite <- F, E; replace ((r * scale) ^ 2) with (100 * r ^ 2) by (unfold scale; ring); split; split; intros; lra.
  - start. split; [cbn [proper]; unfold scale; lra|]. split; [auto|]. intros x. cbn [neg pos_ inside outside].
    replace (dot (vsub (vscale scale x) vzero) (vsub (vscale scale x) vzero)) with (100 * (vx x ^ 2 + vy x ^ 2 + vz x ^ 2)) by (unfold dot, vsub, vscale, scale, vzero; simpl; ring).
    replace ((r * scale) ^ 2) with (100 * r ^ 2) by (unfold scale; ring). split; split; intros; lra.
  - exists (cyl_read lo k false vzero (uax a) r), (PCyl (vscale scale vzero) (uax a) (r * scale)).
    split; [destruct a; reflexivity|]. split; [reflexivity|]. split; [reflexivity|].
    split; [split; [apply uax_len|unfold scale; lra]|]. split; [intros _; exact Logic.I|]. intros x. cbn [neg pos_ inside outside]. rewrite r_ax.
    replace ((r * scale) ^ 2) with (100 * r ^ 2) by (unfold scale; ring). split; split; intros; lra.
  - exists (cyl_read lo k true (off_at a u w) (uax a) r), (PCyl (vscale scale (off_at a u w)) (uax a) (r * scale)).
    split; [destruct a; reflexivity|]. split; [reflexivity|]. split; [reflexivity|].
    split; [split; [apply uax_len|unfold scale; lra]|]. split; [intros _; exact Logic.I|]. intros x. cbn [neg pos_ inside outside]. rewrite r_ax.
    assert (E : line2 a (off_at a u w) x = (off1 a x - u) ^ 2 + (off2 a x - w) ^ 2) by (destruct a; reflexivity). rewrite E.
    replace ((r * scale) ^ 2) with (100 * r ^ 2) by (unfold scale; ring). split; split; intros; lra.
  - destruct (cone_read_spec lo k a (at_ a h) t2 sheet L) as (r & s & E & A & B & C & D & F). exists r, s.
    split; [|auto]. rewrite <- E. destruct a, sheet; reflexivity.
  - destruct (cone_read_spec lo k a p t2 sheet L) as (r & s & E & A & B & C & D & F). exists r, s.
    split; [|auto]. rewrite <- E, <- (v_eta p) at 1. destruct a, sheet; reflexivity.
  - exists (torus_read lo k p (uax a) ra rb rc), (PTorus (vscale scale p) (uax a) (ra * scale) (rb * scale) (rc * scale)).
    split; [rewrite <- (v_eta p) at 3; destruct a; reflexivity|]. split; [reflexivity|]. split; [reflexivity|].
    split; [split; [apply uax_len|]; unfold scale; repeat split; lra|]. split; [auto|]. intros x. cbn [neg pos_ inside outside]. rewrite h_ax, r_ax.
    replace (sqrt (100 * line2 a p x)) with (10 * sqrt (line2 a p x)).
    2:{ rewrite sqrt_mult by (try lra; apply line2_nonneg). f_equal. replace 100 with (10 * 10) by ring. symmetry. apply sqrt_square. lra. }
    replace (10 * (along a x - along a p) / (rb * scale)) with ((along a x - along a p) / rb) by (unfold scale; field; lra).
    replace ((10 * sqrt (line2 a p x) - ra * scale) / (rc * scale)) with ((sqrt (line2 a p x) - ra) / rc) by (unfold scale; field; lra).
    unfold Rdiv. rewrite !Rpow_mult_distr, !pow_inv. tauto.
  - assert (P : reads_as lo k (MX1 a h r)); [|exact P]. destruct a; start; (split; [apply nz_unit, (uax_len AX)|| apply nz_unit, (uax_len AY) || apply nz_unit, (uax_len AZ)|]);
    (split; [intros _; apply (uax_len AX) || apply (uax_len AY) || apply (uax_len AZ)|]);
    intros x; cbn [neg pos_ inside outside along]; unfold dot, X_vec, Y_vec, Z_vec, vscale, scale; simpl; split; split; intros; lra.
  - destruct L as (HH & _). destruct W as (R1 & R2 & RR). destruct (points_read_spec lo k a h1 r1 h2 r2 HH R1 R2 RR) as (r & s & E & A & B & C & D & F).
    exists r, s. split; [|auto]. rewrite <- E. destruct a; reflexivity.
  - start. destruct L as (A & B & C & _). split; [repeat split; apply scale_nz; cbn [nums app]; rewrite v_eta; auto|]. split; [intros []|].
    intros x. cbn [neg pos_ inside outside nums app]. rewrite !v_eta, <- !slab_ends, <- !off_ends by auto. tauto.
  - start. destruct L as (A & B & C). split.
    { repeat split; apply scale_nz; intros E; injection E; lra. }
    split; [intros []|]. intros x. cbn [neg pos_ inside outside]. unfold slab, off_slab, dot, vsub, vscale, scale; simpl.
    split; split; intros H.
    + repeat split; nra.
    + destruct H as ((H1 & H2) & (H3 & H4) & (H5 & H6)). repeat split; nra.
    + destruct H as [H|[H|[H|[H|[H|H]]]]]; [left; left|left; right|right; left; left|right; left; right|right; right; left|right; right; right]; nra.
    + destruct H as [[H|H]|[[H|H]|[H|H]]]; [left|right; left|do 2 right; left|do 3 right; left|do 4 right; left|do 5 right]; nra.
  - start. destruct L as (A & B). split; [split; [apply scale_nz; cbn [nums app]; rewrite v_eta; auto|unfold scale; lra]|]. split; [auto|].
    intros x. cbn [neg pos_ inside outside nums app]. rewrite !v_eta, <- slab_ends, <- off_ends, dist_axis by auto.
    replace ((r * scale) ^ 2) with (100 * r ^ 2) by (unfold scale; ring). split; split; intros H.
    + destruct H. split; auto; lra.
    + destruct H. split; auto; lra.
    + destruct H; auto; left; lra.
    + destruct H; auto; left; lra.
  - destruct L as (H & V1 & V2 & _). cbn [written fst snd nums app read_card]. rewrite !v_eta. rewrite !normalize_ok by auto. cbn [bind].
    destruct (rec_ok lo k p h v1 (fun x => comp p v2 x) (vlen v2) (vscale (/ vlen v2) v2) H V1 (unit_len v2 V2) (vlen_pos v2 V2)) as (r & s & E & A & B & C & D & F).
    { intros x. apply rec_comp. auto. }
    exists r, s. split; [exact E|]. do 3 (split; [auto|]). split; [auto|]. exact F.
  - destruct L as (H & V1 & HV & R0). pose proof (vlen_pos h H) as HL. pose proof (vlen_pos v1 V1) as VL. cbn [written fst snd nums app read_card]. rewrite !v_eta. rewrite !normalize_ok by auto. cbn [bind].
    rewrite rdiv_ok by lra. cbn [bind].
    destruct (rec_ok lo k p h v1 (fun x => dot (vsub x p) (cross h v1) / (vlen h * vlen v1 * r)) r (vscale (/ vlen h) (cross h (vscale (/ vlen v1) v1))) H V1) as (rr & s & E & A & B & C & D & F); auto.
    { unfold vlen at 1. rewrite scale_dot, dot_scale_r, cross_len2, (dot_scale_r _ h), HV.
      rewrite scale_dot, dot_scale_r, <- (vlen_sq h), <- (vlen_sq v1).
      replace (_ * _) with 1 by (field; lra). apply sqrt_1. }
    { intros x. replace (dot (vsub (vscale scale x) (vscale scale p)) (vscale (/ vlen h) (cross h (vscale (/ vlen v1) v1))))
        with (10 * / vlen h * / vlen v1 * dot (vsub x p) (cross h v1)) by (unfold dot, vsub, vscale, cross, scale; simpl; ring).
      unfold scale. field. lra. }
    exists rr, s. split; [exact E|]. do 3 (split; [auto|]). split; [auto|]. intros x. cbn [neg pos_].
    replace (dot (vsub x p) (cross h v1) ^ 2 / (dot h h * dot v1 v1 * r ^ 2)) with ((dot (vsub x p) (cross h v1) / (vlen h * vlen v1 * r)) ^ 2) by (rewrite <- (vlen_sq h), <- (vlen_sq v1); field; lra).
    apply F.
  - start. destruct L as (A & B). split; [split; [apply scale_nz; cbn [nums app]; rewrite v_eta; auto|unfold scale; lra]|]. split; [auto|].
    intros x. cbn [neg pos_ inside outside nums app]. rewrite !v_eta, <- slab_ends, <- off_ends, dist_axis, comp_scale by auto.
    pose proof (dot_pos _ (scale_nz _ A)) as DP.
    replace (comp p h x * dot (vscale scale h) (vscale scale h) / dot (vscale scale h) (vscale scale h)) with (comp p h x) by (field; lra).
    replace ((r1 * scale + (r2 * scale - r1 * scale) * comp p h x) ^ 2) with (100 * (r1 + (r2 - r1) * comp p h x) ^ 2) by (unfold scale; ring).
    set (q := (r1 + (r2 - r1) * comp p h x) ^ 2). split; split; intros HH.
    + destruct HH. split; auto; lra.
    + destruct HH. split; auto; lra.
    + destruct HH; auto; left; lra.
    + destruct HH; auto; left; lra.
Qed.

Lemma read_supported lo k c r s : read_card lo k (fst (written c)) (snd (written c)) = Ok r -> rd_prim r = Some (Some s) -> supported_side s.
Proof.
  intros H E.
  destruct c; try destruct a; try destruct sheet; cbn [written fst snd nums app letter String.append opt read_card] in H;
  unfold keep, with_p, cyl_read, torus_read, cone_read, points_read, rdiv, rsqrt, normalize in H;
  repeat (cbn [bind] in H; match type of H with
    | context [match points_to_coeffs ?a ?b ?c with _ => _ end] => destruct (points_to_coeffs a b c) as [[? ?]| |]
    | context [bind (points_to_coeffs ?a ?b ?c) _] => destruct (points_to_coeffs a b c) as [[? ?]| |]
    | context [if Rlt_dec ?a ?b then _ else _] => destruct (Rlt_dec a b)
    | context [if Req_EM_T ?a ?b then _ else _] => destruct (Req_EM_T a b)
    | context [if rltb ?a ?b then _ else _] => destruct (rltb a b)
    | context [match lp lo with _ => _ end] => destruct (lp lo) as [[? ?]|]
    | context [match lR lo with _ => _ end] => destruct (lR lo)
    end); try discriminate; injection H; intros <-; cbn [rd_prim] in *; try discriminate; injection E; intros <-; exact Logic.I.
Qed.
Lemma transform_supported M s s' : transform M s = Ok s' -> supported_side s -> supported_side s'.
Proof.
  destruct s; cbn [transform]; intros H S; try (injection H; intros <-; exact S).
  destruct (normalize (rotv M n)); try discriminate. injection H. intros <-. exact Logic.I.
Qed.

(** ** The TR card *)
(** the numbers of the card: displacement, cosines, and possibly m *)
Record trcard := Tr { tr_o : vec; tr_b : vec * vec * vec; tr_m : option R }.
Definition tr_nums (t : trcard) : list R :=
  let '(b1, b2, b3) := tr_b t in nums (tr_o t) ++ nums b1 ++ nums b2 ++ nums b3 ++ opt (tr_m t).
Definition tr_legal (t : trcard) : Prop := orthonormal (tr_b t) /\ (tr_m t = None \/ tr_m t = Some 1 \/ tr_m t = Some (-1)).
(** main coordinates of the auxiliary point y *)
Definition tr_place (t : trcard) (y : vec) : vec :=
  placed (match tr_m t with Some m => if Req_EM_T m (-1) then -1 else 1 | None => 1 end)%Z (tr_o t) (tr_b t) y.

Lemma tr_matrix t : exists M, get_trans_matrix (tr_nums t) false = Ok M /\ (col1 M, col2 M, col3 M) = tr_b t /\ trans M = vscale scale (tr_o t).
Proof.
  destruct t as [o [[b1 b2] b3] m]. destruct m as [m|]; (eexists; split; [reflexivity|]); cbn [col1 col2 col3 trans tr_b tr_o];
  rewrite !v_eta; (split; [reflexivity|]); apply vec_eq; unfold vscale; simpl; ring.
Qed.
Lemma tr_mult t M x : get_trans_matrix (tr_nums t) false = Ok M -> tr_m t <> Some (-1) ->
  mult_vec M (vscale scale x) = vscale scale (tr_place t x).
Proof.
  intros E N. destruct (tr_matrix t) as (M' & E' & B & O). rewrite E in E'. injection E'. intros <-.
  assert (P : tr_place t x = vadd (tr_o t) (tr_rows (tr_b t) x)).
  { unfold tr_place, placed. destruct (tr_m t) as [m|]; [|reflexivity]. destruct (Req_EM_T m (-1)) as [->|]; [congruence|reflexivity]. }
  rewrite P. unfold mult_vec. rewrite O, <- B. apply vec_eq; unfold rotv, tr_rows, vadd, vscale, scale; simpl; ring.
Qed.

(** ** A whole deck of surface cards *)
Definition in_deck (q : mcnp * option trcard) : res (string * list R * option matrix) :=
  let '(c, t) := q in
  match t with
  | None => Ok (written c, None)
  | Some t => do M <- get_trans_matrix (tr_nums t) false; Ok (written c, Some M)
  end.
Definition main_mm (t : option trcard) (y : vec) : vec :=
  vscale 10 (match t with None => y | Some t => tr_place t y end).
Definition handled (q : mcnp * option trcard) : Prop :=
  legal (fst q) /\ read_well (fst q) /\
  match snd q with None => True | Some t => tr_legal t /\ tr_m t <> Some (-1) /\ moved_well (fst q) end.
Definition represents (q : mcnp * option trcard) (s : prim) : Prop :=
  proper s /\ supported_side s /\
  forall y, (neg (fst q) y <-> inside s (main_mm (snd q) y)) /\ (pos_ (fst q) y <-> outside s (main_mm (snd q) y)).

Lemma one_card lo k q d : handled q -> in_deck q = Ok d -> exists r s,
  read_card lo k (fst (fst d)) (snd (fst d)) = Ok r /\ rd_hit r = None /\ apply_tr (snd d) (rd_prim r) = Ok (Some (Some s)) /\ represents q s.
Proof.
  destruct q as [c t]. intros (L & W & T) E. cbn [fst snd] in *.
  destruct (read_card_spec lo k c L W) as (r & s & A & B & C & P & Mv & K).
  assert (SU : supported_side s) by (eapply read_supported; eauto).
  destruct t as [t|]; cbn [in_deck] in E.
  - destruct (tr_matrix t) as (M & EM & EB & EO). rewrite EM in E. cbn [bind] in E. injection E. intros <-. cbn [fst snd].
    destruct T as ((TO & TM) & NM & MW).
    destruct (transform_spec M s) as (s' & T1 & T2 & T3); auto. { unfold rigid. rewrite EB. auto. }
    exists r, s'. rewrite B. cbn [apply_tr]. rewrite T1. cbn [bind]. do 3 (split; [auto|]). split; auto. split; [eapply transform_supported; eauto|].
    cbn [fst snd]. intros y. unfold main_mm. change 10 with scale. rewrite <- (tr_mult t M y EM NM). destruct (T3 (vscale scale y)) as (I1 & O1). rewrite I1, O1. apply K.
  - injection E. intros <-. cbn [fst snd]. exists r, s. rewrite B. cbn [apply_tr]. do 3 (split; [auto|]). split; auto.
Qed.

Lemma deck_loop qs : forall ds lo acc, Forall handled qs -> mapM in_deck qs = Ok ds ->
  exists ss, primitives lo acc ds = Ok (acc ++ map (fun s => Some (Some s)) ss) /\ Forall2 represents qs ss.
Proof.
  induction qs as [|q qs IH]; intros ds lo acc H E.
  - cbn in E. injection E. intros <-. exists []. cbn. rewrite app_nil_r. auto.
  - apply Forall_cons_iff in H as (Hq & H). cbn [mapM] in E.
    destruct (in_deck q) as [d| |] eqn:D; try discriminate. cbn [bind] in E.
    destruct (mapM in_deck qs) as [ds'| |] eqn:DS; try discriminate. cbn [bind] in E. injection E. intros <-.
    destruct d as [[typ ps] tr]. destruct (one_card lo (List.length acc) q _ Hq D) as (r & s & A & B & C & K). cbn [fst snd] in *.
    cbn [primitives]. rewrite A. cbn [bind]. rewrite C. cbn [bind]. rewrite B. cbn [hit].
    destruct (IH ds' (unshare tr (List.length acc) (rd_loc r)) (acc ++ [Some (Some s)]) H eq_refl) as (ss & E2 & F).
    exists (s :: ss). split; [|auto]. etransitivity; [exact E2|]. cbn [map]. rewrite <- app_assoc. reflexivity.
Qed.
Lemma deck_total qs : exists ds, mapM in_deck qs = Ok ds.
Proof.
  induction qs as [|q qs (ds & IH)]; [exists []; reflexivity|]. cbn [mapM].
  assert (exists d, in_deck q = Ok d) as (d & E).
  { destruct q as [c [t|]]; cbn [in_deck]; [|eauto]. destruct (tr_matrix t) as (M & E & _). rewrite E. cbn [bind]. eauto. }
  rewrite E. cbn [bind]. rewrite IH. cbn [bind]. eauto.
Qed.
