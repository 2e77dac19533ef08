(** Sides of the planes under normalisation; meaning of the written files. *)
From Coq Require Import String Sorted FunctionalExtensionality.
From Verif Require Import Prelude BoolSpec BoolSeq BoolProofs BoolProofs2 BoolEdit BoolEditProofs SurfDict SurfDictProofs
  Vec3 Geom GeomSpec GeomProofs Export ExportSpec ExportProofs.
Open Scope Z_scope.

(** ** reachable dictionaries *)
Definition good (d : sdict geom) : Prop :=
  0 <= offset d /\ 0 <= number d /\ Inv geom (offset d) (offset d + number d) d /\
  complete geom (offset d) (offset d + number d) d /\ last_ok geom d.
Lemma run_is_good cls same o h d : 0 <= o -> (forall i, ~ In (Del i) h) ->
  run geom cls same h (empty o) = Ok d -> good d.
Proof.
  intros P ND R. destruct (empty_good geom o) as (G & C & L).
  destruct (run_total geom cls same o h (empty o) ND G C L) as (d0 & R0 & (O & NN & I) & C' & L').
  assert (d0 = d) as -> by congruence. unfold good. rewrite O. auto.
Qed.
Lemma good_pos d k s : good d -> In s (group d k) -> 0 < index s.
Proof. intros (A & B & I & _) H. apply (index_in geom d _ _ _ _ I) in H. apply (inv_range _ _ _ _ I) in H. lia. Qed.
Lemma good_uniq d k k' s s' : good d -> In s (group d k) -> In s' (group d k') -> index s = index s' -> k = k' /\ s = s'.
Proof. intros (A & B & I & _). apply (surf_uniq geom d _ _ _ _ _ _ I). Qed.
Lemma good_nodup d k : good d -> NoDup (map index (group d k)).
Proof. intros (A & B & I & _). rewrite <- (inv_ids _ _ _ _ I). eapply SSorted_nodup, inv_sorted; eauto. Qed.

Lemma norm_index k s : index (norm_key k s) = index s.
Proof. destruct s as [i [p|n]], k; reflexivity. Qed.
Lemma normalised_good d d' : good d ->
  offset d' = offset d -> ids d' = ids d -> number d' = number d -> last d' = last d ->
  (forall k, group d' k = map (norm_key k) (group d k)) -> good d'.
Proof.
  intros (A & B & I & C & L) O ID N LA G. unfold good. rewrite O, N. split; auto. split; auto. split; [|split].
  - constructor; rewrite ?ID; try apply I. intros k. rewrite G, map_map. rewrite (inv_ids _ _ _ _ I).
    apply map_ext. intros. symmetry. apply norm_index.
  - intros i Hi. rewrite ID. apply C; auto.
  - unfold last_ok in *. rewrite LA. destruct (last d) as [[k j]|]; auto. rewrite G, map_length.
    destruct L as [->|L]; auto.
Qed.
Lemma good_sorted d : good d -> exists l, sorted_surfaces d = Ok l /\ (forall s, In s l <-> exists k, In s (group d k)).
Proof.
  intros (A & B & I & C & L). unfold sorted_surfaces.
  destruct (sort_loop_spec geom (Z.to_nat (number d)) (offset d + 1) (copy_dict d)) as (l & E & M & IL).
  - replace (offset d + 1 - 1) with (offset d) by lia. rewrite Z2Nat.id by auto. destruct I. constructor; auto.
  - replace (offset d + 1 - 1) with (offset d) by lia. rewrite Z2Nat.id by auto. exact C.
  - exact L.
  - exists l. split; auto.
Qed.

(** ** flips, pointwise *)
Lemma flips_app F G v : flips (F ++ G) v = flips G (flips F v).
Proof. unfold flips. apply fold_left_app. Qed.
Lemma flips_spec F : forall v j, NoDup F -> flips F v j = if in_dec Z.eq_dec j F then negb (v j) else v j.
Proof.
  unfold flips. induction F as [|f F IH]; intros v j ND; simpl; auto. inversion ND; subst. rewrite IH by auto.
  unfold flip. destruct (in_dec Z.eq_dec j F) as [H|H]; destruct (Z.eq_dec f j) as [->|N]; try contradiction.
  - destruct (Z.eqb_spec j f); [congruence|]. auto.
  - rewrite Z.eqb_refl. auto.
  - destruct (Z.eqb_spec j f); [congruence|]. auto.
Qed.
Lemma flips_twice F v j : NoDup F -> flips F (flips F v) j = v j.
Proof.
  intros ND. rewrite !flips_spec by auto. destruct (in_dec Z.eq_dec j F); auto. apply negb_involutive.
Qed.
Lemma flips_ext F v w j : NoDup F -> v j = w j -> flips F v j = flips F w j.
Proof. intros ND E. rewrite !flips_spec by auto. rewrite E. auto. Qed.

Lemma nodup_map_filter {A} (f : A -> Z) P l : NoDup (map f l) -> NoDup (map f (filter P l)).
Proof.
  induction l as [|x l IH]; simpl; auto. intros ND. inversion ND; subst. destruct (P x); simpl; auto.
  constructor; auto. intros H. apply H1. apply in_map_iff in H. destruct H as (y & E & Hy). apply filter_In in Hy.
  apply in_map_iff. exists y. tauto.
Qed.
Lemma in_sel d k P s : good d -> In s (group d k) ->
  (In (index s) (map index (filter P (group d k))) <-> P s = true).
Proof.
  intros G H. rewrite in_map_iff. split.
  - intros (s' & E & H'). apply filter_In in H'. destruct H' as (H' & E'). destruct (good_uniq d k k s' s) as (_ & ->); auto.
  - intros E. exists s. split; auto. apply filter_In. auto.
Qed.
Lemma notin_sel d k k' P s : good d -> In s (group d k) -> k <> k' -> ~ In (index s) (map index (filter P (group d k'))).
Proof.
  intros G H N C. apply in_map_iff in C. destruct C as (s' & E & H'). apply filter_In in H'. destruct H' as (H' & E').
  destruct (good_uniq d k' k s' s) as (-> & _); auto.
Qed.
Lemma sel_disj d k k' P Q : good d -> k <> k' ->
  forall j, In j (map index (filter P (group d k))) -> ~ In j (map index (filter Q (group d k'))).
Proof.
  intros G N j H. apply in_map_iff in H. destruct H as (s & <- & Hs). apply filter_In in Hs. apply notin_sel with (k := k); tauto.
Qed.
Lemma nodup_app {A} (l m : list A) : NoDup l -> NoDup m -> (forall x, In x l -> ~ In x m) -> NoDup (l ++ m).
Proof.
  induction 1 as [|x l N ND IH]; simpl; auto. intros M D. constructor.
  - rewrite in_app_iff. intros [H|H]; [contradiction|]. apply (D x); auto.
  - apply IH; auto.
Qed.
Lemma axis_nodup d : good d -> NoDup (axis_flips d).
Proof.
  intros G. unfold axis_flips, negs. apply nodup_app; [apply nodup_map_filter, good_nodup, G| |].
  - apply nodup_app; try (apply nodup_map_filter, good_nodup, G). apply sel_disj; auto. discriminate.
  - intros j H. rewrite in_app_iff. intros [C|C]; revert C; eapply sel_disj; eauto; discriminate.
Qed.
Lemma opps_nodup d : good d -> NoDup (opps (group d PP)).
Proof. intros G. apply nodup_map_filter, good_nodup, G. Qed.

Definition key_neg (k : key) (s : surf geom) : bool :=
  match k with PX => is_neg negX s | PY => is_neg negY s | PZ => is_neg negZ s | _ => false end.
Lemma in_axis_flips d k s : good d -> In s (group d k) -> (In (index s) (axis_flips d) <-> key_neg k s = true).
Proof.
  intros G H. unfold axis_flips, negs. rewrite !in_app_iff.
  pose proof (notin_sel d k PX (is_neg negX) s G H) as NX. pose proof (notin_sel d k PY (is_neg negY) s G H) as NY.
  pose proof (notin_sel d k PZ (is_neg negZ) s G H) as NZ.
  pose proof (fun P => in_sel d k P s G H) as IN.
  destruct k; simpl; try (split; [intros [C|[C|C]]; exfalso; revert C; [apply NX|apply NY|apply NZ]; discriminate|discriminate]).
  - rewrite IN. split; auto. intros [C|[C|C]]; auto; exfalso; revert C; [apply NY|apply NZ]; discriminate.
  - rewrite IN. split; auto. intros [C|[C|C]]; auto; exfalso; revert C; [apply NX|apply NZ]; discriminate.
  - rewrite IN. split; auto. intros [C|[C|C]]; auto; exfalso; revert C; [apply NX|apply NY]; discriminate.
Qed.

(** ** planes *)
Open Scope R_scope.
Lemma negb_R_true x : negb_R x = true <-> x < 0.
Proof. unfold negb_R. destruct (Rlt_dec x 0); split; intros; auto; discriminate || contradiction. Qed.
Lemma negb_R_false x : negb_R x = false <-> 0 <= x.
Proof. unfold negb_R. destruct (Rlt_dec x 0); split; intros; auto; try discriminate; lra. Qed.

Lemma norm_pos other tol d k s x : aligned tol d -> In s (group d k) -> off_planes x d ->
  (geom_pos other x (geo (norm_key k s)) <->
   (if key_neg k s then ~ geom_pos other x (geo s) else geom_pos other x (geo s))).
Proof.
  intros (AX & AY & AZ & AP & AO & _) H OFF. specialize (OFF k s).
  destruct k; simpl; try reflexivity.
  - destruct (AX _ H) as (p & a & E & N & Ea). specialize (OFF p H E). destruct s as [i g]; simpl in *; subst g.
    unfold is_neg; simpl. unfold negX. rewrite Ea. simpl.
    destruct (negb_R a) eqn:NE; [apply negb_R_true in NE|apply negb_R_false in NE]; simpl; unfold plane_pos, on_plane in *; rewrite ?Ea in *;
      vsimp; simpl; [|reflexivity]. split; intros; nra.
  - destruct (AY _ H) as (p & a & E & N & Ea). specialize (OFF p H E). destruct s as [i g]; simpl in *; subst g.
    unfold is_neg; simpl. unfold negY. rewrite Ea. simpl.
    destruct (negb_R a) eqn:NE; [apply negb_R_true in NE|apply negb_R_false in NE]; simpl; unfold plane_pos, on_plane in *; rewrite ?Ea in *;
      vsimp; simpl; [|reflexivity]. split; intros; nra.
  - destruct (AZ _ H) as (p & a & E & N & Ea). specialize (OFF p H E). destruct s as [i g]; simpl in *; subst g.
    unfold is_neg; simpl. unfold negZ. rewrite Ea. simpl.
    destruct (negb_R a) eqn:NE; [apply negb_R_true in NE|apply negb_R_false in NE]; simpl; unfold plane_pos, on_plane in *; rewrite ?Ea in *;
      vsimp; simpl; [|reflexivity]. split; intros; nra.
Qed.

Lemma step_cad other tol x d d' v : good d -> aligned tol d -> off_planes x d ->
  (forall k, group d' k = map (norm_key k) (group d k)) ->
  cad_sides other x d v -> cad_sides other x d' (flips (axis_flips d) v).
Proof.
  intros G A OFF GR C k s' H. rewrite GR in H. apply in_map_iff in H. destruct H as (s & <- & H).
  rewrite norm_index, flips_spec by (apply axis_nodup; auto). rewrite (norm_pos other tol d k s x A H OFF).
  pose proof (in_axis_flips d k s G H) as I. specialize (C k s H).
  destruct (in_dec Z.eq_dec (index s) (axis_flips d)) as [J|J].
  - apply I in J. rewrite J. rewrite <- C. destruct (v (index s)); simpl; intuition congruence.
  - destruct (key_neg k s); [exfalso; apply J, I; auto|]. auto.
Qed.
Lemma off_step tol x d d' : aligned tol d -> off_planes x d -> (forall k, group d' k = map (norm_key k) (group d k)) ->
  off_planes x d'.
Proof.
  intros (AX & AY & AZ & AP & AO & _) OFF GR k s' p H E. rewrite GR in H. apply in_map_iff in H. destruct H as (s & <- & H).
  specialize (OFF k s). destruct k; simpl in E; try (apply (OFF p H E)).
  - destruct (AX _ H) as (q & a & Eq & N & Ea). specialize (OFF q H Eq). destruct s as [i g]; simpl in *; subst g. simpl in E. injection E as <-.
    destruct (negX (axis q)); auto. unfold on_plane in *. simpl. rewrite Ea in *. vsimp. simpl. intros C. apply OFF. nra.
  - destruct (AY _ H) as (q & a & Eq & N & Ea). specialize (OFF q H Eq). destruct s as [i g]; simpl in *; subst g. simpl in E. injection E as <-.
    destruct (negY (axis q)); auto. unfold on_plane in *. simpl. rewrite Ea in *. vsimp. simpl. intros C. apply OFF. nra.
  - destruct (AZ _ H) as (q & a & Eq & N & Ea). specialize (OFF q H Eq). destruct s as [i g]; simpl in *; subst g. simpl in E. injection E as <-.
    destruct (negZ (axis q)); auto. unfold on_plane in *. simpl. rewrite Ea in *. vsimp. simpl. intros C. apply OFF. nra.
Qed.

(** normalised: aligned with positive multiples *)
Record normalised (d : sdict geom) : Prop := {
  nX : forall s p, In s (group d PX) -> geo s = GPlane p -> 0 <= vx (axis p);
  nY : forall s p, In s (group d PY) -> geo s = GPlane p -> 0 <= vy (axis p);
  nZ : forall s p, In s (group d PZ) -> geo s = GPlane p -> 0 <= vz (axis p) }.
Lemma norm_normalised d d' : (forall k, group d' k = map (norm_key k) (group d k)) -> normalised d'.
Proof.
  intros GR. constructor; intros s' p H E; rewrite GR in H; apply in_map_iff in H; destruct H as (s & <- & H);
    destruct s as [i [q|n]]; simpl in E; try discriminate; injection E as <-.
  - destruct (negX (axis q)) eqn:N; simpl; [lra|]. apply negb_R_false in N. auto.
  - destruct (negY (axis q)) eqn:N; simpl; [lra|]. apply negb_R_false in N. auto.
  - destruct (negZ (axis q)) eqn:N; simpl; [lra|]. apply negb_R_false in N. auto.
Qed.
Lemma aligned_step tol d d' : aligned tol d -> (forall k, group d' k = map (norm_key k) (group d k)) -> aligned tol d'.
Proof.
  intros (AX & AY & AZ & AP & AO & T) GR. split; [|split; [|split; [|split; [|split]]]]; auto.
  - intros s' H. rewrite GR in H. apply in_map_iff in H. destruct H as (s & <- & H). destruct (AX _ H) as (p & a & E & N & Ea).
    destruct s as [i g]; simpl in *; subst g. simpl.
    destruct (negX (axis p)); eexists; [exists 1|exists a]; (split; [reflexivity|]); simpl; split; auto; lra.
  - intros s' H. rewrite GR in H. apply in_map_iff in H. destruct H as (s & <- & H). destruct (AY _ H) as (p & a & E & N & Ea).
    destruct s as [i g]; simpl in *; subst g. simpl.
    destruct (negY (axis p)); eexists; [exists 1|exists a]; (split; [reflexivity|]); simpl; split; auto; lra.
  - intros s' H. rewrite GR in H. apply in_map_iff in H. destruct H as (s & <- & H). destruct (AZ _ H) as (p & a & E & N & Ea).
    destruct s as [i g]; simpl in *; subst g. simpl.
    destruct (negZ (axis p)); eexists; [exists 1|exists a]; (split; [reflexivity|]); simpl; split; auto; lra.
  - intros s' H. rewrite GR in H. simpl in H. rewrite map_id in H. auto.
  - intros k s' K H. rewrite GR in H. destruct K as [<-|[<-|[<-|[<-|[]]]]]; simpl in H; rewrite map_id in H; apply (AO _ s') in H; auto; simpl; auto 10.
Qed.
Lemma points_step tol d d' : aligned tol d -> points_ok d -> (forall k, group d' k = map (norm_key k) (group d k)) -> points_ok d'.
Proof.
  intros (AX & AY & AZ & AP & AO & T) (P0 & P1 & PX_ & PY_ & PZ_) GR.
  assert (Q : forall k s' p q, In s' (group d' k) -> geo s' = GPlane p -> points p = Some q ->
    exists s p0, In s (group d k) /\ geo s = GPlane p0 /\ points p0 = Some q /\ pos p0 = pos p /\
     (p = p0 \/ k = PX /\ axis p = V 1 0 0 \/ k = PY /\ axis p = V 0 1 0 \/ k = PZ /\ axis p = V 0 0 1)).
  { intros k s' p q H E EQ. rewrite GR in H. apply in_map_iff in H. destruct H as (s & <- & H).
    destruct s as [i [p0|n]]; [|destruct k; discriminate]. exists (Surf i (GPlane p0)), p0. simpl. split; auto. split; auto.
    destruct k; simpl in E; injection E as <-; auto.
    - destruct (negX (axis p0)); simpl in *; auto 8.
    - destruct (negY (axis p0)); simpl in *; auto 8.
    - destruct (negZ (axis p0)); simpl in *; auto 10. }
  split; [|split; [|split; [|split]]].
  - intros k s' p q H E EQ. destruct (Q _ _ _ _ H E EQ) as (s & p0 & H0 & E0 & EQ0 & EP & C).
    specialize (P0 _ _ _ _ H0 E0 EQ0). destruct q as [[p1 p2] p3]. unfold good_points in *.
    destruct C as [-> | C]; auto. destruct P0 as (NC & O1 & O2 & O3). split; auto. unfold on_plane in *. rewrite <- EP.
    destruct C as [(-> & Ea)|[(-> & Ea)|(-> & Ea)]]; rewrite Ea.
    + destruct (AX _ H0) as (p' & a & E' & N & Ea'). assert (p' = p0) as -> by congruence. rewrite Ea' in *. vsimp; simpl in *. repeat split; nra.
    + destruct (AY _ H0) as (p' & a & E' & N & Ea'). assert (p' = p0) as -> by congruence. rewrite Ea' in *. vsimp; simpl in *. repeat split; nra.
    + destruct (AZ _ H0) as (p' & a & E' & N & Ea'). assert (p' = p0) as -> by congruence. rewrite Ea' in *. vsimp; simpl in *. repeat split; nra.
  - intros s' p q H E EQ. rewrite GR in H. simpl in H. rewrite map_id in H. eauto.
  - intros s' p q H E EQ. destruct (Q _ _ _ _ H E EQ) as (s & p0 & H0 & E0 & EQ0 & EP & C). rewrite <- EP. eauto.
  - intros s' p q H E EQ. destruct (Q _ _ _ _ H E EQ) as (s & p0 & H0 & E0 & EQ0 & EP & C). rewrite <- EP. eauto.
  - intros s' p q H E EQ. destruct (Q _ _ _ _ H E EQ) as (s & p0 & H0 & E0 & EQ0 & EP & C). rewrite <- EP. eauto.
Qed.

(** ** cards *)
Lemma is_equal_true tol a b : is_equal tol a b = true <-> vlen (vsub a b) <= tol.
Proof. unfold is_equal. destruct (Rle_dec _ _); split; intros; auto; discriminate || contradiction. Qed.
Lemma far_from tol v : tol < 1 -> 1 <= dot v v -> ~ vlen v <= tol.
Proof. intros T H C. pose proof (vlen_sq v) as Q. assert (0 <= vlen v) by apply sqrt_pos. nra. Qed.
Lemma exact_axis tol p a e : 0 <= tol < 1 -> 0 < a -> e = V 1 0 0 \/ e = V 0 1 0 \/ e = V 0 0 1 -> axis p = vscale a e -> exact tol p.
Proof.
  intros T A U E e' U' Q. apply is_equal_true in Q. rewrite E in Q |- *.
  destruct U as [-> | [-> | ->]], U' as [-> | [-> | ->]]; try (exists a; split; [auto|reflexivity]);
    exfalso; revert Q; apply far_from; try lra; vsimp; nra.
Qed.
Lemma card_axis tol p x : exact tol p ->
  (card_pos (plane_card false tol p) (vscale (1/10) x) <-> plane_pos p x).
Proof.
  intros X. unfold plane_card, plane_pos. pose proof (X (V 1 0 0)) as X1. pose proof (X (V 0 1 0)) as X2.
  pose proof (X (V 0 0 1)) as X3. clear X.
  destruct (is_equal tol (axis p) (V 1 0 0)).
  { destruct X1 as (k & K & E); auto. rewrite E. vsimp. simpl. split; intros; nra. }
  destruct (is_equal tol (axis p) (V 0 1 0)).
  { destruct X2 as (k & K & E); auto. rewrite E. vsimp. simpl. split; intros; nra. }
  destruct (is_equal tol (axis p) (V 0 0 1)).
  { destruct X3 as (k & K & E); auto. rewrite E. vsimp. simpl. split; intros; nra. }
  simpl. vsimp. split; intros; nra.
Qed.

Lemma scaled_plane p1 p2 p3 n d : three_point_plane p1 p2 p3 n d ->
  three_point_plane (vscale (1/10) p1) (vscale (1/10) p2) (vscale (1/10) p3) n (d / 10).
Proof.
  intros (Z & A & B & C & S). split; auto.
  assert (X : forall p, dot n (vscale (1/10) p) = dot n p / 10) by (intros; vdestruct; vsimp; field).
  rewrite !X, A, B, C. repeat (split; [reflexivity|]). destruct S as [S|(-> & S)]; [left; lra|right; split; [lra|auto]].
Qed.
Lemma scaled_collinear p1 p2 p3 : ~ collinear p1 p2 p3 -> ~ collinear (vscale (1/10) p1) (vscale (1/10) p2) (vscale (1/10) p3).
Proof.
  intros N C. apply N. unfold collinear in *. vdestruct. vsimp. injection C as A B C. f_equal; nra.
Qed.
Lemma card_three_pos p1 p2 p3 n d x : ~ collinear p1 p2 p3 -> three_point_plane p1 p2 p3 n d ->
  (card_pos (Card3 (vscale (1/10) p1) (vscale (1/10) p2) (vscale (1/10) p3)) (vscale (1/10) x) <-> d < dot n x).
Proof.
  intros N T. rewrite (three_point_pos _ _ _ n (d / 10)) by (auto using scaled_collinear, scaled_plane).
  replace (dot n (vscale (1/10) x)) with (dot n x / 10) by (vdestruct; vsimp; field). lra.
Qed.

Lemma axis_multiple p p1 p2 p3 n d : good_points p (p1, p2, p3) -> three_point_plane p1 p2 p3 n d -> vlen n = 1 ->
  exists k, axis p = vscale k n /\ dot n (pos p) * k = k * d.
Proof.
  intros (N & O1 & O2 & O3) (Z & A & B & C & S) L1. unfold on_plane in *.
  assert (D : forall q, dot (axis p) (vsub q (pos p)) = dot (axis p) q - dot (axis p) (pos p)) by (intros; vdestruct; vsimp; ring).
  rewrite D in O1, O2, O3.
  pose proof (plane_normal (axis p) (dot (axis p) (pos p)) p1 p2 p3 ltac:(lra) ltac:(lra) ltac:(lra) N) as E1.
  pose proof (plane_normal n d p1 p2 p3 A B C N) as E2.
  set (m := nrm p1 p2 p3) in *. set (a := dot (axis p) m / dot m m) in *. set (b := dot n m / dot m m) in *. clearbody a b.
  assert (BZ : b <> 0) by (intros ->; apply Z; rewrite E2; apply vec_eq; vsimp; lra).
  exists (a / b). assert (E3 : axis p = vscale (a / b) n) by (rewrite E1, E2; apply vec_eq; vsimp; field; auto).
  split; auto. rewrite E3 in O1. clear E1 E2 E3 D O2 O3 m BZ. set (k := a / b) in *. clearbody k.
  assert (E : forall q, dot (vscale k n) q = k * dot n q) by (intros; vdestruct; vsimp; ring).
  rewrite !E, A in O1. lra.
Qed.

(** the three points of a general plane: the side of the card is that of the axis
    unless simplify_planes found them opposite *)
Lemma card_three_P i p p1 p2 p3 x : good_points p (p1, p2, p3) -> vlen (axis p) = 1 -> points p = Some (p1, p2, p3) ->
  ~ on_plane p x ->
  (card_pos (Card3 (vscale (1/10) p1) (vscale (1/10) p2) (vscale (1/10) p3)) (vscale (1/10) x) <->
   (if is_opp (Surf i (GPlane p)) then ~ plane_pos p x else plane_pos p x)).
Proof.
  intros GP L PP OFF. pose proof GP as (N & _). destruct (points_to_coeffs_spec p1 p2 p3 N) as (n & d & E & L1 & T).
  rewrite (card_three_pos _ _ _ n d x N T). unfold is_opp. destruct p as [ax ps pt]; simpl in *. subst pt. rewrite E.
  destruct (axis_multiple _ _ _ _ _ _ GP T L1) as (k & Ea & Ed). simpl in *.
  assert (K : Rabs k = 1) by (rewrite Ea, vlen_scale, L1 in L; lra).
  rewrite Ea, is_opposite_scale; auto; cycle 1.
  { rewrite K. unfold Rdiv. simpl. lra. }
  unfold plane_pos, on_plane in *. simpl in *. rewrite Ea in OFF.
  replace (dot (vscale k n) (vsub x ps)) with (k * dot n x - dot n ps * k) in * by (vdestruct; vsimp; ring).
  rewrite Ed in *. destruct (Rlt_dec k 0) as [NK|NK].
  - rewrite Rabs_left in K by lra. split; intros; nra.
  - rewrite Rabs_right in K by lra. split; intros; nra.
Qed.

(** the three points of an aligned plane that does not cut the negative half axis *)
Lemma card_three_axis p a e p1 p2 p3 x : good_points p (p1, p2, p3) -> 0 < a ->
  e = V 1 0 0 \/ e = V 0 1 0 \/ e = V 0 0 1 -> axis p = vscale a e -> 0 <= dot e (pos p) ->
  (card_pos (Card3 (vscale (1/10) p1) (vscale (1/10) p2) (vscale (1/10) p3)) (vscale (1/10) x) <-> plane_pos p x).
Proof.
  intros (N & O1 & O2 & O3) A U E P. rewrite (card_three_pos _ _ _ e (dot e (pos p)) x N).
  - unfold plane_pos. rewrite E. replace (dot (vscale a e) (vsub x (pos p))) with (a * (dot e x - dot e (pos p))) by (vdestruct; vsimp; ring).
    split; intros; nra.
  - unfold on_plane in *. rewrite E in *. assert (D : forall q, dot (vscale a e) (vsub q (pos p)) = a * (dot e q - dot e (pos p))) by (intros; vdestruct; vsimp; ring).
    rewrite D in *. split; [destruct U as [-> | [-> | ->]]; intros C; injection C; intros; lra|].
    split; [nra|]. split; [nra|]. split; [nra|].
    destruct (Rle_lt_or_eq_dec _ _ P) as [Q|Q]; [left; auto|right; split; auto].
    destruct U as [-> | [-> | ->]]; simpl; [right; split; [auto|right; split; auto; lra]|right; split; [auto|left; lra]|left; lra].
Qed.

(** every card of a normalised model *)
Lemma cards_correct three other tol x d v w : good d -> aligned tol d -> normalised d -> off_planes x d ->
  (three = true -> points_ok d) -> cad_sides other x d v ->
  w = (if three then flips (opps (group d PP)) v else v) ->
  forall k s, In s (group d k) ->
    (w (index s) = true <-> match snd (write_surf three tol s) with OPlane c => card_pos c (vscale (1/10) x) | OOther n => other n = true end).
Proof.
  intros G A NM OFF PO C -> k s H.
  assert (FL : (if three then flips (opps (group d PP)) v else v) (index s) =
               if three && (if key_eqb k PP then is_opp s else false) then negb (v (index s)) else v (index s)).
  { destruct three; simpl; auto. rewrite flips_spec by (apply opps_nodup; auto). unfold opps.
    destruct (in_dec Z.eq_dec (index s) (map index (filter is_opp (group d PP)))) as [I|I].
    - destruct (key_eqb_spec k PP) as [->|N]; [apply in_sel in I; auto; rewrite I; auto|].
      exfalso. revert I. eapply notin_sel; eauto.
    - destruct (key_eqb_spec k PP) as [->|N]; auto.
      destruct (is_opp s) eqn:E; auto. exfalso. apply I. apply in_sel; auto. }
  rewrite FL. clear FL. specialize (C k s H). unfold write_surf. cbn [snd].
  destruct A as (AX & AY & AZ & AP & AO & T).
  assert (AL : forall e a p, geo s = GPlane p -> 0 < a -> e = V 1 0 0 \/ e = V 0 1 0 \/ e = V 0 0 1 -> axis p = vscale a e ->
     (three = true -> forall q, points p = Some q -> 0 <= dot e (pos p)) ->
     (v (index s) = true <-> card_pos (plane_card three tol p) (vscale (1/10) x))).
  { intros e a p E A U Ea Q. rewrite E in C. cbn [geom_pos] in C. rewrite C. destruct three.
    - destruct (points p) as [[[p1 p2] p3]|] eqn:EP.
      + unfold plane_card. rewrite EP. symmetry. apply (card_three_axis p a e); auto. 2: { apply (Q eq_refl _ eq_refl). }
        destruct (PO eq_refl) as (P0 & _). eapply P0; eauto.
      + replace (plane_card true tol p) with (plane_card false tol p) by (unfold plane_card; rewrite EP; auto).
        symmetry. apply card_axis. eapply exact_axis; eauto.
    - symmetry. apply card_axis. eapply exact_axis; eauto. }
  destruct k.
  - cbn [key_eqb]. rewrite andb_false_r. destruct (AX _ H) as (p & a & E & N & Ea). pose proof (nX _ NM _ _ H E) as Q.
    rewrite E. rewrite Ea in Q. simpl in Q. apply (AL (V 1 0 0) a); auto; try lra.
    + rewrite Ea. apply vec_eq; simpl; ring.
    + intros TH q EQ. destruct (PO TH) as (_ & _ & P & _). specialize (P _ _ _ H E EQ). unfold dot; simpl. lra.
  - cbn [key_eqb]. rewrite andb_false_r. destruct (AY _ H) as (p & a & E & N & Ea). pose proof (nY _ NM _ _ H E) as Q.
    rewrite E. rewrite Ea in Q. simpl in Q. apply (AL (V 0 1 0) a); auto; try lra.
    + rewrite Ea. apply vec_eq; simpl; ring.
    + intros TH q EQ. destruct (PO TH) as (_ & _ & _ & P & _). specialize (P _ _ _ H E EQ). unfold dot; simpl. lra.
  - cbn [key_eqb]. rewrite andb_false_r. destruct (AZ _ H) as (p & a & E & N & Ea). pose proof (nZ _ NM _ _ H E) as Q.
    rewrite E. rewrite Ea in Q. simpl in Q. apply (AL (V 0 0 1) a); auto; try lra.
    + rewrite Ea. apply vec_eq; simpl; ring.
    + intros TH q EQ. destruct (PO TH) as (_ & _ & _ & _ & P). specialize (P _ _ _ H E EQ). unfold dot; simpl. lra.
  - cbn [key_eqb]. destruct (AP _ H) as (p & E & X). rewrite E in *. cbn [geom_pos] in C. destruct three; cbn [andb].
    + destruct s as [i g]; simpl in E; subst g. destruct (points p) as [[[p1 p2] p3]|] eqn:EP.
      * unfold plane_card. rewrite EP. destruct (PO eq_refl) as (P0 & P1 & _).
        rewrite (card_three_P i p p1 p2 p3 x (P0 _ _ _ _ H eq_refl EP) (P1 _ _ _ H eq_refl EP) EP (OFF _ _ _ H eq_refl)).
        cbn [index] in *. destruct (is_opp _); rewrite <- C; destruct (v i); simpl; intuition congruence.
      * replace (plane_card true tol p) with (plane_card false tol p) by (unfold plane_card; rewrite EP; auto).
        replace (is_opp (Surf i (GPlane p))) with false.
        -- rewrite C. symmetry. apply card_axis, X.
        -- unfold is_opp. simpl. destruct p as [ax ps pt]; simpl in EP; subst; auto.
    + rewrite C. symmetry. apply card_axis, X.
  - cbn [key_eqb]. rewrite andb_false_r. destruct (AO Cyl s) as (n & E); simpl; auto. rewrite E in *. exact C.
  - cbn [key_eqb]. rewrite andb_false_r. destruct (AO Cone s) as (n & E); simpl; auto. rewrite E in *. exact C.
  - cbn [key_eqb]. rewrite andb_false_r. destruct (AO Sph s) as (n & E); simpl; auto. rewrite E in *. exact C.
  - cbn [key_eqb]. rewrite andb_false_r. destruct (AO Tor s) as (n & E); simpl; auto 6. rewrite E in *. exact C.
Qed.
