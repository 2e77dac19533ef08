(** Independence of the exported files; totality. *)
From Coq Require Import String FunctionalExtensionality.
From Verif Require Import Prelude BoolSpec BoolSeq BoolProofs BoolProofs2 BoolEdit BoolEditProofs SurfDict SurfDictProofs
  Vec3 Geom GeomSpec GeomProofs Export ExportSpec ExportProofs ExportProofs2 ExportProofs3.
Open Scope Z_scope.

Lemma fix_group_norm t neg u : neg u = false -> forall l cs,
  fix_group t neg u (map (normal neg u) l) cs = Ok (map (normal neg u) l, cs).
Proof.
  intros U. induction l as [|[ix [p|k]] l IH]; intros cs; cbn [map normal fix_group]; auto.
  - destruct (neg (axis p)) eqn:N; cbn [axis]; [rewrite U|rewrite N]; rewrite IH; reflexivity.
  - rewrite IH. reflexivity.
Qed.
Lemma fix_group_list t neg u : forall l cs l' cs', fix_group t neg u l cs = Ok (l', cs') -> l' = map (normal neg u) l.
Proof.
  induction l as [|[ix [p|k]] l IH]; intros cs l' cs' H; cbn [fix_group] in H.
  - inv H. reflexivity.
  - cbn [map normal]. destruct (neg (axis p)).
    + destruct (flip_surface t ix cs) as [c1|e|]; try discriminate; cbn [bind] in H.
      destruct (fix_group t neg u l c1) as [[r c2]|e|] eqn:E; try discriminate; cbn [bind] in H. inv H. f_equal. eapply IH; eauto.
    + destruct (fix_group t neg u l cs) as [[r c2]|e|] eqn:E; try discriminate; cbn [bind] in H. inv H. f_equal. eapply IH; eauto.
  - destruct (fix_group t neg u l cs) as [[r c2]|e|] eqn:E; try discriminate; cbn [bind] in H. inv H. cbn [map normal]. f_equal. eapply IH; eauto.
Qed.
Lemma neg_one : negb_R 1 = false.
Proof. apply negb_R_false. lra. Qed.

Lemma simplify_idem st st1 : simplify_planes false st = Ok st1 -> simplify_planes false st1 = Ok st1.
Proof.
  intros H. unfold simplify_planes in H.
  destruct (fix_group _ _ _ (group (surfaces st) PX) _) as [[lx c1]|e|] eqn:E1; try discriminate; cbn [bind] in H.
  destruct (fix_group _ _ _ (group (surfaces st) PY) _) as [[ly c2]|e|] eqn:E2; try discriminate; cbn [bind] in H.
  destruct (fix_group _ _ _ (group (surfaces st) PZ) _) as [[lz c3]|e|] eqn:E3; try discriminate; cbn [bind] in H.
  apply fix_group_list in E1. apply fix_group_list in E2. apply fix_group_list in E3. subst lx ly lz. inv H.
  unfold simplify_planes. cbn [surfaces cells set_group group key_eqb].
  rewrite fix_group_norm by apply neg_one. cbn [bind]. rewrite fix_group_norm by apply neg_one. cbn [bind].
  rewrite fix_group_norm by apply neg_one. cbn [bind]. f_equal. f_equal. unfold set_group. cbn [offset group ids number last].
  f_equal. apply functional_extensionality. intros k. destruct k; reflexivity.
Qed.
Lemma simplify_sph three st st1 : simplify_planes three st = Ok st1 -> group (surfaces st1) Sph = group (surfaces st) Sph.
Proof.
  intros H. unfold simplify_planes in H.
  destruct (fix_group _ _ _ (group (surfaces st) PX) _) as [[lx c1]|e|]; try discriminate; cbn [bind] in H.
  destruct (fix_group _ _ _ (group (surfaces st) PY) _) as [[ly c2]|e|]; try discriminate; cbn [bind] in H.
  destruct (fix_group _ _ _ (group (surfaces st) PZ) _) as [[lz c3]|e|]; try discriminate; cbn [bind] in H.
  destruct (if three then _ else _) as [c4|e|]; try discriminate; cbn [bind] in H. inv H. reflexivity.
Qed.

(** Without three point planes, once a format other than PHITS is written the
    model stays the same. *)
Lemma write_one_state o w st out st' : prnt3 o = false -> w <> PHITS -> write_one o w st = Ok (out, st') ->
  simplify_planes false st = Ok st'.
Proof.
  intros P W H. unfold write_one in H. destruct (match w with OPENMC => Ok tt | _ => _ end) as [u|e|]; try discriminate.
  cbn [bind] in H. fold (three_of o w) in H.
  assert (three_of o w = false) as E by (destruct w; simpl; auto). rewrite E in H.
  destruct (simplify_planes false st) as [st1|e|]; try discriminate. cbn [bind] in H.
  destruct (sorted_surfaces (surfaces st1)) as [l|e|]; try discriminate. cbn [bind] in H.
  destruct w; try congruence.
Qed.
Lemma write_one_norm o w st st1 : prnt3 o = false -> simplify_planes false st = Ok st1 ->
  write_one o w st1 = write_one o w st.
Proof.
  intros P E. unfold write_one. rewrite (simplify_sph _ _ _ E). fold (three_of o w).
  assert (three_of o w = false) as -> by (destruct w; simpl; auto).
  rewrite E, (simplify_idem _ _ E). reflexivity.
Qed.

(** the states reached by histories without PHITS *)
Definition settled (st0 st : state) : Prop := st = st0 \/ simplify_planes false st0 = Ok st.
Lemma settled_write o w st0 st : prnt3 o = false -> settled st0 st -> write_one o w st = write_one o w st0.
Proof. intros P [->|E]; auto. apply write_one_norm; auto. Qed.
Lemma settled_step o w st0 st out st' : prnt3 o = false -> settled st0 st -> w <> PHITS -> write_one o w st = Ok (out, st') -> settled st0 st'.
Proof. intros P S W H. rewrite (settled_write _ _ _ _ P S) in H. right. eapply write_one_state; eauto. Qed.
Lemma settled_list o st0 : prnt3 o = false -> forall ws st fs st', settled st0 st -> ~ In PHITS ws ->
  write_list o ws st = Ok (fs, st') -> settled st0 st'.
Proof.
  intros P. induction ws as [|w ws IH]; intros st fs st' S N H; cbn [write_list] in H; [inv H; auto|].
  destruct (write_one o w st) as [[f s1]|e|] eqn:E; try discriminate; cbn [bind] in H.
  destruct (write_list o ws s1) as [[fs' s2]|e|] eqn:E2; try discriminate; cbn [bind] in H. inv H.
  eapply IH; [| |exact E2]; [eapply settled_step; eauto|]; intros C; apply N; simpl; auto.
Qed.
Lemma in_requested w fs : In w (requested fs) <-> In w fs.
Proof.
  unfold requested. rewrite filter_In, existsb_exists. split.
  - intros (_ & x & H & E). destruct w, x; try discriminate; auto.
  - intros H. split; [destruct w; simpl; auto 6|]. exists w. split; auto. destruct w; auto.
Qed.
Lemma settled_exports o st0 : prnt3 o = false -> forall calls st st', settled st0 st -> (forall fs, In fs calls -> ~ In PHITS fs) ->
  exports o calls st = Ok st' -> settled st0 st'.
Proof.
  intros P. induction calls as [|fs calls IH]; intros st st' S N H; cbn [exports] in H; [inv H; auto|].
  unfold write_geometry in H. destruct (supported o); try discriminate.
  destruct (write_list o (requested fs) st) as [[fl s1]|e|] eqn:E; try discriminate; cbn [bind] in H.
  eapply IH; [| |exact H]; [eapply settled_list; eauto; rewrite in_requested; apply N; left; auto|].
  intros g Hg. apply N. right; auto.
Qed.

Lemma write_list_files o st0 : prnt3 o = false -> forall ws st fs st', settled st0 st ->
  (forall l1 l2, ws = l1 ++ PHITS :: l2 -> l2 = []) ->
  write_list o ws st = Ok (fs, st') ->
  map fst fs = ws /\ forall w f, In (w, f) fs -> exists s, write_one o w st0 = Ok (f, s).
Proof.
  intros P. induction ws as [|w ws IH]; intros st fs st' S N H; cbn [write_list] in H; [inv H; split; auto; intros ? ? []|].
  destruct (write_one o w st) as [[f s1]|e|] eqn:E; try discriminate; cbn [bind] in H.
  destruct (write_list o ws s1) as [[fs' s2]|e|] eqn:E2; try discriminate; cbn [bind] in H. inv H.
  assert (Q : map fst fs' = ws /\ forall w f, In (w, f) fs' -> exists s, write_one o w st0 = Ok (f, s)).
  { destruct ws as [|w' ws']; [inv E2; split; auto; intros ? ? []|].
    assert (W : w <> PHITS) by (intros ->; specialize (N [] (w' :: ws') eq_refl); discriminate).
    eapply IH; [eapply settled_step; eauto| |exact E2].
    intros l1 l2 EQ. apply (N (w :: l1) l2). rewrite EQ. reflexivity. }
  destruct Q as (Q1 & Q2). split; [simpl; congruence|]. intros w0 f0 [EQ|I]; [|eauto].
  inv EQ. rewrite (settled_write _ _ _ _ P S) in E. eauto.
Qed.
Lemma phits_last fs l1 l2 : requested fs = l1 ++ PHITS :: l2 -> l2 = [].
Proof.
  unfold requested. cbn [filter].
  destruct (existsb (code_eqb MCNP) fs), (existsb (code_eqb OPENMC) fs), (existsb (code_eqb SERPENT) fs), (existsb (code_eqb PHITS) fs);
    destruct l1 as [|a [|b [|c [|e l1]]]]; cbn; intros H; inversion H; subst; auto;
    try (destruct l1; discriminate); try discriminate.
Qed.

(** ** Totality *)
Lemma mapM_total' {A B} (f : A -> res B) l : (forall x, In x l -> exists y, f x = Ok y) -> exists l', mapM f l = Ok l'.
Proof.
  induction l as [|x l IH]; simpl; eauto. intros H. destruct (H x) as (y & ->); auto. cbn [bind].
  destruct IH as (l' & ->); auto. cbn [bind]. eauto.
Qed.
Definition defs_ok (cs : list cell) : Prop := forall c, In c cs -> has_id c = true -> defok (def c).
Lemma flipped_defs F cs cs' : Forall2 (flipped F) cs cs' -> defs_ok cs -> defs_ok cs'.
Proof.
  intros H D c' I ID. destruct (F2_in_r _ _ _ _ H I) as (c & IC & (L & _ & _ & _ & E)).
  rewrite (lk_id _ _ L) in ID. apply E; auto.
Qed.
Lemma flip_surface_total cs0 cs ix : Forall2 like cs0 cs -> defs_ok cs -> exists cs', flip_surface (surface_table cs0) ix cs = Ok cs'.
Proof.
  intros L D. rewrite (flip_surface_spec _ _ _ L). apply mapM_total'. intros c I. unfold uses, flip_cell.
  destruct (has_id c) eqn:ID; simpl; eauto. destruct (existsb _ _); eauto. destruct (D c I ID) as (A & B & C).
  destruct (css_total ix (def c) A B C) as (r & ->). cbn [bind]. eauto.
Qed.
Lemma fix_group_total neg u cs0 : forall l cs, (forall s, In s l -> 0 < index s) -> Forall2 like cs0 cs -> defs_ok cs ->
  exists r, fix_group (surface_table cs0) neg u l cs = Ok r.
Proof.
  induction l as [|[ix [p|k]] l IH]; intros cs P L D; cbn [fix_group]; eauto.
  - assert (P' : forall s, In s l -> 0 < index s) by (intros; apply P; right; auto). destruct (neg (axis p)).
    + destruct (flip_surface_total cs0 cs ix L D) as (c1 & E). rewrite E. cbn [bind].
      assert (F1 : Forall2 (flipped [ix]) cs c1) by (eapply flip_surface_flipped; eauto; apply (P (Surf ix (GPlane p))); left; auto).
      destruct (IH c1 P') as ([r c2] & ->); [eapply F2_like_trans; eauto|eapply flipped_defs; eauto|]. cbn [bind]. eauto.
    + destruct (IH cs P' L D) as ([r c2] & ->). cbn [bind]. eauto.
  - destruct (IH cs) as ([r c2] & ->); auto; [intros; apply P; right; auto|]. cbn [bind]. eauto.
Qed.
Lemma fix_points_total cs0 : forall l cs, (forall s, In s l -> 0 < index s) ->
  (forall s p p1 p2 p3, In s l -> geo s = GPlane p -> points p = Some (p1, p2, p3) -> ~ collinear p1 p2 p3) ->
  Forall2 like cs0 cs -> defs_ok cs ->
  exists r, fix_points (surface_table cs0) l cs = Ok r.
Proof.
  induction l as [|[ix g] l IH]; intros cs P NC L D; cbn [fix_points]; eauto.
  assert (P' : forall s, In s l -> 0 < index s) by (intros; apply P; right; auto).
  assert (NC' : forall s p p1 p2 p3, In s l -> geo s = GPlane p -> points p = Some (p1, p2, p3) -> ~ collinear p1 p2 p3)
    by (intros; eapply NC; eauto; right; eauto).
  destruct g as [[ax ps [[[p1 p2] p3]|]]|k]; auto.
  destruct (points_to_coeffs_spec p1 p2 p3) as (n & d & E & _); [eapply NC; [left; reflexivity|reflexivity|reflexivity]|].
  rewrite E. cbn [bind]. destruct (is_opposite n ax); [|cbn [bind]; auto].
  destruct (flip_surface_total cs0 cs ix L D) as (c1 & E1). rewrite E1. cbn [bind].
  assert (F1 : Forall2 (flipped [ix]) cs c1) by (eapply flip_surface_flipped; eauto; apply (P (Surf ix (GPlane (Plane ax ps (Some (p1, p2, p3)))))); left; auto).
  apply IH; auto; [eapply F2_like_trans; eauto|eapply flipped_defs; eauto].
Qed.
Lemma simplify_total three st : good (surfaces st) -> defs_ok (cells st) -> (three = true -> points_ok (surfaces st)) ->
  exists st', simplify_planes three st = Ok st'.
Proof.
  intros G D PO. unfold simplify_planes. pose proof (fun k s => good_pos _ k s G) as P.
  pose proof (F2_refl like like_refl (cells st)) as L0.
  destruct (fix_group_total (fun a => negb_R (vx a)) (V 1 0 0) (cells st) (group (surfaces st) PX) (cells st) (P PX) L0 D) as ([lx c1] & E1).
  rewrite E1. cbn [bind]. destruct (fix_group_spec _ _ _ _ _ _ _ (P PX) L0 E1) as (_ & F1).
  pose proof (F2_like_trans _ _ _ _ L0 F1) as L1. pose proof (flipped_defs _ _ _ F1 D) as D1.
  destruct (fix_group_total (fun a => negb_R (vy a)) (V 0 1 0) (cells st) (group (surfaces st) PY) c1 (P PY) L1 D1) as ([ly c2] & E2).
  rewrite E2. cbn [bind]. destruct (fix_group_spec _ _ _ _ _ _ _ (P PY) L1 E2) as (_ & F2).
  pose proof (F2_like_trans _ _ _ _ L1 F2) as L2. pose proof (flipped_defs _ _ _ F2 D1) as D2.
  destruct (fix_group_total (fun a => negb_R (vz a)) (V 0 0 1) (cells st) (group (surfaces st) PZ) c2 (P PZ) L2 D2) as ([lz c3] & E3).
  rewrite E3. cbn [bind]. destruct (fix_group_spec _ _ _ _ _ _ _ (P PZ) L2 E3) as (_ & F3).
  pose proof (F2_like_trans _ _ _ _ L2 F3) as L3. pose proof (flipped_defs _ _ _ F3 D2) as D3.
  destruct three; [|cbn [bind]; eauto].
  destruct (fix_points_total (cells st) (group (surfaces st) PP) c3 (P PP)) as (c4 & ->); auto; [|cbn [bind]; eauto].
  intros s p p1 p2 p3 H E EP. destruct (PO eq_refl) as (P0 & _). specialize (P0 _ _ _ _ H E EP). apply P0.
Qed.
Definition sphere_ok (o : opts) (st : state) : Prop := void_gen o = true -> group (surfaces st) Sph <> [].
Lemma write_one_total o w st : good (surfaces st) -> defs_ok (cells st) -> (prnt3 o = true -> points_ok (surfaces st)) ->
  sphere_ok o st -> keeps_defs o w -> exists out st', write_one o w st = Ok (out, st').
Proof.
  intros G D PO SO K. unfold write_one. fold (three_of o w).
  assert (exists u, match w with OPENMC => Ok tt | _ => if void_gen o && match group (surfaces st) Sph with [] => true | _ => false end then Err IndexError else Ok tt end = Ok u) as (u & ->).
  { unfold sphere_ok in SO. destruct w; eauto; destruct (void_gen o); simpl; eauto; destruct (group (surfaces st) Sph); eauto; exfalso; apply SO; auto. }
  cbn [bind]. destruct (simplify_total (three_of o w) st G D) as (st1 & E); [intros T; apply PO; destruct w; simpl in T; congruence|].
  rewrite E. cbn [bind]. destruct (simplify_spec _ st st1 (fun k s => good_pos _ k s G) E) as (F1 & O & ID & N & LA & GR).
  destruct (good_sorted (surfaces st1)) as (l & -> & _); [eapply normalised_good; eauto|]. cbn [bind].
  destruct w; eauto. rewrite K by auto. cbn [bind]. eauto.
Qed.
