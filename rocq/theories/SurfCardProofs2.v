(** The cards written for each surface. *)
From Verif Require Import Prelude Vec3 Geom GeomProofs Prim PrimSpec PrimProofs CardsProofs Quadric QuadricSpec SurfCards SurfCardSpec SurfCardProofs.
From Coq Require Import String List.
Import ListNotations.
Open Scope R_scope.

Definition pm (e' e : vec) : Prop := e' = e \/ e' = vopp e.
Lemma dist2_pm p e e' x : pm e' e -> dist2 p e' x = dist2 p e x.
Proof. intros [-> | ->]; [reflexivity|apply dist2_opp]. Qed.
Lemma axial2_pm p e e' x : pm e' e -> axial2 p e' x = axial2 p e x.
Proof. intros [-> | ->]; [reflexivity|apply axial2_opp]. Qed.

Lemma sides_cyl p q e e' k r : dot e e = 1 -> pm e' e -> q = vadd (vscale (1/10) p) (vscale k e) ->
  sides (HCyl q e (r * (1/10))) (HCyl p e' r).
Proof.
  intros E P -> x. unfold neg, pos. rewrite dist2_shift by auto. rewrite dist2_10, (dist2_pm _ e e') by auto.
  replace ((r * (1/10)) ^ 2) with (r ^ 2 / 100) by field. split; split; intros; lra.
Qed.
Lemma sides_tor p e e' a a' b : 0 < b -> pm e' e -> a = 10 * a' ->
  sides (HTor (vscale (1/10) p) e a' (b * (1/10)) (b * (1/10))) (HTor p e' a b b).
Proof.
  intros B P -> x. unfold neg, pos. rewrite dist2_10, axial2_10, (dist2_pm _ e e'), (axial2_pm _ e e') by auto.
  pose proof (dist2_nn (vscale (1/10) p) e x) as D. rewrite sqrt_mult by lra.
  replace (sqrt 100) with 10 by (symmetry; replace 100 with (10 * 10) by ring; apply sqrt_square; lra).
  set (s := sqrt _). set (ax := axial2 _ _ _).
  replace (100 * ax / b ^ 2 + (10 * s - 10 * a') ^ 2 / b ^ 2) with (ax / (b * (1 / 10)) ^ 2 + (s - a') ^ 2 / (b * (1 / 10)) ^ 2) by (field; lra).
  tauto.
Qed.
Lemma sides_cone p v t one : sides (HCone (vscale (1/10) p) v t one) (HCone p v t one).
Proof.
  intros x. unfold neg, pos. rewrite dist2_10, axial2_10, sub10.
  replace (dot v (vscale 10 (vsub x (vscale (1 / 10) p)))) with (10 * dot v (vsub x (vscale (1/10) p))) by (unfold dot, vscale; cbn [vx vy vz]; ring).
  set (d := dist2 _ _ _). set (a := axial2 _ _ _). set (h := dot _ _).
  split; split; intros H.
  - destruct H as [H1 H2]. split; [lra|]. intros O. specialize (H2 O). lra.
  - destruct H as [H1 H2]. split; [lra|]. intros O. specialize (H2 O). lra.
  - destruct H as [H | [O H]]; [left; lra|right; split; auto; lra].
  - destruct H as [H | [O H]]; [left; lra|right; split; auto; lra].
Qed.
Lemma sides_cone2 p e e' t : pm e' e -> sides (HCone (vscale (1/10) p) e t false) (HCone p e' t false).
Proof.
  intros P x. unfold neg, pos. rewrite dist2_10, axial2_10, (dist2_pm _ e e'), (axial2_pm _ e e') by auto.
  split; split; intros H.
  - destruct H as [H1 H2]. split; [lra|]. discriminate.
  - destruct H as [H1 H2]. split; [lra|]. discriminate.
  - destruct H as [H | [O H]]; [left; lra|discriminate].
  - destruct H as [H | [O H]]; [left; lra|discriminate].
Qed.
Lemma sides_sph p r : sides (HSph (vscale (1/10) p) (r * (1/10))) (HSph p r).
Proof.
  intros x. unfold neg, pos. rewrite sub10. set (d := vsub _ _).
  replace (dot (vscale 10 d) (vscale 10 d)) with (100 * dot d d) by (unfold dot, vscale; cbn [vx vy vz]; ring).
  replace ((r * (1 / 10)) ^ 2) with (r ^ 2 / 100) by field. split; split; intros; lra.
Qed.
Lemma sides_qcyl q p v r : (forall x, qval q x = dist2 (vscale (1/10) p) v x - (r * (1/10)) ^ 2) -> sides (HQuad q) (HCyl p v r).
Proof.
  intros H x. unfold neg, pos. rewrite H, dist2_10. replace ((r * (1 / 10)) ^ 2) with (r ^ 2 / 100) by field. split; split; intros; lra.
Qed.
Lemma sides_qcone q p v t : (forall x, qval q x = dist2 (vscale (1/10) p) v x - t ^ 2 * axial2 (vscale (1/10) p) v x) ->
  sides (HQuad q) (HCone p v (t ^ 2) false).
Proof.
  intros H x. unfold neg, pos. rewrite H, dist2_10, axial2_10. set (a := axial2 _ _ _). set (d := dist2 _ _ _).
  split; split; intros G.
  - split; [lra|discriminate].
  - destruct G. lra.
  - left. lra.
  - destruct G as [G | [O _]]; [lra|discriminate].
Qed.

(** the coordinate directions *)
Lemma unit_e e : In e [EX; EY; EZ] -> vlen e = 1 /\ dot e e = 1.
Proof.
  intros H. assert (D : dot e e = 1). { destruct H as [<- | [<- | [<- | []]]]; unfold dot, EX, EY, EZ; cbn; ring. }
  split; auto. unfold vlen. rewrite D. apply sqrt_1.
Qed.
Lemma coord_pm e e' : In e [EX; EY; EZ] -> pm e' e -> coord e'.
Proof. intros H [-> | ->]; unfold coord; destruct H as [<- | [<- | [<- | []]]]; cbn; tauto. Qed.
Lemma unit_visible v : vlen v = 1 -> visible v.
Proof. intros H. unfold visible. rewrite H. lra. Qed.
Lemma tenth_visible v : vlen v = 1 -> visible (vscale (1/10) v).
Proof. intros H. unfold visible. rewrite vlen_scale, H, Rabs_right by lra. lra. Qed.
Lemma normalize_unit v : vlen v = 1 -> normalize v = Ok v.
Proof.
  intros H. rewrite normalize_ok by (apply len_nz; lra). f_equal. rewrite H.
  destruct v as [a b c]. unfold vscale; cbn [vx vy vz]. f_equal; field.
Qed.
(** the outcome of the three tests of direction *)
Lemma pick tol d : visible d ->
  let T := parallel_tol tol d in
  (exists e e', In e [EX; EY; EZ] /\ pm e' e /\ ang d e' < tol /\ e' = vscale (sheet tol d e) e /\
     ((e = EX /\ T EX = true) \/ (e = EY /\ T EX = false /\ T EY = true) \/ (e = EZ /\ T EX = false /\ T EY = false /\ T EZ = true))) \/
  (T EX = false /\ T EY = false /\ T EZ = false /\ forall e, coord e -> ~ ang d e < tol).
Proof.
  intros V T. unfold T.
  assert (UX : vlen EX = 1) by (apply unit_e; cbn; auto).
  assert (UY : vlen EY = 1) by (apply unit_e; cbn; auto).
  assert (UZ : vlen EZ = 1) by (apply unit_e; cbn; auto).
  destruct (parallel_cases tol d EX V UX) as [(PX & e & P & A & S)|(PX & NX & NX')].
  { left. exists EX, e. cbn; auto 10. }
  destruct (parallel_cases tol d EY V UY) as [(PY & e & P & A & S)|(PY & NY & NY')].
  { left. exists EY, e. cbn; auto 10. }
  destruct (parallel_cases tol d EZ V UZ) as [(PZ & e & P & A & S)|(PZ & NZ & NZ')].
  { left. exists EZ, e. cbn; auto 10. }
  right. repeat split; auto. intros e C. unfold coord in C. cbn in C. intuition (subst; contradiction).
Qed.
Lemma not_x tol v : 0 < tol -> vlen v = 1 -> (forall e, coord e -> ~ ang v e < tol) -> cross EX v <> vzero.
Proof.
  intros T U N C. destruct v as [a b c]. unfold cross, EX, vzero in C. cbn [vx vy vz] in C. injection C. intros C1 C2 _.
  assert (b = 0) by lra. assert (c = 0) by lra. subst.
  assert (A : a * a = 1). { pose proof (vlen_sq (V a 0 0)) as S. rewrite U in S. unfold dot in S; cbn [vx vy vz] in S. lra. }
  assert (UX : vlen EX = 1) by (apply unit_e; cbn; auto).
  destruct (Rle_dec 0 a) as [L|L].
  - assert (a = 1) by nra. subst. apply (N EX); [unfold coord; cbn; auto|]. unfold ang. fold EX. rewrite UX.
    replace (dot EX EX / (1 * 1)) with 1 by (unfold dot, EX; cbn; field). rewrite acos_1. auto.
  - assert (a = -1) by nra. subst. apply (N (vopp EX)); [unfold coord; cbn; auto|]. unfold ang. rewrite vopp_len, UX, U.
    replace (dot (V (-1) 0 0) (vopp EX) / (1 * 1)) with 1 by (unfold dot, EX, vopp; cbn; field). rewrite acos_1. auto.
Qed.
Lemma not_x10 v : cross EX v <> vzero -> cross EX (vscale (1/10) v) <> vzero.
Proof.
  intros N C. apply N. destruct v as [a b c]. unfold cross, EX, vzero, vscale in *. cbn [vx vy vz] in *. injection C. intros. f_equal; lra.
Qed.
Lemma dist2_tenth p v x : dist2 p (vscale (1/10) v) x = dist2 p v x /\ axial2 p (vscale (1/10) v) x = axial2 p v x.
Proof.
  assert (E : dot (vscale (1 / 10) v) (vsub x p) ^ 2 / dot (vscale (1 / 10) v) (vscale (1 / 10) v) = dot v (vsub x p) ^ 2 / dot v v).
  { replace (dot (vscale (1 / 10) v) (vsub x p)) with (dot v (vsub x p) / 10) by (unfold dot, vscale; cbn [vx vy vz]; field).
    replace (dot (vscale (1 / 10) v) (vscale (1 / 10) v)) with (dot v v / 100) by (unfold dot, vscale; cbn [vx vy vz]; field).
    unfold Rdiv. rewrite Rinv_mult, Rinv_inv. generalize (/ dot v v). intros. field. }
  unfold dist2, axial2. rewrite E. split; reflexivity.
Qed.
Lemma both0_true a b : both0 a b = true -> a = 0 /\ b = 0.
Proof. unfold both0. destruct (Req_EM_T a 0), (Req_EM_T b 0); cbn; intros; auto; discriminate. Qed.
Lemma is_sheet_sheet tol d e : is_sheet (sheet tol d e).
Proof. unfold sheet, is_sheet. destruct (opposite_tol tol d e); auto. Qed.
Lemma maj_cad ra rb sg : (if Rlt_dec ra rb then sg * ra else ra) = 10 * maj ra rb sg.
Proof. unfold maj. destruct (Rlt_dec ra rb); field. Qed.
Lemma v_eq a b c p : a = vx p -> b = vy p -> c = vz p -> V a b c = p.
Proof. intros -> -> ->. destruct p; reflexivity. Qed.
Lemma v_eta p : V (vx p) (vy p) (vz p) = p.
Proof. destruct p; reflexivity. Qed.

(** MCNP and PHITS *)
Ltac card := eexists _, _; split; [reflexivity|econstructor].
Lemma mcnp_cyl t id c v r : proper_cad (SCyl c v r) -> 0 < t_angle t ->
  (exists e toks h, near (t_angle t) v e /\ mcnp_surface t id (SCyl c v r) = Ok toks /\ mcnp_card toks id h /\ sides h (cad (SCyl c e r))) \/
  ((forall e, ~ near (t_angle t) v e) /\ exists toks h, mcnp_surface t id (SCyl c v r) = Ok toks /\ mcnp_card toks id h /\ sides h (cad (SCyl c v r))).
Proof.
  intros [U R0] T. cbn [mcnp_surface]. rewrite normalize_unit by auto. cbn [bind].
  destruct (pick (t_angle t) v (unit_visible v U)) as [(e & e' & E & P & A & _ & C)|(CX & CY & CZ & N)].
  - left. exists e'. pose proof (unit_e e E) as [_ D].
    destruct C as [[-> C]|[[-> [C C']]|[-> [C [C' C'']]]]]; rewrite ?C, ?C', ?C''.
    all: match goal with |- context [both0 ?a ?b] => destruct (both0 a b) eqn:B end.
    all: eexists _, _; split; [split; [eapply coord_pm; eassumption|exact A]|]; split; [reflexivity|]; split; [card|].
    all: try apply both0_true in B; cbn [vx vy vz vscale] in B.
    + apply sides_cyl with (k := - (vx c / 10)); auto. unfold vadd, vscale, EX, vzero. cbn [vx vy vz]. f_equal; lra.
    + apply sides_cyl with (k := - (vx c / 10)); auto. unfold vadd, vscale, EX, vzero. cbn [vx vy vz]. f_equal; lra.
    + apply sides_cyl with (k := - (vy c / 10)); auto. unfold vadd, vscale, EY, vzero. cbn [vx vy vz]. f_equal; lra.
    + apply sides_cyl with (k := - (vy c / 10)); auto. unfold vadd, vscale, EY, vzero. cbn [vx vy vz]. f_equal; lra.
    + apply sides_cyl with (k := - (vz c / 10)); auto. unfold vadd, vscale, EZ, vzero. cbn [vx vy vz]. f_equal; lra.
    + apply sides_cyl with (k := - (vz c / 10)); auto. unfold vadd, vscale, EZ, vzero. cbn [vx vy vz]. f_equal; lra.
  - right. split; [intros e [Ce Ne]; eapply N; eassumption|]. rewrite CX, CY, CZ.
    destruct (q_form_cyl_ok v (vscale (1/10) c) (r * (1/10)) (not_x _ v T U N)) as (q & Eq & Q). rewrite Eq. cbn [bind].
    destruct q. eexists _, _. split; [reflexivity|]. split; [card|]. apply sides_qcyl. auto.
Qed.
Lemma mcnp_cone t id c v a : proper_cad (SCone c v a) -> 0 < t_angle t ->
  (exists e toks h, near (t_angle t) v e /\ mcnp_surface t id (SCone c v a) = Ok toks /\ mcnp_card toks id h /\ sides h (cad (SCone c e a))) \/
  ((forall e, ~ near (t_angle t) v e) /\ exists toks h, mcnp_surface t id (SCone c v a) = Ok toks /\ mcnp_card toks id h /\ sides h (both_sheets (cad (SCone c v a)))).
Proof.
  intros [U R0] T. cbn [mcnp_surface].
  destruct (pick (t_angle t) (vscale (1/10) v) (tenth_visible v U)) as [(e & e' & E & P & A & S & C)|(CX & CY & CZ & N)].
  - left. exists e'. rewrite ang_scale in A by lra. pose proof (unit_e e E) as [_ D].
    destruct C as [[-> C]|[[-> [C C']]|[-> [C [C' C'']]]]]; rewrite ?C, ?C', ?C''.
    all: match goal with |- context [both0 ?a ?b] => destruct (both0 a b) eqn:B end.
    all: eexists _, _; split; [split; [eapply coord_pm; eassumption|exact A]|]; split; [reflexivity|]; split; [card; apply is_sheet_sheet|].
    all: try apply both0_true in B; cbn [vx vy vz vscale] in B. all: rewrite <- S. all: cbn [cad].
    all: match goal with |- sides (HCone ?q _ _ _) _ => replace q with (vscale (1/10) c) by (symmetry; apply v_eq; unfold vscale; cbn [vx vy vz]; lra) end.
    all: apply sides_cone.
  - right. assert (N' : forall e, coord e -> ~ ang v e < t_angle t). { intros e Ce L. apply (N e Ce). rewrite ang_scale by lra. exact L. }
    split; [intros e [Ce Ne]; eapply N'; eassumption|]. rewrite CX, CY, CZ.
    destruct (q_form_cone_ok (vscale (1/10) v) (vscale (1/10) c) (tan a) (not_x10 v (not_x _ v T U N'))) as (q & Eq & Q). rewrite Eq. cbn [bind].
    destruct q. eexists _, _. split; [reflexivity|]. split; [card|]. apply sides_qcone.
    intros x. rewrite Q. destruct (dist2_tenth (vscale (1/10) c) v x) as [-> ->]. reflexivity.
Qed.
Lemma mcnp_sph t id c r : proper_cad (SSph c r) ->
  exists c' toks h, (c' = c \/ (c' = vzero /\ vlen (vscale (1/10) c) <= t_sph t)) /\
    mcnp_surface t id (SSph c r) = Ok toks /\ mcnp_card toks id h /\ sides h (cad (SSph c' r)).
Proof.
  intros _. cbn [mcnp_surface]. unfold is_equal.
  replace (vsub (vscale (1/10) c) vzero) with (vscale (1/10) c) by (unfold vsub, vzero, vscale; cbn [vx vy vz]; f_equal; ring).
  destruct (Rle_dec (vlen (vscale (1 / 10) c)) (t_sph t)) as [L|L].
  - exists vzero. eexists _, _. split; [auto|]. split; [reflexivity|]. split; [card|].
    pose proof (sides_sph vzero r) as S. replace (vscale (1/10) vzero) with vzero in S by (unfold vscale, vzero; cbn; f_equal; ring). exact S.
  - exists c. eexists _, _. split; [auto|]. split; [reflexivity|]. split; [card|]. rewrite v_eta. apply sides_sph.
Qed.
Lemma mcnp_tor t id c v ra rb sg : proper_cad (STor c v ra rb sg) ->
  (exists e toks h, near (t_angle t) v e /\ mcnp_surface t id (STor c v ra rb sg) = Ok toks /\ mcnp_card toks id h /\ sides h (cad (STor c e ra rb sg))) \/
  ((forall e, ~ near (t_angle t) v e) /\ mcnp_surface t id (STor c v ra rb sg) = Ok []).
Proof.
  intros (U & A0 & B0 & G). cbn [mcnp_surface]. rewrite normalize_unit by auto. cbn [bind].
  destruct (pick (t_angle t) v (unit_visible v U)) as [(e & e' & E & P & A & _ & C)|(CX & CY & CZ & N)].
  - left. exists e'. pose proof (unit_e e E) as [_ D].
    destruct C as [[-> C]|[[-> [C C']]|[-> [C [C' C'']]]]]; rewrite ?C, ?C', ?C''.
    all: eexists _, _; split; [split; [eapply coord_pm; eassumption|exact A]|]; split; [reflexivity|]; split; [card|].
    all: cbn [cad]; rewrite v_eta; apply sides_tor; auto; apply maj_cad.
  - right. split; [intros e [Ce Ne]; eapply N; eassumption|]. rewrite CX, CY, CZ. reflexivity.
Qed.
