(** OpenMC and Serpent cards. *)
From Verif Require Import Prelude Vec3 Geom GeomProofs Prim PrimSpec PrimProofs CardsProofs Quadric QuadricSpec SurfCards SurfCardSpec SurfCardProofs SurfCardProofs2.
From Coq Require Import String List.
Import ListNotations.
Open Scope R_scope.

Ltac three C := destruct C as [[-> C]|[[-> [C ?C1]]|[-> [C [?C1 ?C2]]]]]; rewrite ?C; try (rewrite C1); try (rewrite C2).
Ltac nearly A := split; [split; [eapply coord_pm; eassumption|exact A]|].
Ltac shift c :=
  first [apply sides_cyl with (k := - (vx c / 10)); auto; unfold vadd, vscale, EX, EY, EZ; cbn [vx vy vz]; f_equal; lra
        |apply sides_cyl with (k := - (vy c / 10)); auto; unfold vadd, vscale, EX, EY, EZ; cbn [vx vy vz]; f_equal; lra
        |apply sides_cyl with (k := - (vz c / 10)); auto; unfold vadd, vscale, EX, EY, EZ; cbn [vx vy vz]; f_equal; lra].

Lemma xml_cyl t c v r : proper_cad (SCyl c v r) -> 0 < t_angle t ->
  (exists e k l h, near (t_angle t) v e /\ omc_xml t (SCyl c v r) = Ok (Some k, l) /\ omc_means k l h /\ sides h (cad (SCyl c e r))) \/
  ((forall e, ~ near (t_angle t) v e) /\ exists k l h, omc_xml t (SCyl c v r) = Ok (Some k, l) /\ omc_means k l h /\ sides h (cad (SCyl c v r))).
Proof.
  intros [U R0] T. cbn [omc_xml]. rewrite normalize_unit by auto. cbn [bind].
  destruct (pick (t_angle t) v (unit_visible v U)) as [(e & e' & E & P & A & _ & C)|(CX & CY & CZ & N)].
  - left. exists e'. pose proof (unit_e e E) as [_ D]. three C.
    all: eexists _, _, _; nearly A; split; [reflexivity|]; split; [econstructor|]. all: cbn [cad]; shift c.
  - right. split; [intros e [Ce Ne]; eapply N; eassumption|]. rewrite CX, CY, CZ.
    destruct (q_form_cyl_ok v (vscale (1/10) c) (r * (1/10)) (not_x _ v T U N)) as (q & Eq & Q). rewrite Eq. cbn [bind].
    destruct q. eexists _, _, _. split; [reflexivity|]. split; [econstructor|]. apply sides_qcyl. auto.
Qed.
Lemma xml_cone t c v a : proper_cad (SCone c v a) -> 0 < t_angle t ->
  (exists e k l h, near (t_angle t) v e /\ omc_xml t (SCone c v a) = Ok (Some k, l) /\ omc_means k l h /\ sides h (both_sheets (cad (SCone c e a)))) \/
  ((forall e, ~ near (t_angle t) v e) /\ exists k l h, omc_xml t (SCone c v a) = Ok (Some k, l) /\ omc_means k l h /\ sides h (both_sheets (cad (SCone c v a)))).
Proof.
  intros [U R0] T. cbn [omc_xml]. rewrite normalize_unit by auto. cbn [bind].
  destruct (pick (t_angle t) v (unit_visible v U)) as [(e & e' & E & P & A & _ & C)|(CX & CY & CZ & N)].
  - left. exists e'. pose proof (unit_e e E) as [_ D]. three C.
    all: eexists _, _, _; nearly A; split; [reflexivity|]; split; [econstructor|].
    all: cbn [cad both_sheets]; rewrite v_eta; replace (tan a * tan a) with (tan a ^ 2) by ring; apply sides_cone2; auto.
  - right. split; [intros e [Ce Ne]; eapply N; eassumption|]. rewrite CX, CY, CZ.
    destruct (q_form_cone_ok v (vscale (1/10) c) (tan a) (not_x _ v T U N)) as (q & Eq & Q). rewrite Eq. cbn [bind].
    destruct q. eexists _, _, _. split; [reflexivity|]. split; [econstructor|]. apply sides_qcone. auto.
Qed.
Lemma xml_sph t c r : exists k l h, omc_xml t (SSph c r) = Ok (Some k, l) /\ omc_means k l h /\ sides h (cad (SSph c r)).
Proof. cbn [omc_xml]. eexists _, _, _. split; [reflexivity|]. split; [econstructor|]. rewrite v_eta. apply sides_sph. Qed.
Lemma xml_tor t c v ra rb sg : proper_cad (STor c v ra rb sg) ->
  (exists e k l h, near (t_angle t) v e /\ omc_xml t (STor c v ra rb sg) = Ok (Some k, l) /\ omc_means k l h /\ sides h (cad (STor c e ra rb sg))) \/
  ((forall e, ~ near (t_angle t) v e) /\ exists l, omc_xml t (STor c v ra rb sg) = Ok (None, l)).
Proof.
  intros (U & A0 & B0 & G). cbn [omc_xml]. rewrite normalize_unit by auto. cbn [bind].
  destruct (pick (t_angle t) v (unit_visible v U)) as [(e & e' & E & P & A & _ & C)|(CX & CY & CZ & N)].
  - left. exists e'. pose proof (unit_e e E) as [_ D]. three C.
    all: eexists _, _, _; nearly A; split; [reflexivity|]; split; [econstructor|].
    all: cbn [cad]; rewrite v_eta; apply sides_tor; auto; apply maj_cad.
  - right. split; [intros e [Ce Ne]; eapply N; eassumption|]. rewrite CX, CY, CZ. eexists. reflexivity.
Qed.

(** Python calls *)
Ltac args := split; [cbn; intros ?k ?x H; repeat destruct H as [[= <- <-]|H]; try contradiction; cbn; tauto
                    |cbn; repeat constructor; cbn; intuition discriminate].
Lemma py_cyl qd t c v r : proper_cad (SCyl c v r) -> 0 < t_angle t ->
  (exists e k l h, near (t_angle t) v e /\ omc_py qd t (SCyl c v r) = Ok (Some k, l) /\ omcpy_means k l h /\ sides h (cad (SCyl c e r))) \/
  ((forall e, ~ near (t_angle t) v e) /\ exists k l h, omc_py qd t (SCyl c v r) = Ok (Some k, l) /\ omcpy_means k l h /\ sides h (cad (SCyl c v r))).
Proof.
  intros [U R0] T. cbn [omc_py]. rewrite normalize_unit by auto. cbn [bind].
  destruct (pick (t_angle t) v (unit_visible v U)) as [(e & e' & E & P & A & _ & C)|(CX & CY & CZ & N)].
  - left. exists e'. pose proof (unit_e e E) as [_ D]. three C.
    all: eexists _, _, _; nearly A; split; [reflexivity|]; split; [econstructor; args|]. all: cbn [cad]; cbn -[sides vscale]; shift c.
  - right. split; [intros e [Ce Ne]; eapply N; eassumption|]. rewrite CX, CY, CZ. destruct qd.
    + destruct (q_form_cyl_ok v (vscale (1/10) c) (r * (1/10)) (not_x _ v T U N)) as (q & Eq & Q). rewrite Eq. cbn [bind].
      destruct q. eexists _, _, _. split; [reflexivity|]. split; [econstructor; args|]. cbn -[sides]. apply sides_qcyl. auto.
    + eexists _, _, _. split; [reflexivity|]. split; [apply yC; args|]. cbn -[sides vscale]. unfold arg_pos, arg_dir. cbn -[sides vscale]. rewrite !v_eta.
      apply sides_cyl with (k := 0); auto; [|left; reflexivity|destruct c as [x y z]; unfold vadd, vscale; cbn [vx vy vz]; f_equal; ring].
      rewrite <- vlen_sq, U. ring.
Qed.
Lemma py_cone qd t c v a : proper_cad (SCone c v a) -> 0 < t_angle t ->
  (exists e k l h, near (t_angle t) v e /\ omc_py qd t (SCone c v a) = Ok (Some k, l) /\ omcpy_means k l h /\ sides h (both_sheets (cad (SCone c e a)))) \/
  ((forall e, ~ near (t_angle t) v e) /\ exists k l h, omc_py qd t (SCone c v a) = Ok (Some k, l) /\ omcpy_means k l h /\ sides h (both_sheets (cad (SCone c v a)))).
Proof.
  intros [U R0] T. cbn [omc_py]. rewrite normalize_unit by auto. cbn [bind].
  destruct (pick (t_angle t) v (unit_visible v U)) as [(e & e' & E & P & A & _ & C)|(CX & CY & CZ & N)].
  - left. exists e'. pose proof (unit_e e E) as [_ D]. three C.
    all: eexists _, _, _; nearly A; split; [reflexivity|]; split; [econstructor; args|].
    all: unfold arg_pos; cbn -[sides vscale tan]; rewrite v_eta; replace (tan a * tan a) with (tan a ^ 2) by ring; cbn [cad both_sheets].
    all: replace (tan a * (tan a * 1)) with (tan a ^ 2) by ring; apply sides_cone2; auto.
  - right. split; [intros e [Ce Ne]; eapply N; eassumption|]. rewrite CX, CY, CZ. destruct qd.
    + destruct (q_form_cone_ok v (vscale (1/10) c) (tan a) (not_x _ v T U N)) as (q & Eq & Q). rewrite Eq. cbn [bind].
      destruct q. eexists _, _, _. split; [reflexivity|]. split; [econstructor; args|]. cbn -[sides tan]. apply sides_qcone. auto.
    + eexists _, _, _. split; [reflexivity|]. split; [apply yK; args|]. unfold arg_pos, arg_dir. cbn -[sides vscale tan]. rewrite !v_eta.
      replace (tan a * (tan a * 1)) with (tan a * tan a) by ring. apply sides_cone2. left. reflexivity.
Qed.
Lemma py_sph qd t c r : exists k l h, omc_py qd t (SSph c r) = Ok (Some k, l) /\ omcpy_means k l h /\ sides h (cad (SSph c r)).
Proof.
  cbn [omc_py]. eexists _, _, _. split; [reflexivity|]. split; [econstructor; args|]. unfold arg_pos. cbn -[sides vscale]. rewrite v_eta. apply sides_sph.
Qed.
Lemma py_tor qd t c v ra rb sg k l h : omc_py qd t (STor c v ra rb sg) = Ok (Some k, l) -> ~ omcpy_means k l h.
Proof.
  cbn [omc_py]. destruct (normalize v); cbn [bind]; try discriminate. intros H.
  assert (L : In ("r1"%string, rb * (1/10)) l).
  { destruct (parallel_tol _ _ EX); [|destruct (parallel_tol _ _ EY); [|destruct (parallel_tol _ _ EZ); [|discriminate]]]; injection H; intros <- _; cbn; auto 10. }
  assert (K : k = "XTorus"%string \/ k = "YTorus"%string \/ k = "ZTorus"%string).
  { destruct (parallel_tol _ _ EX); [|destruct (parallel_tol _ _ EY); [|destruct (parallel_tol _ _ EZ); [|discriminate]]]; injection H; intros _ <-; auto. }
  intros M. inversion M as [| | | | | | | | |? [O _]|? [O _]|? [O _]|]; subst; try (destruct K as [K|[K|K]]; discriminate K);
  specialize (O _ _ L); cbn in O; intuition discriminate.
Qed.

(** the values of the call, under the names that OpenMC has for them *)
Definition torus_name (k : string) : string :=
  if String.eqb k "r" then "a" else if String.eqb k "r1" then "b" else if String.eqb k "r2" then "c" else k.
Definition torus_names (l : list (string * R)) : list (string * R) := map (fun e => (torus_name (fst e), snd e)) l.
Lemma py_tor_values qd t c v ra rb sg : proper_cad (STor c v ra rb sg) ->
  (exists e k l h, near (t_angle t) v e /\ omc_py qd t (STor c v ra rb sg) = Ok (Some k, l) /\ omcpy_means k (torus_names l) h /\ sides h (cad (STor c e ra rb sg))) \/
  ((forall e, ~ near (t_angle t) v e) /\ exists l, omc_py qd t (STor c v ra rb sg) = Ok (None, l)).
Proof.
  intros (U & A0 & B0 & G). cbn [omc_py]. rewrite normalize_unit by auto. cbn [bind].
  destruct (pick (t_angle t) v (unit_visible v U)) as [(e & e' & E & P & A & _ & C)|(CX & CY & CZ & N)].
  - left. exists e'. pose proof (unit_e e E) as [_ D]. three C.
    all: eexists _, _, _; nearly A; split; [reflexivity|]; split; [econstructor; args|].
    all: unfold arg_pos; cbn -[sides vscale maj]; rewrite v_eta; apply sides_tor; auto; apply maj_cad.
  - right. split; [intros e [Ce Ne]; eapply N; eassumption|]. rewrite CX, CY, CZ. eexists. reflexivity.
Qed.

(** Serpent *)
Lemma ser_sph t id c r : exists toks h, serpent_surface t id (SSph c r) = Ok toks /\ serpent_card toks id h /\ sides h (cad (SSph c r)).
Proof. cbn [serpent_surface]. eexists _, _. split; [reflexivity|]. split; [card|]. rewrite v_eta. apply sides_sph. Qed.
Lemma ser_tor t id c v ra rb sg : proper_cad (STor c v ra rb sg) ->
  (exists e toks h, near (t_angle t) v e /\ serpent_surface t id (STor c v ra rb sg) = Ok toks /\ serpent_card toks id h /\ sides h (cad (STor c e ra rb sg))) \/
  ((forall e, ~ near (t_angle t) v e) /\ serpent_surface t id (STor c v ra rb sg) = Ok []).
Proof.
  intros (U & A0 & B0 & G). cbn [serpent_surface]. rewrite normalize_unit by auto. cbn [bind].
  destruct (pick (t_angle t) v (unit_visible v U)) as [(e & e' & E & P & A & _ & C)|(CX & CY & CZ & N)].
  - left. exists e'. pose proof (unit_e e E) as [_ D]. three C.
    all: eexists _, _; nearly A; split; [reflexivity|]; split; [card|].
    all: cbn [cad]; rewrite v_eta; apply sides_tor; auto; apply maj_cad.
  - right. split; [intros e [Ce Ne]; eapply N; eassumption|]. rewrite CX, CY, CZ. reflexivity.
Qed.
Lemma ser_cyl t id c v r : proper_cad (SCyl c v r) -> 0 < t_angle t ->
  (exists e toks h, near (t_angle t) v e /\ In e [EX; EY; vopp EX; vopp EY] /\ serpent_surface t id (SCyl c v r) = Ok toks /\ serpent_card toks id h /\ sides h (cad (SCyl c e r))) \/
  ((forall e, near (t_angle t) v e -> e = EZ \/ e = vopp EZ) /\ exists toks, serpent_surface t id (SCyl c v r) = Ok toks /\ forall id' h, ~ serpent_card toks id' h).
Proof.
  intros [U R0] T. cbn [serpent_surface]. rewrite normalize_unit by auto. cbn [bind].
  assert (W : forall e, In e [EX; EY] -> parallel_tol (t_angle t) v e = false -> ~ ang v e < t_angle t /\ ~ ang v (vopp e) < t_angle t).
  { intros e I1 F. assert (U1 : vlen e = 1) by (apply unit_e; cbn in *; tauto).
    pose proof (parallel_true (t_angle t) v e (unit_visible v U) U1) as P. rewrite F in P. split; intros H; destruct P as [_ P]; [specialize (P (or_introl H))|specialize (P (or_intror H))]; discriminate. }
  destruct (pick (t_angle t) v (unit_visible v U)) as [(e & e' & E & P & A & _ & C)|(CX & CY & CZ & N)].
  - pose proof (unit_e e E) as [_ D]. destruct C as [[-> C]|[[-> [C C1]]|[-> [C [C1 C2]]]]].
    + left. exists e'. rewrite C. eexists _, _; nearly A; split; [destruct P as [-> | ->]; cbn; auto|]. split; [reflexivity|]; split; [card|]. cbn [cad]. shift c.
    + left. exists e'. rewrite C, C1. eexists _, _; nearly A; split; [destruct P as [-> | ->]; cbn; auto|]. split; [reflexivity|]; split; [card|]. cbn [cad]. shift c.
    + right. rewrite C, C1, C2. split.
      * intros f [Cf Nf]. destruct (W EX) as [X1 X2]; auto; [cbn; auto|]. destruct (W EY) as [Y1 Y2]; auto; [cbn; auto|].
        unfold coord in Cf. cbn in Cf. destruct Cf as [<- | [<- | [<- | [<- | [<- | [<- | []]]]]]]; auto; contradiction.
      * eexists. split; [reflexivity|]. intros id' h (k & l & H & M). injection H. intros H2 <- _. destruct l as [|? [|? ?]]; try discriminate. inversion M.
  - right. rewrite CX, CY, CZ. split; [intros f [Cf Nf]; exfalso; eapply N; eassumption|].
    destruct (q_form_cyl_ok v (vscale (1/10) c) (r * (1/10)) (not_x _ v T U N)) as (q & Eq & Q). rewrite Eq. cbn [bind].
    eexists. split; [reflexivity|]. intros id' h (k & l & H & M). discriminate.
Qed.
Lemma ser_cone t id c v a : proper_cad (SCone c v a) -> 0 < t_angle t ->
  exists toks, serpent_surface t id (SCone c v a) = Ok toks /\ forall id' h, ~ serpent_card toks id' h.
Proof.
  intros [U R0] T. cbn [serpent_surface].
  assert (Z : forall k l id' h, ~ serpent_card (TK k :: l) id' h). { intros k l id' h (k' & l' & H & M). discriminate. }
  destruct (pick (t_angle t) (vscale (1/10) v) (tenth_visible v U)) as [(e & e' & E & P & A & S & C)|(CX & CY & CZ & N)].
  - three C; eexists; split; [reflexivity|apply Z|reflexivity|apply Z|reflexivity|apply Z].
  - assert (N' : forall e, coord e -> ~ ang v e < t_angle t). { intros e Ce L. apply (N e Ce). rewrite ang_scale by lra. exact L. }
    rewrite CX, CY, CZ.
    destruct (q_form_cone_ok (vscale (1/10) v) (vscale (1/10) c) (tan a) (not_x10 v (not_x _ v T U N'))) as (q & Eq & Q). rewrite Eq. cbn [bind].
    eexists. split; [reflexivity|]. intros id' h (k & l & H & M). discriminate.
Qed.
