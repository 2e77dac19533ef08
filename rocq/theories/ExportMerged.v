(** PHITS with one void cell and the normalisation of the planes (properties C28 and C58). *)
From Coq Require Import String Sorted.
From Verif Require Import Prelude BoolSpec BoolSeq BoolProofs BoolProofs2 BoolEdit BoolEditProofs SurfDict SurfDictProofs
  Vec3 Geom GeomSpec GeomProofs Export ExportSpec ExportProofs ExportProofs2 ExportProofs3 ExportProofs4 PhitsVoid.
Open Scope Z_scope.

(** The cells [b] of a file and [a], of the definitions: same numbers, materials, importances,
    exclusions (#) and comments, and same sets of points. *)
Definition same_ocell (st0 : state) (out : output) (a b : ocell) : Prop :=
  match a, b with
  | OComment s, OComment s' => s' = s
  | OCell lab m g n ex cm inf, OCell lab' m' g' n' ex' cm' inf' =>
      lab' = lab /\ m' = m /\ g' = g /\ ex' = ex /\ cm' = cm /\ inf' = inf /\ same_region st0 out n n'
  | _, _ => False
  end.

(** The other files: the cells that are true at the place with sides [v] *)
Definition written_true (v : point) (o : ocell) : bool :=
  match o with OCell _ _ _ d _ _ _ => eval v d | OComment _ => false end.

(** ** Proofs *)
Definition twin (F : list Z) (c c' : cell) : Prop := rel F c c' /\ info c' = info c /\ comments c' = comments c.
Definition noted (c c' : cell) : Prop := info c' = info c /\ comments c' = comments c.
Lemma F2_and {A B} (P Q : A -> B -> Prop) l m : Forall2 P l m -> Forall2 Q l m -> Forall2 (fun a b => P a b /\ Q a b) l m.
Proof. intros H. revert Q. induction H as [|a b l m X F IH]; intros Q K; inversion K; subst; constructor; auto. Qed.
Lemma noted_refl c : noted c c. Proof. split; auto. Qed.
Lemma noted_trans a b c : noted a b -> noted b c -> noted a c.
Proof. intros (A & B) (C & D). split; congruence. Qed.
Lemma simplify_noted three st st1 : good (surfaces st) -> simplify_planes three st = Ok st1 -> Forall2 noted (cells st) (cells st1).
Proof.
  intros G E. destruct (simplify_spec _ st st1 (fun k s => good_pos _ k s G) E) as (F1 & _). eapply F2_impl; [|exact F1].
  intros a b (_ & A & B & _). split; auto.
Qed.
Lemma writers_noted o st0 : forall ws st st' b, ~ In PHITS ws -> good (surfaces st0) -> SInv (pln_tol o) (prnt3 o) st0 st b ->
  writers o ws st = Ok st' -> Forall2 noted (cells st) (cells st').
Proof.
  induction ws as [|w ws IH]; intros st st' b N G0 I H; cbn [writers] in H.
  - inv H. apply F2_refl, noted_refl.
  - assert (NW : w <> PHITS) by (intros ->; apply N; left; auto). assert (NR : ~ In PHITS ws) by (intros J; apply N; right; auto).
    destruct (write_one o w st) as [[out st1]|e|] eqn:E; try discriminate. cbn [bind] in H.
    assert (K : keeps_defs o w) by (intros ->; congruence).
    destruct (write_one_spec _ _ _ _ _ K (si_good _ _ _ _ _ I) E) as (st2 & l & E2 & ES & R & _).
    assert (TP : three_of o w = true -> prnt3 o = true) by (destruct w; simpl; congruence).
    destruct (sinv_simplify _ _ _ _ _ _ _ TP G0 I E2) as (I2 & _).
    pose proof (sinv_cells _ _ _ _ _ _ I2 ES R) as I1.
    assert (Q : st2 = st1).
    { unfold write_one in E. destruct (match w with OPENMC => Ok tt | _ => _ end) as [u|e|]; try discriminate. cbn [bind] in E.
      fold (three_of o w) in E. rewrite E2 in E. cbn [bind] in E. destruct (sorted_surfaces (surfaces st2)) as [l'|e|]; try discriminate. cbn [bind] in E.
      destruct w; try congruence; inv E; auto. }
    subst st2. eapply F2_trans; [apply noted_trans| |eapply IH; eauto]. eapply simplify_noted; [|exact E2]. eapply si_good; eauto.
Qed.
Lemma solid_cells_like cs cs' : Forall2 like cs cs' -> solid_cells cs' = solid_cells cs.
Proof.
  intros F. unfold solid_cells. induction F as [|c c' cs cs' [Li Ll Lm Lv Ls] F IH]; auto. cbn [filter]. rewrite Li, Lv.
  destruct (has_id c && negb (isvoid c)); cbn [List.length]; lia.
Qed.
Lemma first_surfs n h i : first_element n = Ok h -> In i (surfs h) -> In i (surfs n).
Proof.
  destruct n as [z|op lev b|op lev l]; cbn [first_element]; try discriminate. intros H J. inv H. apply surfs_spec in J. apply surfs_spec. destruct J as (z & J & Q). exists z. split; auto.
  destruct l as [|x l]; [destruct J|]. simpl in *. rewrite app_nil_r in J. apply in_or_app. auto.
Qed.

Lemma merged_one (st0 : state) (out : output) F s k c c' c1' os' :
  (forall n n', (forall i, In i (surfs n) -> In i (surfs (def c))) -> surfs n' = surfs n -> (forall v, eval (flips F v) n' = eval v n) -> same_region st0 out n n') ->
  (has_id c = true -> defok (def c)) -> twin F c c' -> phits_cell_uni s k c' = Ok (c1', os') ->
  exists c1 os, phits_cell_uni s k c = Ok (c1, os) /\ Forall2 (same_ocell st0 out) os os'.
Proof.
  intros REG D (([Li Ll Lm Lv Ls] & _ & EV) & IN & CM) H. unfold phits_cell_uni, is_graveyard in *. rewrite Li, Lv, IN in H.
  destruct (has_id c) eqn:ID; cycle 1.
  { inv H. do 2 eexists. split; [reflexivity|]. repeat constructor. cbn. exact CM. }
  specialize (D eq_refl). destruct (EV eq_refl D) as (D' & V & (h & h' & H1 & H2 & SH & VH)).
  assert (R0 : same_region st0 out (def c) (def c')) by (apply REG; auto).
  destruct (isvoid c).
  - destruct (String.eqb (info c) "Graveyard_in").
    + rewrite H1. rewrite H2 in H. cbn [bind] in *. inv H. do 2 eexists. split; [reflexivity|]. repeat constructor; cbn; auto.
      apply REG; auto. intros i J. eapply first_surfs; eauto.
    + destruct (String.eqb (info c) "Graveyard"); inv H; do 2 eexists; (split; [reflexivity|]); repeat constructor; auto.
  - inv H. do 2 eexists. split; [reflexivity|]. repeat constructor; auto.
Qed.

Theorem merged_regions o ws st0 st out st' :
  good (surfaces st0) -> aligned (pln_tol o) (surfaces st0) -> (prnt3 o = true -> points_ok (surfaces st0)) ->
  (forall c, In c (cells st0) -> has_id c = true -> defok (def c) /\ registered_def (surfaces st0) (def c)) ->
  uni_void o = true -> ~ In PHITS ws -> parity o ws = false ->
  writers o ws st0 = Ok st -> write_one o PHITS st = Ok (out, st') ->
  exists file, merged_file (start_cell o) (cells st0) = Ok file /\ Forall2 (same_ocell st0 out) file (o_cells out).
Proof.
  intros G0 A0 P0 D0 UV NP PAR HW H1.
  assert (KS : Forall (keeps_defs o) ws) by (apply Forall_forall; intros w J ->; contradiction).
  pose proof (sinv_writers o st0 ws st0 st false KS G0 (sinv_init _ _ _ G0 A0 P0) HW) as I. 
  pose proof (writers_noted o st0 ws st0 st false NP G0 (sinv_init _ _ _ G0 A0 P0) HW) as N0. rewrite PAR in I. cbn [xorb] in I.
  unfold write_one in H1. destruct (if void_gen o && _ then Err IndexError else Ok tt) as [u|e|] eqn:E0; try discriminate. cbn [bind] in H1.
  destruct (simplify_planes (prnt3 o) st) as [st1|e|] eqn:E1; try discriminate. cbn [bind] in H1.
  destruct (sorted_surfaces (surfaces st1)) as [l|e|] eqn:SL; try discriminate. cbn [bind] in H1. rewrite UV in H1.
  destruct (mapM _ (cells st1)) as [lc|e|] eqn:EM; try discriminate. cbn [bind] in H1. injection H1 as <- <-. cbn [o_cells].
  match goal with |- context [same_ocell st0 ?x] => set (out := x) in * end.
  destruct (sinv_simplify _ _ _ _ _ _ _ (fun x => x) G0 I E1) as (I1 & NM). rewrite xorb_false_l in I1.
  destruct (si_sem _ _ _ _ _ I1) as (F & F0 & S).
  assert (N1 : Forall2 noted (cells st0) (cells st1)).
  { eapply F2_trans; [apply noted_trans|exact N0|]. eapply simplify_noted; eauto. eapply si_good; eauto. }
  assert (T : Forall2 (twin F) (cells st0) (cells st1)) by (eapply F2_impl; [|apply (F2_and _ _ _ _ F0 N1)]; intros a b (A & B); split; auto).
  assert (LK : Forall2 like (cells st0) (cells st1)) by (eapply F2_impl; [|exact F0]; intros a b (A & _); auto).
  assert (REG : forall c, In c (cells st0) -> has_id c = true -> forall n n', (forall i, In i (surfs n) -> In i (surfs (def c))) -> surfs n' = surfs n ->
    (forall v, eval (flips F v) n' = eval v n) -> same_region st0 out n n').
  { intros c IC ID n n' SUB SN V. destruct (D0 c IC ID) as (DO & RD).
    intros other x v0 v1 OFF CV CC. destruct (S other x v0 OFF CV) as (v & C1 & EF).
    rewrite <- (V v0). apply eval_ext_surfs. intros i Hi. rewrite SN in Hi. apply SUB in Hi.
    assert (RG : exists k s, In s (group (surfaces st1) k) /\ index s = i) by (apply (si_reg _ _ _ _ _ I1); apply surfs_spec in Hi; destruct Hi as (z & Hz & <-); apply RD, Hz).
    destruct RG as (k & s & HS & <-). rewrite EF.
    assert (CO := cards_correct (prnt3 o) other (pln_tol o) x (surfaces st1) v _ (si_good _ _ _ _ _ I1) (si_aligned _ _ _ _ _ I1) NM
      (si_off _ _ _ _ _ I1 x OFF) (fun q => si_points _ _ _ _ _ I1 q) C1 eq_refl k s HS).
    rewrite (si_PP _ _ _ _ _ I1) in CO.
    assert (IN : In (write_surf (prnt3 o) (pln_tol o) s) (o_surfs out)).
    { cbn [o_surfs out]. apply in_map. destruct (good_sorted _ (si_good _ _ _ _ _ I1)) as (l' & SL' & M). assert (l' = l) as -> by congruence. apply M. eauto. }
    specialize (CC (index s) (snd (write_surf (prnt3 o) (pln_tol o) s)) IN).
    rewrite <- CO in CC. apply bool_iff. exact CC. }
  unfold merged_file. rewrite (solid_cells_like _ _ LK) in EM.
  assert (Q : forall cs cs' lc2, Forall2 (twin F) cs cs' -> (forall c, In c cs -> In c (cells st0)) ->
    mapM (phits_cell_uni (start_cell o) (solid_cells (cells st0))) cs' = Ok lc2 ->
    exists l0, mapM (phits_cell_uni (start_cell o) (solid_cells (cells st0))) cs = Ok l0 /\ Forall2 (same_ocell st0 out) (flat_map snd l0) (flat_map snd lc2)).
  { clear EM T. intros cs cs' lc2 F2. revert lc2. induction F2 as [|c c' cs cs' TW F2 IH]; intros lc2 SUB EM.
    - cbn in EM. inv EM. exists []. split; [reflexivity|constructor].
    - cbn [mapM] in EM. destruct (phits_cell_uni _ _ c') as [[c1' os']|e|] eqn:EC; try discriminate. cbn [bind] in EM.
      destruct (mapM _ cs') as [lr|e|] eqn:ER; try discriminate. cbn [bind] in EM. inv EM.
      destruct (IH lr) as (l0 & E2 & R2); [intros; apply SUB; right; auto|reflexivity|].
      assert (IC : In c (cells st0)) by (apply SUB; left; auto).
      destruct (has_id c) eqn:ID.
      + destruct (merged_one st0 out F _ _ c c' c1' os' (REG c IC ID) (fun _ => proj1 (D0 c IC ID)) TW EC) as (c1 & os & E3 & R3).
        exists ((c1, os) :: l0). cbn [mapM]. rewrite E3, E2. cbn [bind]. split; [reflexivity|]. cbn [flat_map snd]. apply Forall2_app; auto.
      + destruct TW as (([Li _ _ _ _] & _) & _ & CM). unfold phits_cell_uni in EC. rewrite Li, ID in EC. inv EC.
        exists ((c, [OComment (comments c)]) :: l0). cbn [mapM]. unfold phits_cell_uni at 1. rewrite ID. cbn [bind]. rewrite E2. cbn [bind].
        split; [reflexivity|]. cbn [flat_map snd app]. constructor; auto. }
  destruct (Q _ _ lc T (fun c J => J) EM) as (l0 & E2 & R2). rewrite E2. cbn [bind]. eauto.
Qed.

(** The merged file is written. *)
Lemma defok_first n : defok n -> exists h, first_element n = Ok h.
Proof. intros (A & B & _). destruct n; try contradiction. cbn. eauto. Qed.
Theorem merged_total o st : good (surfaces st) -> defs_ok (cells st) -> (prnt3 o = true -> points_ok (surfaces st)) ->
  sphere_ok o st -> uni_void o = true -> exists out st', write_one o PHITS st = Ok (out, st').
Proof.
  intros G D PO SO UV. unfold write_one.
  assert (exists u, (if void_gen o && match group (surfaces st) Sph with [] => true | _ => false end then Err IndexError else Ok tt) = Ok u) as (u & ->).
  { unfold sphere_ok in SO. destruct (void_gen o); simpl; eauto; destruct (group (surfaces st) Sph); eauto; exfalso; apply SO; auto. }
  cbn [bind]. destruct (simplify_total (prnt3 o) st G D PO) as (st1 & E).
  rewrite E. cbn [bind]. destruct (simplify_spec _ st st1 (fun k s => good_pos _ k s G) E) as (F1 & O & ID & N & LA & GR).
  destruct (good_sorted (surfaces st1)) as (l & -> & _); [eapply normalised_good; eauto|]. cbn [bind]. rewrite UV.
  destruct (mapM_total' (phits_cell_uni (start_cell o) (solid_cells (cells st1))) (cells st1)) as (lc & ->); [|cbn [bind]; eauto].
  intros c J. pose proof (flipped_defs _ _ _ F1 D c J) as DC. unfold phits_cell_uni. destruct (has_id c); eauto. destruct (isvoid c); eauto.
  destruct (String.eqb (info c) "Graveyard_in"); [|destruct (is_graveyard c); eauto]. destruct (defok_first _ (DC eq_refl)) as (h & ->). cbn [bind]. eauto.
Qed.

(** ** The other files *)
Lemma plain_one (st0 : state) (out : output) F o w c c' :
  (forall n n', (forall i, In i (surfs n) -> In i (surfs (def c))) -> surfs n' = surfs n -> (forall v, eval (flips F v) n' = eval v n) -> same_region st0 out n n') ->
  (has_id c = true -> defok (def c)) -> twin F c c' -> Forall2 (same_ocell st0 out) (cells_of o w c) (cells_of o w c').
Proof.
  intros REG D (([Li Ll Lm Lv Ls] & _ & EV) & IN & CM).
  assert (R0 : has_id c = true -> same_region st0 out (def c) (def c')) by (intros ID; destruct (EV ID (D ID)) as (_ & V & _); apply REG; auto).
  destruct w; cbn [cells_of].
  - unfold mcnp_cell, is_graveyard. rewrite Li, Ll, Lm, IN, CM. destruct (has_id c); repeat constructor; auto.
  - unfold openmc_cell, is_graveyard. rewrite Li, Ll, Lm, IN, CM. destruct (String.eqb (info c) "Graveyard"); [constructor|]. destruct (has_id c); repeat constructor; auto.
  - unfold serpent_cell, is_graveyard. rewrite Li, Ll, Lm, IN, CM. destruct (has_id c); [|repeat constructor]. destruct (ucard o); repeat constructor; auto.
  - unfold phits_cell, is_graveyard. rewrite Li, Ll, Lm, IN, CM. destruct (has_id c); [|repeat constructor; auto]. cbn [snd].
    destruct (mat c =? 0), (String.eqb (info c) "Graveyard"), (String.eqb (info c) "Graveyard_in"); constructor; try constructor; cbn; repeat split; auto.
Qed.
Theorem plain_regions o w ws st0 st out st' :
  good (surfaces st0) -> aligned (pln_tol o) (surfaces st0) -> (prnt3 o = true -> points_ok (surfaces st0)) ->
  (forall c, In c (cells st0) -> has_id c = true -> defok (def c) /\ registered_def (surfaces st0) (def c)) ->
  keeps_defs o w -> ~ In PHITS ws -> parity o ws = false ->
  writers o ws st0 = Ok st -> write_one o w st = Ok (out, st') ->
  Forall2 (same_ocell st0 out) (flat_map (cells_of o w) (cells st0)) (o_cells out).
Proof.
  intros G0 A0 P0 D0 K NP PAR HW H1.
  assert (KS : Forall (keeps_defs o) ws) by (apply Forall_forall; intros x J ->; contradiction).
  pose proof (sinv_writers o st0 ws st0 st false KS G0 (sinv_init _ _ _ G0 A0 P0) HW) as I. 
  pose proof (writers_noted o st0 ws st0 st false NP G0 (sinv_init _ _ _ G0 A0 P0) HW) as N0. rewrite PAR in I. cbn [xorb] in I.
  destruct (write_one_spec _ _ _ _ _ K (si_good _ _ _ _ _ I) H1) as (st1 & l & E1 & ES & R & OC & SL & OS).
  assert (TP : three_of o w = true -> prnt3 o = true) by (destruct w; simpl; congruence).
  destruct (sinv_simplify _ _ _ _ _ _ _ TP G0 I E1) as (I1 & NM). rewrite xorb_false_l in I1.
  destruct (si_sem _ _ _ _ _ I1) as (F & F0 & S).
  assert (N1 : Forall2 noted (cells st0) (cells st1)).
  { eapply F2_trans; [apply noted_trans|exact N0|]. eapply simplify_noted; eauto. eapply si_good; eauto. }
  assert (T : Forall2 (twin F) (cells st0) (cells st1)) by (eapply F2_impl; [|apply (F2_and _ _ _ _ F0 N1)]; intros a b (A & B); split; auto).
  assert (REG : forall c, In c (cells st0) -> has_id c = true -> forall n n', (forall i, In i (surfs n) -> In i (surfs (def c))) -> surfs n' = surfs n ->
    (forall v, eval (flips F v) n' = eval v n) -> same_region st0 out n n').
  { intros c IC ID n n' SUB SN V. destruct (D0 c IC ID) as (DO & RD).
    intros other x v0 v1 OFF CV CC. destruct (S other x v0 OFF CV) as (v & C1 & EF).
    rewrite <- (V v0). apply eval_ext_surfs. intros i Hi. rewrite SN in Hi. apply SUB in Hi.
    assert (RG : exists k s, In s (group (surfaces st1) k) /\ index s = i) by (apply (si_reg _ _ _ _ _ I1); apply surfs_spec in Hi; destruct Hi as (z & Hz & <-); apply RD, Hz).
    destruct RG as (k & s & HS & <-). rewrite EF.
    assert (CO := cards_correct (three_of o w) other (pln_tol o) x (surfaces st1) v _ (si_good _ _ _ _ _ I1) (si_aligned _ _ _ _ _ I1) NM
      (si_off _ _ _ _ _ I1 x OFF) (fun q => si_points _ _ _ _ _ I1 (TP q)) C1 eq_refl k s HS).
    rewrite (si_PP _ _ _ _ _ I1) in CO.
    assert (IN : In (write_surf (three_of o w) (pln_tol o) s) (o_surfs out)).
    { rewrite OS. apply in_map. destruct (good_sorted _ (si_good _ _ _ _ _ I1)) as (l' & SL' & M). assert (l' = l) as -> by congruence. apply M. eauto. }
    specialize (CC (index s) (snd (write_surf (three_of o w) (pln_tol o) s)) IN).
    rewrite <- CO in CC. apply bool_iff. exact CC. }
  rewrite OC. clear - T REG D0.
  assert (Q : forall cs cs', Forall2 (twin F) cs cs' -> (forall c, In c cs -> In c (cells st0)) ->
    Forall2 (same_ocell st0 out) (flat_map (cells_of o w) cs) (flat_map (cells_of o w) cs')).
  { induction 1 as [|c c' cs cs' TW F2 IH]; intros SUB; [constructor|]. cbn [flat_map].
    assert (IC : In c (cells st0)) by (apply SUB; left; auto).
    apply Forall2_app; [|apply IH; intros; apply SUB; right; auto].
    destruct (has_id c) eqn:ID.
    - exact (plain_one st0 out F o w c c' (REG c IC ID) (fun _ => proj1 (D0 c IC ID)) TW).
    - destruct TW as (([Li Ll Lm Lv Ls] & _) & IN & CM). destruct w; cbn [cells_of]; unfold mcnp_cell, openmc_cell, serpent_cell, phits_cell, is_graveyard; rewrite Li, ID, ?IN, ?CM;
        [| |..]; try (destruct (String.eqb (info c) "Graveyard")); repeat constructor; cbn; auto. }
  apply Q; auto.
Qed.
