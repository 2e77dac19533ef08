(** Histories of writers. *)
From Coq Require Import String Sorted FunctionalExtensionality.
From Verif Require Import Prelude BoolSpec BoolSeq BoolProofs BoolProofs2 BoolEdit BoolEditProofs SurfDict SurfDictProofs
  Vec3 Geom GeomSpec GeomProofs Export ExportSpec ExportProofs ExportProofs2.
Open Scope Z_scope.

Definition three_of (o : opts) (w : code) : bool := match w with OPENMC => false | _ => prnt3 o end.

Definition rel (F : list Z) (c c' : cell) : Prop :=
  like c c' /\ (is_graveyard c' = true -> is_graveyard c = true) /\
  (has_id c = true -> defok (def c) -> defok (def c') /\ (forall v, eval (flips F v) (def c') = eval v (def c)) /\ headed F (def c) (def c')).
Lemma flipped_rel F c c' : flipped F c c' -> rel F c c'.
Proof. intros (A & B & C & D & E). split; auto. split; auto. unfold is_graveyard. rewrite B. auto. Qed.
Lemma rel_refl c : rel [] c c. Proof. apply flipped_rel, flipped_refl. Qed.
Lemma rel_trans F G a b c : rel F a b -> rel G b c -> rel (F ++ G) a c.
Proof.
  intros (L1 & G1 & E1) (L2 & G2 & E2). split; [eapply like_trans; eauto|]. split; auto.
  intros H D. destruct (E1 H D) as (D1 & V1 & K1). rewrite <- (lk_id _ _ L1) in H. destruct (E2 H D1) as (D2 & V2 & K2).
  split; auto. split; [|eapply headed_trans; eauto]. intros v. rewrite flips_app, <- V1. apply V2.
Qed.

Definition keeps_defs (o : opts) (w : code) : Prop := w = PHITS -> uni_void o = false.

Definition cells_of (o : opts) (w : code) (c : cell) : list ocell :=
  match w with
  | MCNP => [mcnp_cell c]
  | OPENMC => openmc_cell c
  | SERPENT => serpent_cell (ucard o) c
  | PHITS => snd (phits_cell c)
  end.

Lemma phits_rel c : rel [] c (fst (phits_cell c)).
Proof.
  unfold phits_cell. destruct (has_id c) eqn:ID; [|apply rel_refl]. cbn [fst].
  destruct (mat c =? 0); [|apply rel_refl]. destruct (is_graveyard c) eqn:G; [|destruct (String.eqb (info c) "Graveyard_in"); [|apply rel_refl]];
    (split; [constructor; reflexivity|split; [cbn; discriminate|intros _ D; split; [exact D|split; [auto|apply headed_refl, D]]]]).
Qed.

Lemma flat_map_map {A B C} (f : A -> B) (g : B -> list C) l : flat_map g (map f l) = flat_map (fun a => g (f a)) l.
Proof. induction l; simpl; congruence. Qed.
Lemma map_flat_one {A B} (f : A -> B) l : map f l = flat_map (fun a => [f a]) l.
Proof. induction l; simpl; congruence. Qed.

Lemma write_one_spec o w st out st' : keeps_defs o w -> good (surfaces st) -> write_one o w st = Ok (out, st') ->
  exists st1 l, simplify_planes (three_of o w) st = Ok st1 /\ surfaces st' = surfaces st1 /\
    Forall2 (rel []) (cells st1) (cells st') /\ o_cells out = flat_map (cells_of o w) (cells st1) /\
    sorted_surfaces (surfaces st1) = Ok l /\ o_surfs out = map (write_surf (three_of o w) (pln_tol o)) l.
Proof.
  intros K G H. unfold write_one in H. destruct (match w with OPENMC => Ok tt | _ => _ end) as [u|e|] eqn:E0; try discriminate.
  cbn [bind] in H. fold (three_of o w) in H.
  destruct (simplify_planes (three_of o w) st) as [st1|e|] eqn:E1; try discriminate. cbn [bind] in H.
  destruct (sorted_surfaces (surfaces st1)) as [l|e|] eqn:E2; try discriminate. cbn [bind] in H.
  exists st1, l. split; auto. destruct w.
  - inv H. split; auto. split; [apply F2_refl, rel_refl|]. split; [apply map_flat_one|auto].
  - inv H. split; auto. split; [apply F2_refl, rel_refl|]. auto.
  - inv H. split; auto. split; [apply F2_refl, rel_refl|]. auto.
  - rewrite (K eq_refl) in H. cbn [bind] in H. inv H. cbn [surfaces cells o_cells o_surfs]. split; auto. split.
    + rewrite map_map. clear. induction (cells st1); simpl; constructor; auto using phits_rel.
    + split; [rewrite flat_map_map; reflexivity|auto].
Qed.

(** ** The invariant of a history *)
Record SInv (tol : R) (p3 : bool) (st0 st : state) (b : bool) : Prop := {
  si_good : good (surfaces st);
  si_aligned : aligned tol (surfaces st);
  si_points : p3 = true -> points_ok (surfaces st);
  si_PP : group (surfaces st) PP = group (surfaces st0) PP;
  si_reg : forall i, (exists k s, In s (group (surfaces st) k) /\ index s = i) <-> (exists k s, In s (group (surfaces st0) k) /\ index s = i);
  si_off : forall x, off_planes x (surfaces st0) -> off_planes x (surfaces st);
  si_sem : exists F, Forall2 (rel F) (cells st0) (cells st) /\
    forall other x v0, off_planes x (surfaces st0) -> cad_sides other x (surfaces st0) v0 ->
      exists v, cad_sides other x (surfaces st) v /\
        forall j, flips F v0 j = (if b then flips (opps (group (surfaces st0) PP)) v else v) j }.

Lemma sinv_init tol p3 st : good (surfaces st) -> aligned tol (surfaces st) -> (p3 = true -> points_ok (surfaces st)) ->
  SInv tol p3 st st false.
Proof.
  intros. constructor; auto; try tauto. exists []. split; [apply F2_refl, rel_refl|]. intros other x v0 OFF C. exists v0. auto.
Qed.

Lemma flips_comm A B v j : NoDup A -> NoDup B -> flips A (flips B v) j = flips B (flips A v) j.
Proof.
  intros NA NB. rewrite !flips_spec by auto.
  destruct (in_dec Z.eq_dec j A), (in_dec Z.eq_dec j B); auto.
Qed.
Lemma sinv_simplify tol p3 three st0 st b st1 : (three = true -> p3 = true) -> good (surfaces st0) -> SInv tol p3 st0 st b -> simplify_planes three st = Ok st1 ->
  SInv tol p3 st0 st1 (xorb b three) /\ normalised (surfaces st1).
Proof.
  intros TP G0 I E. pose proof (si_good _ _ _ _ _ I) as G. pose proof (si_aligned _ _ _ _ _ I) as A.
  destruct (simplify_spec three st st1 (fun k s => good_pos _ k s G) E) as (F1 & O & ID & N & LA & GR).
  pose proof (aligned_step _ _ _ A GR) as A1. split; [|eapply norm_normalised; eauto].
  constructor; auto.
  - eapply normalised_good; eauto.
  - intros P. exact (points_step _ _ _ A (si_points _ _ _ _ _ I P) GR).
  - rewrite GR. simpl. rewrite map_id. eapply si_PP; eauto.
  - intros i. rewrite <- (si_reg _ _ _ _ _ I). split; intros (k & s & H & <-).
    + rewrite GR in H. apply in_map_iff in H. destruct H as (s0 & <- & H). rewrite norm_index. eauto.
    + exists k, (norm_key k s). rewrite GR, norm_index. split; auto. apply in_map; auto.
  - intros x OFF. exact (off_step _ _ _ _ A (si_off _ _ _ _ _ I x OFF) GR).
  - destruct (si_sem _ _ _ _ _ I) as (F & F0 & S). exists (F ++ all_flips three (surfaces st)). split.
    + eapply F2_trans; [apply rel_trans|exact F0|]. eapply F2_impl; [|exact F1]. intros; apply flipped_rel; auto.
    + intros other x v0 OFF C. destruct (S other x v0 OFF C) as (v & CV & EV). exists (flips (axis_flips (surfaces st)) v).
      split; [eapply step_cad; eauto; eapply si_off; eauto|]. intros j.
      pose proof (axis_nodup _ G) as NA. pose proof (opps_nodup _ G0) as NO.
      rewrite flips_app. unfold all_flips. rewrite flips_app. rewrite (si_PP _ _ _ _ _ I).
      set (OP := opps (group (surfaces st0) PP)) in *. set (AX := axis_flips (surfaces st)) in *.
      assert (Q : flips AX (flips F v0) j = flips AX (if b then flips OP v else v) j) by (apply flips_ext; auto).
      destruct three, b; cbn [xorb flips fold_left] in *.
      * rewrite <- (flips_twice OP (flips AX v) j) by auto. apply flips_ext; auto. rewrite Q. apply flips_comm; auto.
      * apply flips_ext; auto.
      * change (flips AX (flips F v0) j = flips OP (flips AX v) j). rewrite Q. apply flips_comm; auto.
      * exact Q.
Qed.

Lemma sinv_cells tol p3 st0 st st' b : SInv tol p3 st0 st b -> surfaces st' = surfaces st -> Forall2 (rel []) (cells st) (cells st') ->
  SInv tol p3 st0 st' b.
Proof.
  intros I E R. destruct I. constructor; rewrite ?E; auto. destruct si_sem0 as (F & F0 & S). exists F. split; auto.
  replace F with (F ++ []) by apply app_nil_r. eapply F2_trans; [apply rel_trans|exact F0|exact R].
Qed.

Definition parity (o : opts) (ws : list code) : bool := fold_left (fun b w => xorb b (three_of o w)) ws false.
Lemma parity_app o ws : forall b, fold_left (fun b w => xorb b (three_of o w)) ws b = xorb b (parity o ws).
Proof.
  unfold parity. induction ws as [|w ws IH]; intros b; cbn [fold_left]; [rewrite xorb_false_r; auto|].
  rewrite IH. rewrite (IH (xorb false (three_of o w))). rewrite xorb_false_l, xorb_assoc_reverse. auto.
Qed.
Lemma sinv_writers o st0 : forall ws st st' b, Forall (keeps_defs o) ws -> good (surfaces st0) -> SInv (pln_tol o) (prnt3 o) st0 st b ->
  writers o ws st = Ok st' -> SInv (pln_tol o) (prnt3 o) st0 st' (xorb b (parity o ws)).
Proof.
  induction ws as [|w ws IH]; intros st st' b K G0 I H; cbn [writers] in H.
  - inv H. cbn. rewrite xorb_false_r. auto.
  - inversion K; subst. destruct (write_one o w st) as [[out st1]|e|] eqn:E; try discriminate. cbn [bind] in H.
    destruct (write_one_spec _ _ _ _ _ H2 (si_good _ _ _ _ _ I) E) as (st2 & l & E2 & ES & R & _).
    assert (TP : three_of o w = true -> prnt3 o = true) by (destruct w; simpl; congruence).
    destruct (sinv_simplify _ _ _ _ _ _ _ TP G0 I E2) as (I2 & _).
    pose proof (sinv_cells _ _ _ _ _ _ I2 ES R) as I1. apply (IH _ _ _ H3 G0 I1) in H.
    replace (parity o (w :: ws)) with (xorb (three_of o w) (parity o ws)); [rewrite <- xorb_assoc; exact H|].
    unfold parity at 2. cbn [fold_left]. rewrite parity_app, xorb_false_l. reflexivity.
Qed.

(** ** What a file says *)
Lemma F2_in_r {A B} (P : A -> B -> Prop) l m b : Forall2 P l m -> In b m -> exists a, In a l /\ P a b.
Proof. induction 1; simpl; intros []; subst; eauto. destruct IHForall2 as (z & ? & ?); eauto. Qed.
Lemma F2_in_l {A B} (P : A -> B -> Prop) l m a : Forall2 P l m -> In a l -> exists b, In b m /\ P a b.
Proof. induction 1; simpl; intros []; subst; eauto. destruct IHForall2 as (z & ? & ?); eauto. Qed.

Lemma cells_of_in o w c lab m g n ex cm inf : In (OCell lab m g n ex cm inf) (cells_of o w c) ->
  has_id c = true /\ lab = label c /\ m = mat c /\ n = def c /\ ex = [].
Proof.
  destruct w; simpl.
  - unfold mcnp_cell. destruct (has_id c); intros [H|[]]; inversion H; auto.
  - unfold openmc_cell. destruct (is_graveyard c); [intros []|]. destruct (has_id c); intros []; [|contradiction]. inversion H; auto.
  - unfold serpent_cell. destruct (has_id c); [|intros [H|[]]; discriminate].
    destruct (ucard o); simpl; intros H; repeat (destruct H as [H|H]); try contradiction; inversion H; auto.
  - unfold phits_cell. destruct (has_id c); [|intros [H|[]]; discriminate]. cbn [snd].
    intros [H|[]]. inversion H. repeat split; auto.
    destruct (mat c =? 0); auto. destruct (is_graveyard c); auto. destruct (String.eqb (info c) "Graveyard_in"); auto.
Qed.
Lemma cells_of_ex o w c : has_id c = true -> (w = OPENMC -> is_graveyard c = false) ->
  exists g cm inf, In (OCell (label c) (mat c) g (def c) [] cm inf) (cells_of o w c).
Proof.
  intros ID G. destruct w; simpl.
  - unfold mcnp_cell. rewrite ID. do 3 eexists. left; reflexivity.
  - unfold openmc_cell. rewrite ID, G by auto. do 3 eexists. left; reflexivity.
  - unfold serpent_cell. rewrite ID. destruct (ucard o); do 3 eexists; left; reflexivity.
  - unfold phits_cell. rewrite ID. cbn [snd]. do 3 eexists. left.
    f_equal. destruct (mat c =? 0); auto. destruct (is_graveyard c); auto. destruct (String.eqb (info c) "Graveyard_in"); auto.
Qed.

Lemma bool_iff (a b : bool) : (a = true <-> b = true) -> a = b.
Proof. destruct a, b; intuition congruence. Qed.

Theorem export_regions o w ws st0 st out st' :
  good (surfaces st0) -> aligned (pln_tol o) (surfaces st0) -> (prnt3 o = true -> points_ok (surfaces st0)) ->
  (forall c, In c (cells st0) -> has_id c = true -> defok (def c) /\ registered_def (surfaces st0) (def c)) ->
  Forall (keeps_defs o) ws -> keeps_defs o w -> parity o ws = false ->
  writers o ws st0 = Ok st -> write_one o w st = Ok (out, st') ->
  (forall lab m g n ex cm inf, In (OCell lab m g n ex cm inf) (o_cells out) -> ex = [] /\
     exists c, In c (cells st0) /\ has_id c = true /\ label c = lab /\ mat c = m /\ same_region st0 out (def c) n) /\
  (forall c, In c (cells st0) -> has_id c = true -> (w = OPENMC -> is_graveyard c = false) ->
     exists g n cm inf, In (OCell (label c) (mat c) g n [] cm inf) (o_cells out) /\ same_region st0 out (def c) n).
Proof.
  intros G0 A0 P0 D0 KS K PAR HW H1.
  pose proof (sinv_writers o st0 ws st0 st false KS G0 (sinv_init _ _ _ G0 A0 P0) HW) as I. rewrite PAR in I. cbn [xorb] in I.
  destruct (write_one_spec _ _ _ _ _ K (si_good _ _ _ _ _ I) H1) as (st1 & l & E1 & ES & R & OC & SL & OS).
  assert (TP : three_of o w = true -> prnt3 o = true) by (destruct w; simpl; congruence).
  destruct (sinv_simplify _ _ _ _ _ _ _ TP G0 I E1) as (I1 & NM). rewrite xorb_false_l in I1.
  destruct (si_sem _ _ _ _ _ I1) as (F & F0 & S).
  assert (REG : forall c c', In c (cells st0) -> has_id c = true -> rel F c c' -> same_region st0 out (def c) (def c')).
  { intros c c' IC ID (LK & _ & EV). destruct (D0 c IC ID) as (DO & RD). destruct (EV ID DO) as (_ & V & _).
    intros other x v0 v1 OFF CV CC. destruct (S other x v0 OFF CV) as (v & C1 & EF).
    rewrite <- (V v0). apply eval_ext_surfs. intros i Hi. rewrite (lk_surfs _ _ LK) in Hi.
    assert (RG : exists k s, In s (group (surfaces st1) k) /\ index s = i) by (apply (si_reg _ _ _ _ _ I1); apply surfs_spec in Hi; destruct Hi as (z & Hz & <-); apply RD, Hz).
    destruct RG as (k & s & HS & <-). rewrite EF.
    assert (CO := cards_correct (three_of o w) other (pln_tol o) x (surfaces st1) v _ (si_good _ _ _ _ _ I1) (si_aligned _ _ _ _ _ I1) NM
      (si_off _ _ _ _ _ I1 x OFF) (fun q => si_points _ _ _ _ _ I1 (TP q)) C1 eq_refl k s HS).
    rewrite (si_PP _ _ _ _ _ I1) in CO.
    assert (IN : In (write_surf (three_of o w) (pln_tol o) s) (o_surfs out)).
    { rewrite OS. apply in_map. destruct (good_sorted _ (si_good _ _ _ _ _ I1)) as (l' & SL' & M). assert (l' = l) as -> by congruence. apply M. eauto. }
    specialize (CC (index s) (snd (write_surf (three_of o w) (pln_tol o) s)) IN).
    rewrite <- CO in CC. apply bool_iff. exact CC. }
  split.
  - intros lab m g n ex cm inf IN. rewrite OC in IN. apply in_flat_map in IN. destruct IN as (c' & IC & IN).
    apply cells_of_in in IN. destruct IN as (ID & -> & -> & -> & ->). split; auto.
    destruct (F2_in_r _ _ _ _ F0 IC) as (c & IC0 & RE). pose proof RE as ([Li Ll Lm Lv Ls] & _). exists c. split; auto.
    split; [congruence|]. split; auto. split; auto. apply REG; auto. congruence.
  - intros c IC ID GV. destruct (F2_in_l _ _ _ _ F0 IC) as (c' & IC' & RE). pose proof RE as ([Li Ll Lm Lv Ls] & GV' & _).
    destruct (cells_of_ex o w c') as (g & cm & inf & IN); [congruence| |].
    + intros W. specialize (GV W). destruct (is_graveyard c'); auto. rewrite GV' in GV; auto.
    + exists g, (def c'), cm, inf. rewrite <- Ll, <- Lm. split; [|apply REG; auto]. rewrite OC. apply in_flat_map. eauto.
Qed.
