(** C23: numbering of the cells. *)
From Coq Require Import Permutation.
From Verif Require Import Prelude Enclosures EnclSpec Numbering NumberingProofs.

(** ** Without sort_enclosure: labels are consecutive from startCell, nothing is lost
    or duplicated, the order is kept. *)
Theorem C23_plain : forall s metas voids out, number_plain s metas voids = Ok out ->
  cells out = filter kept metas ++ filter written voids /\
  nums out = zseq s (length (filter kept metas ++ filter written voids)).
Proof.
  intros s metas voids out H. unfold number_plain in H. destruct (number_solids (s - 1) [(0, 0)] metas) as [o [n d]] eqn:E. inv_bind. injection H as <-.
  destruct (number_solids_spec _ _ _ _ _ _ E) as (A & B & C & D). destruct (number_voids_spec _ _ _ _ Ha) as (A' & B' & _).
  rewrite cells_app, nums_app. cbn [cells nums flat_map app]. fold (cells a) (nums a). rewrite A, A'. split; auto.
  rewrite B, B', app_length, zseq_app, A, A'. replace (s - 1 + 1) with s by lia. f_equal. f_equal. rewrite C, A. lia.
Qed.
(** It succeeds iff every cell named in a void comment has a label ... *)
Theorem C23_plain_succeeds_iff : forall s metas voids,
  (exists out, number_plain s metas voids = Ok out) <->
  (forall v ids i, In v voids -> null v = false -> cin v = Some ids -> In i ids ->
     i = 0 \/ exists m, In m metas /\ kept m = true /\ cid m = i).
Proof.
  intros s metas voids. unfold number_plain. destruct (number_solids (s - 1) [(0, 0)] metas) as [o [n d]] eqn:E.
  destruct (number_solids_spec _ _ _ _ _ _ E) as (A & _ & _ & D).
  assert (K : forall i, In i (map fst d) <-> i = 0 \/ exists m, In m metas /\ kept m = true /\ cid m = i).
  { intros i. rewrite D, map_app, in_app_iff, map_rev, <- in_rev, pairs_fst, A. cbn [map fst In]. rewrite in_map_iff. split.
    - intros [(m & <- & I)|[<-|[]]]; auto. apply filter_In in I. right. exists m. tauto.
    - intros [->|(m & I & M & <-)]; auto. left. exists m. split; auto. apply filter_In; auto. }
  assert (G : forall l n, (exists out, number_voids n d l = Ok out) <->
    (forall v ids i, In v l -> null v = false -> cin v = Some ids -> In i ids -> In i (map fst d))).
  { clear. induction l as [|m l IH]; intros n; cbn [number_voids].
    - split; [intros _ ? ? ? []|eauto].
    - destruct (null m) eqn:N.
      + rewrite IH. split; intros H v ids i; [intros [<-|I]; [congruence|eauto]|intros I; apply (H v ids i); simpl; auto].
      + assert (U : (exists c, update_comment d m = Ok c) <-> forall ids i, cin m = Some ids -> In i ids -> In i (map fst d)).
        { unfold update_comment. destruct (cin m) as [ids|]; [|split; [intros _; discriminate|eauto]].
          assert (X : (exists c, mapM (fun i => label_of i d) ids = Ok c) <-> forall i, In i ids -> In i (map fst d)).
          { clear. induction ids as [|i ids IH]; cbn [mapM].
            - split; [intros _ ? []|eauto].
            - split.
              + intros (c & H). inv_bind. injection H as <-. intros j [<-|J]; [apply label_of_in; eauto|apply (proj1 IH); eauto].
              + intros H. destruct (proj2 (label_of_in i d)) as (x & ->); [apply H; simpl; auto|]. cbn [bind].
                destruct (proj2 IH) as (c & ->); [intros; apply H; simpl; auto|]. cbn [bind]. eauto. }
          split.
          - intros (c & H). inv_bind. injection H as <-. intros ids' i [= <-]. apply X; eauto.
          - intros H. destruct (proj2 X) as (c & ->); [intros; eapply H; eauto|]. cbn [bind]. eauto. }
        split.
        * intros (out & H). inv_bind. injection H as <-. intros v ids i [<-|I] NV; [apply (proj1 U); eauto|apply (proj1 (IH (n + 1))); eauto].
        * intros H. destruct (proj2 U) as (c & ->); [intros; apply (H m ids i); simpl; auto|]. cbn [bind].
          destruct (proj2 (IH (n + 1))) as (out & ->); [intros v ids i I; apply (H v ids i); simpl; auto|]. cbn [bind]. eauto. }
  split.
  - intros (out & H). inv_bind. intros v ids i. rewrite <- K. apply (proj1 (G voids n)); eauto.
  - intros H. destruct (proj2 (G voids n)) as (v & ->); [intros v ids i; rewrite K; apply H|]. cbn [bind]. eauto.
Qed.
(** ... and then the comment of a void names the labels of the solids with the ids
    it was made from. *)
Theorem C23_plain_comments : forall s metas voids out v n ids ls,
  number_plain s metas voids = Ok out -> In (Line v n (Some ls)) out -> In v voids -> cin v = Some ids ->
  ~ In v (filter kept metas) ->
  Forall2 (fun i k => i = 0 /\ k = 0 \/ exists m c, In (Line m k c) out /\ In m metas /\ cid m = i) ids ls.
Proof.
  intros s metas voids out v n ids ls H I Iv CV NM. unfold number_plain in H. destruct (number_solids (s - 1) [(0, 0)] metas) as [o [n1 d]] eqn:E. inv_bind. injection H as <-.
  destruct (number_solids_spec _ _ _ _ _ _ E) as (A & B & C & D). destruct (number_voids_spec _ _ _ _ Ha) as (A' & B' & C' & _).
  apply in_app_or in I. destruct I as [I|[I|I]]; [|discriminate|].
  - exfalso. apply NM. rewrite <- A. unfold cells. apply in_flat_map. eexists. split; [exact I|simpl; auto].
  - apply C' in I. unfold update_comment in I. rewrite CV in I. inv_bind. injection I as ->.
    assert (G : Forall2 (fun i k => label_of i d = Ok k) ids ls).
    { clear -Ha0. revert ls Ha0. induction ids as [|i ids IH]; intros ls H; cbn [mapM] in H; [injection H as <-; constructor|].
      inv_bind. injection H as <-. constructor; auto. }
    revert G. clear -D A. intros G. induction G as [|i k ids ls L G IH]; constructor; auto.
    apply label_of_mem in L. rewrite D in L. apply in_app_or in L. destruct L as [L|[L|[]]]; [|injection L as <- <-; auto].
    apply in_rev in L. apply pairs_in in L. destruct L as (c & k' & IL & <-). right. exists c, k'. split; [apply in_or_app; auto|]. split; auto.
    assert (In c (cells o)) as IC by (unfold cells; apply in_flat_map; eexists; split; [exact IL|simpl; auto]).
    rewrite A in IC. apply filter_In in IC. tauto.
Qed.
(** A void next to a solid that became a null cell stops the program. *)
Theorem C23_null_solid_refuted :
  number_plain 1 [Cell 1 false false false 0 None; Cell 2 true false false 0 None]
                 [Cell 3 false false true 0 (Some [1; 2])] = Err KeyError.
Proof. reflexivity. Qed.

Definition sol_ i := Cell i false false false 0 None.
Example C23_plain_example :
  number_plain 10 [sol_ 1; Cell 2 false true false 4 None; sol_ 3; Cell 4 true false false 0 None]
     [Cell 5 false false true 0 (Some [3; 1]); Cell 6 true false true 0 None; Cell 7 false false true 0 None] =
  Ok [Line (sol_ 1) 10 None; Line (sol_ 3) 11 None; Sep;
      Line (Cell 5 false false true 0 (Some [3; 1])) 12 (Some [11; 10]); Line (Cell 7 false false true 0 None) 13 None].
Proof. reflexivity. Qed.

(** ** With sort_enclosure *)
Theorem C23_sorted : forall s metas voids out, number_sorted s metas voids = Ok out ->
  cells out = sorted_cells voids metas ++ filter written (filter (fun v => encid v =? 0) voids) /\
  nums out = zseq s (length (cells out)).
Proof.
  intros s metas voids out H. unfold number_sorted in H. inv_bind. destruct a as [o [n d]]. inv_bind.
  destruct (give_labels n d a) as [o0 [n0 d0]] eqn:E. destruct (sort_metas_spec _ _ _ _ _ _ _ Ha) as (A & B & C & D).
  destruct (give_labels_spec _ _ _ _ _ _ E) as (A0 & B0 & C0 & D0). destruct (add_comments_spec _ _ _ H) as (A1 & B1 & _).
  unfold voids_of in Ha0. assert (a = filter (fun v => encid v =? 0) voids) as ->.
  { destruct (filter (fun v => encid v =? 0) voids); [discriminate|]. injection Ha0 as <-. reflexivity. }
  rewrite A1, B1, cells_app, nums_app. cbn [cells nums flat_map app]. fold (cells o0) (nums o0). rewrite A, A0. split; auto.
  rewrite B, B0, app_length, zseq_app, A, A0. replace (s - 1 + 1) with s by lia. f_equal. f_equal. rewrite C, A. lia.
Qed.

(** Every cell is written exactly once when each void belongs to the universe or to
    an enclosure of the list, and enclosure labels are distinct and not 0. *)
Definition enclosures (metas : list cell) : list cell := filter (fun m => negb (null m) && isenc m) metas.
Theorem C23_sorted_complete : forall s metas voids out, number_sorted s metas voids = Ok out ->
  NoDup (map encid (enclosures metas)) -> ~ In 0 (map encid (enclosures metas)) ->
  (forall v, In v voids -> null v = false -> encid v = 0 \/ In (encid v) (map encid (enclosures metas))) ->
  Permutation (cells out) (filter kept metas ++ filter written voids).
Proof.
  intros s metas voids out H ND NZ HV. rewrite (proj1 (C23_sorted _ _ _ _ H)). clear H s out.
  assert (S1 : forall ms, Permutation (sorted_cells voids ms) (filter kept ms ++
    flat_map (fun k => filter written (filter (fun v => encid v =? k) voids)) (map encid (enclosures ms)))).
  { induction ms as [|m ms IH]; cbn [sorted_cells flat_map filter]; auto. fold (sorted_cells voids ms). unfold kept at 1, enclosures. cbn [filter].
    fold (enclosures ms). destruct (null m), (isenc m); cbn [negb orb andb]; auto.
    - cbn [map flat_map]. rewrite IH, !app_assoc. apply Permutation_app_tail, Permutation_app_comm.
    - cbn [app]. constructor. auto. }
  rewrite S1, <- app_assoc. apply Permutation_app_head. clear S1.
  (* group voids by key *)
  set (ks := map encid (enclosures metas)) in *. clearbody ks. clear metas.
  assert (G : forall vs, (forall v, In v vs -> null v = false -> In (encid v) (ks ++ [0])) ->
    Permutation (flat_map (fun k => filter written (filter (fun v => encid v =? k) vs)) (ks ++ [0])) (filter written vs)).
  { assert (NDK : NoDup (ks ++ [0])) by (apply (Permutation_NoDup (Permutation_cons_append ks 0)); constructor; auto).
    induction vs as [|v vs IH]; intros HH; [clear; induction (ks ++ [0]); cbn in *; auto|].
    cbn [filter]. change (written v) with (negb (null v)). destruct (null v) eqn:NV; cbn [negb].
    - rewrite <- IH; [|intros; apply HH; simpl; auto].
      assert (Eq : forall l, flat_map (fun k => filter written (filter (fun w => encid w =? k) (v :: vs))) l = flat_map (fun k => filter written (filter (fun w => encid w =? k) vs)) l).
      { induction l as [|k l IH']; cbn [flat_map]; auto. rewrite IH'. f_equal. cbn [filter]. destruct (encid v =? k); auto. cbn [filter]. change (written v) with (negb (null v)). rewrite NV. reflexivity. }
      cbn [filter] in Eq. rewrite Eq. auto.
    - rewrite <- IH; [|intros; apply HH; simpl; auto].
      assert (IK : In (encid v) (ks ++ [0])) by (apply HH; simpl; auto). apply in_split in IK. destruct IK as (k1 & k2 & EK). rewrite EK in *.
      apply NoDup_remove_2 in NDK. rewrite in_app_iff in NDK.
      assert (Eq : forall l, ~ In (encid v) l -> flat_map (fun k => filter written (if encid v =? k then v :: filter (fun w => encid w =? k) vs else filter (fun w => encid w =? k) vs)) l = flat_map (fun k => filter written (filter (fun w => encid w =? k) vs)) l).
      { induction l as [|k l IH']; cbn [flat_map]; auto. intros NI. rewrite IH' by (simpl in NI; tauto). f_equal. destruct (Z.eqb_spec (encid v) k) as [<-|]; auto. exfalso. apply NI. simpl; auto. }
      rewrite !flat_map_app. cbn [flat_map]. rewrite !Eq by tauto. rewrite Z.eqb_refl. cbn [filter]. change (written v) with (negb (null v)). rewrite NV. cbn [negb].
      cbn [app]. symmetry. apply Permutation_middle. }
  rewrite <- (G voids).
  - rewrite flat_map_app. cbn [flat_map]. rewrite app_nil_r. auto.
  - intros v I N. apply in_or_app. destruct (HV v I N) as [->|]; simpl; auto.
Qed.
(** When no id is used twice, the comments name the labels of the right cells. *)
Theorem C23_sorted_comments : forall s metas voids out v n ids ls,
  number_sorted s metas voids = Ok out -> NoDup (map cid (cells out)) -> ~ In 0 (map cid (cells out)) ->
  In (Line v n (Some ls)) out -> cin v = Some ids ->
  forall i k, In (i, k) (combine ids ls) -> i = 0 /\ k = 0 \/ exists m, In m (cells out) /\ cid m = i /\
    forall m' k' c, In (Line m' k' c) out -> cid m' = i -> m' = m /\ k' = k.
Proof.
  intros s metas voids out v n ids ls H ND NZ I CV i k IK. unfold number_sorted in H. inv_bind. destruct a as [o [n1 d]]. inv_bind.
  destruct (give_labels n1 d a) as [o0 [n0 d0]] eqn:E. destruct (sort_metas_spec _ _ _ _ _ _ _ Ha) as (_ & _ & _ & D).
  destruct (give_labels_spec _ _ _ _ _ _ E) as (_ & _ & _ & D0). destruct (add_comments_spec _ _ _ H) as (A1 & _ & C1).
  apply C1 in I. destruct (isvoid v && negb (isenc v)); [|discriminate]. unfold update_comment in I. rewrite CV in I. inv_bind. injection I as ->.
  assert (L : label_of i d0 = Ok k).
  { clear -Ha1 IK. revert ls Ha1 IK. induction ids as [|j ids IH]; intros ls H IK; cbn [mapM] in H; [destruct IK|]. inv_bind. injection H as <-.
    destruct IK as [X|IK]; [injection X as <- <-; auto|eauto]. }
  assert (P : pairs out = pairs (o ++ Sep :: o0)).
  { clear -H. remember (o ++ Sep :: o0) as l eqn:EL. clear EL. revert out H. induction l as [|[c m k|] l IH]; intros out H; cbn [add_comments] in H.
    - injection H as <-. auto.
    - inv_bind. injection H as <-. cbn. f_equal. apply IH; auto.
    - inv_bind. injection H as <-. cbn. apply IH; auto. }
  assert (DD : d0 = rev (pairs out) ++ [(0, 0)]).
  { rewrite D0, D, P, pairs_app. cbn [pairs flat_map app]. fold (pairs o0). rewrite rev_app_distr, <- app_assoc. reflexivity. }
  apply label_of_mem in L. rewrite DD in L. apply in_app_or in L. destruct L as [L|[L|[]]]; [|injection L as <- <-; auto].
  apply in_rev in L. right. pose proof L as L0. apply pairs_in in L. destruct L as (c & k' & IL & <-). exists c.
  assert (IN : forall m q x, In (Line m q x) out -> In m (cells out)) by (intros m q x X; unfold cells; apply in_flat_map; eexists; split; [exact X|simpl; auto]).
  split; [eauto|]. split; auto. intros m' q x X Q.
  assert (EC : m' = c).
  { pose proof (IN _ _ _ X) as I1. pose proof (IN _ _ _ IL) as I2. clear -ND I1 I2 Q. induction (cells out) as [|y ys IH]; [destruct I1|]. cbn in ND. inversion ND; subst.
    destruct I1 as [->|I1], I2 as [->|I2]; auto; exfalso; apply H1; [rewrite Q|rewrite <- Q]; apply in_map; auto. }
  split; auto. assert (In (cid c, q) (pairs out)) as L1 by (apply pairs_in; eauto).
  assert (NP : NoDup (map fst (pairs out))) by (rewrite pairs_fst; auto).
  pose proof (label_of_val _ _ _ NP L0) as V0. pose proof (label_of_val _ _ _ NP L1) as V1. congruence.
Qed.
(** It stops with KeyError when an enclosure (or the universe) has no void cell: an
    enclosure of type "envelope" never has one, and without void generation there
    are none at all. *)
Theorem C23_sorted_envelope_refuted : forall v0, encid v0 = 0 ->
  number_sorted 1 [sol_ 1; Cell 2 false true false 7 None] [v0] = Err KeyError.
Proof. intros v0 E. unfold number_sorted. cbn [sort_metas null isenc sol_ encid]. unfold voids_of. cbn [filter encid]. rewrite E. reflexivity. Qed.
Theorem C23_sorted_without_voids_refuted : forall s metas, Forall (fun m => null m = true \/ isenc m = false) metas -> number_sorted s metas [] = Err KeyError.
Proof.
  intros s metas H. unfold number_sorted.
  assert (G : forall i d, exists x, sort_metas [] i d metas = Ok x).
  { induction H as [|m l Hm H IH]; intros i d; cbn [sort_metas]; eauto. destruct (null m); auto.
    destruct Hm as [ | ->]; [discriminate|]. destruct (IH (i + 1) ((cid m, i + 1) :: d)) as ([o s'] & ->). cbn [bind]. eauto. }
  destruct (G (s - 1) [(0, 0)]) as ([o [n d]] & ->). reflexivity.
Qed.
(** A null enclosure takes its void cells with it. *)
Theorem C23_sorted_loses_voids_refuted :
  exists out, number_sorted 1 [sol_ 1; Cell 2 true true false 7 None] [Cell 5 false false true 0 None; Cell 6 false false true 7 None] = Ok out /\
    ~ In (Cell 6 false false true 7 None) (cells out).
Proof. eexists. split; [reflexivity|]. cbn. intuition discriminate. Qed.

Example C23_sorted_example :
  let v i e := Cell i false false true e (Some [1; 2]) in
  number_sorted 1 [sol_ 1; Cell 3 false true false 7 None; sol_ 2] [v 11 0; v 12 7; v 13 0] =
  Ok [Line (sol_ 1) 1 None; Sep; Line (v 12 7) 2 (Some [1; 3]); Sep; Line (sol_ 2) 3 None; Sep;
      Line (v 11 0) 4 (Some [1; 3]); Line (v 13 0) 5 (Some [1; 3])].
Proof. reflexivity. Qed.

(** ** Ids of the void cells *)
Lemma renum_ids i e l : map cid (renum i e l) = zseq i (length l).
Proof. revert i. induction l as [|c l IH]; intros i; cbn; auto. f_equal. apply IH. Qed.
Lemma renum_len i e l : length (renum i e l) = length l.
Proof. revert i. induction l as [|c l IH]; intros i; cbn; auto. Qed.
Lemma renum_encl_spec : forall es vl i, (length es <= length vl)%nat -> exists o, renum_encl i es vl = Ok o /\
  map cid o = zseq i (length (concat (firstn (length es) vl))) /\
  map cin o = map cin (concat (firstn (length es) vl)) /\
  map encid o = concat (map (fun p => map (fun _ => eid (fst p)) (snd p)) (combine es vl)).
Proof.
  induction es as [|e es IH]; intros vl i L; cbn [renum_encl].
  - exists []. destruct vl; cbn; auto.
  - destruct vl as [|v vl]; [cbn in L; lia|]. destruct (IH vl (i + Z.of_nat (length v))) as (o & -> & A & B & C); [cbn in L; lia|].
    cbn [bind]. eexists. split; [reflexivity|]. cbn [length firstn concat combine map fst snd]. rewrite !map_app, renum_ids, A, B, C, app_length, zseq_app.
    split; auto. split; f_equal.
    + clear. revert i. induction v; intros; cbn; f_equal; auto.
    + clear. revert i. induction v; intros; cbn; f_equal; auto.
Qed.
(** The void cells get the numbers after [init], one each, all are kept, and those
    of the universe and the graveyard carry enclosure 0, the others the label of
    their enclosure. *)
Theorem C23_void_ids : forall init v0 vs gy levels,
  let es := filter (fun e => negb (envel e)) (concat levels) in
  length vs = length es ->
  exists out, update_void_list init (v0 :: vs ++ [gy]) levels = Ok out /\
    map cid out = zseq (init + 1) (length (v0 ++ concat vs ++ gy)) /\
    map cin out = map cin (v0 ++ concat vs ++ gy) /\
    map encid out = map (fun _ => 0) v0 ++ concat (map (fun p => map (fun _ => eid (fst p)) (snd p)) (combine es vs)) ++ map (fun _ => 0) gy.
Proof.
  intros init v0 vs gy levels es L. unfold update_void_list.
  destruct (renum_encl_spec es (vs ++ [gy]) (init + 1 + Z.of_nat (length v0))) as (o & E & A & B & C); [rewrite app_length; lia|].
  fold es. rewrite E. cbn [bind]. eexists. split; [reflexivity|].
  assert (F : firstn (length es) (vs ++ [gy]) = vs) by (rewrite <- L, firstn_app, Nat.sub_diag, firstn_all; cbn; apply app_nil_r).
  rewrite F in *. assert (LA : last (v0 :: vs ++ [gy]) [] = gy) by (rewrite app_comm_cons; apply last_last). rewrite LA.
  assert (CB : combine es (vs ++ [gy]) = combine es vs).
  { clear -L. revert vs L. induction es as [|e es IH]; intros [|v vs] L; cbn in *; try lia; auto. f_equal. apply IH. lia. }
  rewrite CB in C. assert (LO : length o = length (concat vs)) by (rewrite <- (map_length cid), A, zseq_length; auto).
  assert (RI : forall i e l, map cin (renum i e l) = map cin l) by (clear; intros i e l; revert i; induction l; intros; cbn; f_equal; auto).
  assert (RE : forall i e l, map encid (renum i e l) = map (fun _ => e) l) by (clear; intros i e l; revert i; induction l; intros; cbn; f_equal; auto).
  rewrite !map_app, !renum_ids, A, !RI, !RE, B, C, LO, !app_length, !zseq_app. auto.
Qed.

(** The first void id is chosen as if the enclosures had been taken out of the list
    of solids (remove_enclosure is commented out in load_step.py 213): without
    enclosures the ids are new, with them they repeat ids of solids. *)
Theorem C23_void_ids_fresh : forall metas v0 gy out,
  map cid metas = zseq 1 (length metas) ->
  update_void_list (void_init metas 0) [v0; gy] [] = Ok out ->
  NoDup (map cid metas ++ map cid out).
Proof.
  intros metas v0 gy out M H. destruct (C23_void_ids (void_init metas 0) v0 [] gy [] eq_refl) as (out' & E & A & _).
  cbn [app] in E. rewrite E in H. injection H as ->. rewrite A. cbn [concat app].
  assert (V : void_init metas 0 = Z.of_nat (length metas)).
  { unfold void_init. destruct (rev metas) as [|m r] eqn:R.
    - apply (f_equal (@length _)) in R. rewrite rev_length in R. rewrite R. reflexivity.
    - assert (metas = rev r ++ [m]) as EM by (rewrite <- (rev_involutive metas), R; reflexivity).
      rewrite EM in M. rewrite map_app, app_length, zseq_app in M. cbn [map app zseq length] in M. apply app_inj_tail in M. destruct M as (_ & M).
      rewrite EM, app_length. cbn [length]. rewrite M. rewrite Z.sub_0_r. lia. }
  rewrite V, M. replace (Z.of_nat (length metas) + 1) with (1 + Z.of_nat (length metas)) by lia. rewrite <- zseq_app.
  apply zseq_nodup.
Qed.
(** Two solids, one enclosure: the first void gets the id of the enclosure, but with
    the enclosure first in the list, that of a solid, and the comment of the void
    next to that solid names the void itself. *)
Theorem C23_void_ids_collide_refuted :
  let metas := [Cell 1 false true false 7 None; sol_ 2; sol_ 3] in
  let v l := Cell 0 false false true 0 l in
  exists vl out,
    update_void_list (void_init metas 1) [[v (Some [2; 3])]; [v (Some [3])]; [v None; v None]] [[Encl 7 0 false 0]; []] = Ok vl /\
    map cid vl = [3; 4; 5; 6] /\
    number_sorted 1 metas vl = Ok out /\
    In (Line (sol_ 3) 3 None) out /\ In (Line (Cell 3 false false true 0 (Some [2; 3])) 4 (Some [2; 4])) out.
Proof.
  intros metas v. eexists. eexists. split; [reflexivity|]. split; [reflexivity|]. split; [reflexivity|]. cbn. auto 10.
Qed.

Print Assumptions C23_plain.
Print Assumptions C23_plain_succeeds_iff.
Print Assumptions C23_sorted_complete.
Print Assumptions C23_sorted_comments.
Print Assumptions C23_void_ids.
