(** C26, C34, C35, C44, C45: loading CAD files. *)
From Coq Require Import Ascii String.
From Verif Require Import Prelude CellText Loading NumberingProofs LoadingProofs.

(** * C44: loading one file *)
(** Whatever the tree, no CAD solid is lost, duplicated or reordered (solids with
    splines are dropped when asked for). *)
Theorem C44_no_solid_lost : forall comp loop spline solids es out,
  load_cad comp loop spline solids es = Ok out ->
  flat_map solids_of out = filter (fun s => negb (spline s && loop)) solids.
Proof.
  intros comp loop spline solids es out H. unfold load_cad in H. inv_bind. unfold joinEnvelopes in H.
  rewrite (fuse_groups_flat _ _ _ _ (env_groups_le _ _ _ (0, 0)%nat ltac:(cbn; lia) ltac:(cbn; lia)) H), (load_loop_flat _ _ _ _ _ _ Ha). apply initial_flat.
Qed.
Example C44_no_solid_lost_example : exists out,
  load_cad false true (Z.eqb 12) [10; 11; 12; 13] [Elem 0 1 None None; Elem 1 3 (Some (1, 0)) None] = Ok out /\ flat_map solids_of out = [10; 11; 13].
Proof. eexists. split; reflexivity. Qed.

(** When the tree describes all the solids and there is no envelope, loading succeeds
    and each solid gets the attributes of the element it belongs to. *)
Theorem C44_attributes : forall comp loop spline solids es,
  total es = List.length solids -> Forall (fun e => envel_label e = None) es ->
  exists out, load_cad comp loop spline solids es = Ok out /\
    tagged out = filter (fun p => kept_solid spline loop (fst p))
                   (combine solids (flat_map (fun e => repeat (Some (en e)) (nsol e)) es)).
Proof.
  intros comp loop spline solids es T NE. unfold load_cad.
  pose proof (load_loop_spec comp es (List.length solids) [] (initial loop spline 0 solids)) as L. cbn [List.length app] in L.
  rewrite initial_length in L. rewrite L by lia. cbn [bind]. unfold joinEnvelopes.
  assert (NV : forall es fresh i ms, Forall (fun e => envel_label e = None) es -> Forall (fun m => envelope m = false) ms ->
            Forall (fun m => envelope m = false) (expected comp fresh es i ms)).
  { clear. induction es as [|e es IH]; intros fresh i ms NE F; cbn [expected]; auto. inversion NE; subst.
    assert (SK : Forall (fun m => envelope m = false) (skipn (nsol e) ms)).
    { rewrite <- (firstn_skipn (nsol e) ms) in F. now apply Forall_app in F as [_ F]. }
    assert (FI : Forall (fun m => envelope m = false) (firstn (nsol e) ms)).
    { rewrite <- (firstn_skipn (nsol e) ms) in F. now apply Forall_app in F as [F _]. }
    assert (SI : forall m, envelope m = false -> envelope (set_info e m) = false).
    { intros m M. unfold set_info. rewrite H1. destruct (encl_label e); cbn; auto. }
    destruct (Nat.eqb (nsol e) 0); [auto|]. destruct (fused comp e).
    - destruct ms as [|m ms]; [constructor|]. inversion F; subst. constructor; auto. apply SI. destruct (Nat.eqb (nsol e) 1); cbn; auto.
    - apply Forall_app. split; [|auto]. rewrite Forall_map. eapply Forall_impl; [|exact FI]. cbn. auto. }
  rewrite env_groups_none.
  - eexists. split; [reflexivity|]. rewrite expected_tagged by (rewrite initial_length; lia). apply assign_initial. auto.
  - apply NV; auto. clear. generalize 0%nat. induction solids; intros n; cbn; constructor; auto.
Qed.
Example C44_attributes_example : exists out,
  load_cad false false (fun _ => false) [10; 11; 12; 13; 14] [Elem 7 2 None None; Elem 8 2 (Some (1, 0)) None; Elem 9 1 None None] = Ok out /\
  tagged out = [(10, Some 7%nat); (11, Some 7%nat); (12, Some 8%nat); (13, Some 8%nat); (14, Some 9%nat)] /\ List.length out = 4%nat.
Proof. eexists. split; [reflexivity|]. split; reflexivity. Qed.

(** no envelope appears when no element is labelled so *)
Lemma no_env_expected comp : forall es fresh i ms, Forall (fun e => envel_label e = None) es -> Forall (fun m => envelope m = false) ms ->
            Forall (fun m => envelope m = false) (expected comp fresh es i ms).
Proof.
  induction es as [|e es IH]; intros fresh i ms NE F; cbn [expected]; auto. inversion NE; subst.
    assert (SK : Forall (fun m => envelope m = false) (skipn (nsol e) ms)).
    { rewrite <- (firstn_skipn (nsol e) ms) in F. now apply Forall_app in F as [_ F]. }
    assert (FI : Forall (fun m => envelope m = false) (firstn (nsol e) ms)).
    { rewrite <- (firstn_skipn (nsol e) ms) in F. now apply Forall_app in F as [F _]. }
    assert (SI : forall m, envelope m = false -> envelope (set_info e m) = false).
    { intros m M. unfold set_info. rewrite H1. destruct (encl_label e); cbn; auto. }
    destruct (Nat.eqb (nsol e) 0); [auto|]. destruct (fused comp e).
    - destruct ms as [|m ms]; [constructor|]. inversion F; subst. constructor; auto. apply SI. destruct (Nat.eqb (nsol e) 1); cbn; auto.
    - apply Forall_app. split; [|auto]. rewrite Forall_map. eapply Forall_impl; [|exact FI]. cbn. auto.
Qed.
(** The cells, one by one: an element marked as enclosure (or any element, with
    compound = True) gives one cell with all its solids and the numbers of its label;
    any other element one cell per solid. *)
Fixpoint cells_of (comp : bool) (keep : Z -> bool) (es : list elem) (solids : list Z) : list (list Z * option (Z * Z) * option nat) :=
  match es with
  | [] => []
  | e :: r =>
      let mine := firstn (nsol e) solids in
      (match mine with
       | [] => []
       | _ => if comp || is_some (encl_label e) then [(filter keep mine, encl_label e, Some (en e))]
              else map (fun s => (filter keep [s], None, Some (en e))) mine
       end) ++ cells_of comp keep r (skipn (nsol e) solids)
  end.
Lemma expected_cells comp loop spline : forall es fresh i j ss, Forall (fun e => envel_label e = None) es -> List.length ss = total es ->
  map (fun m => (solids_of m, encl_ids m, info m)) (expected comp fresh es i (initial loop spline j ss)) = cells_of comp (kept_solid spline loop) es ss.
Proof.
  induction es as [|e es IH]; intros fresh i j ss NE L; cbn [expected cells_of].
  - destruct ss; [reflexivity|discriminate].
  - inversion NE as [|? ? NV NE']; subst. change (total (e :: es)) with (nsol e + total es)%nat in L.
    destruct (Nat.eqb_spec (nsol e) 0) as [Z|Z].
    + rewrite Z. cbn [firstn skipn app]. apply IH; auto. lia.
    + assert (F : List.length (firstn (nsol e) ss) = nsol e) by (rewrite firstn_length; lia).
      assert (R : List.length (skipn (nsol e) ss) = total es) by (rewrite skipn_length; lia).
      set (b := skipn (nsol e) ss) in *. pose proof (firstn_skipn (nsol e) ss) as SP. fold b in SP. set (a := firstn (nsol e) ss) in *. rewrite <- SP. rewrite initial_app.
      replace (skipn (nsol e) (initial loop spline j a ++ initial loop spline (j + List.length a) b)) with (initial loop spline (j + List.length a) b).
      2:{ rewrite skipn_app, initial_length, F, Nat.sub_diag. cbn. rewrite skipn_all2; auto. rewrite initial_length. lia. }
      replace (firstn (nsol e) (initial loop spline j a ++ initial loop spline (j + List.length a) b)) with (initial loop spline j a).
      2:{ rewrite firstn_app, initial_length, F, Nat.sub_diag. cbn. rewrite app_nil_r. rewrite firstn_all2; auto. rewrite initial_length. lia. }
      destruct a as [|s a]; [cbn in F; lia|]. unfold fused. rewrite NV. cbn [is_some]. rewrite orb_false_r.
      destruct (comp || is_some (encl_label e)) eqn:FU.
      * cbn [initial app]. cbn [map]. rewrite IH by auto. cbn [app]. f_equal.
        pose proof (initial_flat loop spline (s :: a) j) as FL. cbn [initial] in FL. rewrite FL.
        change (fun s0 => negb (spline s0 && loop)) with (kept_solid spline loop) in *.
        unfold set_info. rewrite NV. destruct (Nat.eqb_spec (nsol e) 1) as [N1|N1].
        -- assert (a = []) as -> by (destruct a; cbn in F; [auto|lia]). cbn [initial flat_map solids_of sols] in FL. rewrite app_nil_r in FL.
           destruct (encl_label e) as [p|]; cbn [set_id sols encl_ids info solids_of]; unfold solids_of; cbn [sols]; now rewrite <- FL.
        -- destruct (encl_label e) as [p|]; unfold solids_of; cbn [sols encl_ids info]; destruct (filter (kept_solid spline loop) (s :: a)); auto.
      * rewrite map_app, IH by auto. f_equal. clear -FU NV. apply orb_false_iff in FU as [_ FU]. destruct (encl_label e) eqn:EL; [discriminate|].
        generalize (s :: a). intros l. revert j. induction l as [|x l IH]; intros j; cbn [initial map]; auto. rewrite IH. f_equal.
        unfold set_info. rewrite NV, EL. unfold solids_of. cbn [sols encl_ids info filter]. unfold kept_solid. destruct (spline x && loop); reflexivity.
Qed.
Theorem C44_cells : forall comp loop spline solids es out,
  total es = List.length solids -> Forall (fun e => envel_label e = None) es ->
  load_cad comp loop spline solids es = Ok out ->
  map (fun m => (solids_of m, encl_ids m, info m)) out = cells_of comp (fun s => negb (spline s && loop)) es solids.
Proof.
  intros comp loop spline solids es out T NE H. unfold load_cad in H.
  pose proof (load_loop_spec comp es (List.length solids) [] (initial loop spline 0 solids)) as L. cbn [List.length app] in L.
  rewrite initial_length in L. rewrite L in H by lia. cbn [bind] in H. unfold joinEnvelopes in H.
  rewrite env_groups_none in H by (apply no_env_expected; auto; generalize 0%nat; clear; induction solids; intros n; cbn; constructor; auto).
  injection H as <-. apply expected_cells; auto.
Qed.
Example C44_cells_example : cells_of false (fun _ => true) [Elem 7 2 None None; Elem 8 2 (Some (1, 0)) None] [10; 11; 12; 13] =
  [([10], None, Some 7%nat); ([11], None, Some 7%nat); ([12; 13], Some (1, 0), Some 8%nat)].
Proof. reflexivity. Qed.

(** Identifiers 1, 2, 3, ... when all elements are joined, or none *)
Theorem C44_ids : forall comp loop spline solids es out,
  total es = List.length solids -> Forall (fun e => envel_label e = None) es ->
  (comp = true \/ Forall (fun e => encl_label e = None) es \/ Forall (fun e => encl_label e <> None) es) ->
  load_cad comp loop spline solids es = Ok out -> map mid out = zseq 1 (List.length out).
Proof.
  intros comp loop spline solids es out T NE C H. unfold load_cad in H.
  pose proof (load_loop_spec comp es (List.length solids) [] (initial loop spline 0 solids)) as L. cbn [List.length app] in L.
  rewrite initial_length in L. rewrite L in H by lia. cbn [bind] in H. unfold joinEnvelopes in H.
  destruct (C44_attributes comp loop spline solids es T NE) as (out' & H' & _).
  assert (OUT : out = expected comp (List.length solids) es 0 (initial loop spline 0 solids)).
  { unfold load_cad in H'. rewrite L in H' by lia. cbn [bind] in H'. unfold joinEnvelopes in H'.
    rewrite H in H'. clear H'. revert H. rewrite env_groups_none; [intros [= <-]; reflexivity|].
    (* no envelope in the expected list *)
    assert (NV : forall es fresh i ms, Forall (fun e => envel_label e = None) es -> Forall (fun m => envelope m = false) ms ->
            Forall (fun m => envelope m = false) (expected comp fresh es i ms)).
    { clear. induction es as [|e es IH]; intros fresh i ms NE F; cbn [expected]; auto. inversion NE; subst.
      assert (SK : Forall (fun m => envelope m = false) (skipn (nsol e) ms)).
      { rewrite <- (firstn_skipn (nsol e) ms) in F. now apply Forall_app in F as [_ F]. }
      assert (FI : Forall (fun m => envelope m = false) (firstn (nsol e) ms)).
      { rewrite <- (firstn_skipn (nsol e) ms) in F. now apply Forall_app in F as [F _]. }
      assert (SI : forall m, envelope m = false -> envelope (set_info e m) = false).
      { intros m M. unfold set_info. rewrite H1. destruct (encl_label e); cbn; auto. }
      destruct (Nat.eqb (nsol e) 0); [auto|]. destruct (fused comp e).
      - destruct ms as [|m ms]; [constructor|]. inversion F; subst. constructor; auto. apply SI. destruct (Nat.eqb (nsol e) 1); cbn; auto.
      - apply Forall_app. split; [|auto]. rewrite Forall_map. eapply Forall_impl; [|exact FI]. cbn. auto. }
    apply NV; auto. clear. generalize 0%nat. induction solids; intros n; cbn; constructor; auto. }
  subst out. destruct C as [-> | [C|C]].
  - apply (expected_ids_fused true es _ 0); [|rewrite initial_length; auto]. apply Forall_forall. reflexivity.
  - destruct comp.
    + apply (expected_ids_fused true es _ 0); [|rewrite initial_length; auto]. apply Forall_forall. reflexivity.
    + assert (P : map mid (expected false (List.length solids) es 0 (initial loop spline 0 solids)) = zseq 1 (List.length solids)).
      { rewrite expected_ids_plain.
        - apply (initial_ids loop spline solids 0).
        - rewrite Forall_forall in *. intros e I. unfold fused. rewrite (C e I), (NE e I). reflexivity.
        - rewrite initial_length. lia. }
      rewrite P. f_equal. rewrite <- (map_length mid), P, zseq_length. reflexivity.
  - apply (expected_ids_fused comp es _ 0); [|rewrite initial_length; auto]. rewrite Forall_forall in *. intros e I. unfold fused.
    specialize (C e I). destruct (encl_label e); [|congruence]. now rewrite orb_true_r.
Qed.
(** Otherwise two cells of a file can have the same identifier: an enclosure of
    several solids followed by a solid and another enclosure of several solids. *)
Theorem C44_ids_collide_refuted : exists out,
  load_cad false false (fun _ => false) [10; 11; 12; 13; 14]
    [Elem 0 2 (Some (1, 0)) None; Elem 1 1 None None; Elem 2 2 (Some (2, 0)) None] = Ok out /\
  map mid out = [1; 3; 3].
Proof. eexists. split; reflexivity. Qed.

(** Envelopes: consecutive solids of one envelope are joined into one cell. *)
Theorem C44_one_envelope : forall k fresh a m g b,
  Forall (fun m => envelope m = false) a -> Forall (fun m => envelope m = false) b ->
  Forall (fun m => envelope m = true /\ exists p, encl_ids m = Some (k, p)) (m :: g) ->
  exists new, joinEnvelopes fresh (a ++ (m :: g) ++ b) = Ok (a ++ new :: b) /\
    solids_of new = flat_map solids_of (m :: g) /\ encl_ids new = encl_ids m /\ envelope new = true /\
    mid new = Z.of_nat (List.length a) + 1.
Proof.
  intros k fresh a m g b A B G. eexists. split; [apply (one_envelope k); auto|]. inversion G as [|? ? [E _] _]; subst. destruct g as [|m' g].
  - cbn [List.length Nat.eqb set_id encl_ids envelope mid flat_map]. rewrite app_nil_r. auto.
  - cbn [List.length Nat.eqb]. cbn [encl_ids envelope mid]. split; [|auto].
    unfold solids_of at 1. cbn [sols]. now destruct (flat_map solids_of (m :: m' :: g)).
Qed.
(** Two envelopes of several cells: the positions of the second are those before the
    first was joined: the second keeps two cells, or loading fails. *)
Definition four_env : list meta :=
  [Meta 0 1 (Some [10]) (Some (1, 0)) true (Some 0%nat); Meta 1 2 (Some [11]) (Some (1, 0)) true (Some 1%nat);
   Meta 2 3 (Some [12]) (Some (2, 0)) true (Some 2%nat); Meta 3 4 (Some [13]) (Some (2, 0)) true (Some 3%nat)].
Theorem C44_two_envelopes_refuted : exists out,
  joinEnvelopes 9 four_env = Ok out /\ map (fun m => (sols m, encl_ids m)) out =
    [(Some [10; 11], Some (1, 0)); (Some [12], Some (2, 0)); (Some [13], Some (2, 0))].
Proof. eexists. split; reflexivity. Qed.
Theorem C44_two_envelopes_crash_refuted :
  load_cad false false (fun _ => false) [1; 2; 3; 4; 5; 6]
    [Elem 0 1 None (Some (1, 0)); Elem 1 1 None (Some (1, 0)); Elem 2 1 None (Some (1, 0)); Elem 3 1 None (Some (1, 0));
     Elem 4 1 None (Some (2, 0)); Elem 5 1 None (Some (2, 0))] = Err IndexError.
Proof. reflexivity. Qed.
(** An ordinary solid between two cells of one envelope is swallowed by it: its
    material is lost and it becomes part of the envelope. *)
Theorem C44_solid_swallowed_refuted : exists out,
  load_cad false false (fun _ => false) [10; 11; 12] [Elem 0 1 None (Some (1, 0)); Elem 1 1 None None; Elem 2 1 None (Some (1, 0))] = Ok out /\
  map (fun m => (sols m, envelope m, info m)) out = [(Some [10; 11; 12], true, None)].
Proof. eexists. split; reflexivity. Qed.

(** * C26: several files *)
Theorem C26_join_concatenates : forall M Ms st out st', M <> [] -> NoDup (concat (M :: Ms)) ->
  join_meta_lists (M :: Ms) st = Ok (out, st') ->
  out = concat (M :: Ms) /\ (forall o, In o M -> st' o = st o) /\
  map st' (concat Ms) = zseq (st (last M 0%nat) + 1) (List.length (concat Ms)).
Proof.
  intros M Ms st out st' NE ND H. destruct M as [|x M]; [congruence|]. cbn [join_meta_lists] in H. injection H as H.
  destruct (join_rest_spec Ms (x :: M) st out st' NE ND H) as (-> & O & I). cbn [concat] in *. split; auto. split; auto.
  intros o In. apply O. apply nodup_app_inv in ND as (_ & _ & D). auto.
Qed.
Theorem C26_join_unique : forall M Ms st out st', M <> [] -> NoDup (concat (M :: Ms)) ->
  NoDup (map st M) -> Forall (fun o => st o <= st (last M 0%nat)) M ->
  join_meta_lists (M :: Ms) st = Ok (out, st') -> NoDup (map st' out).
Proof.
  intros M Ms st out st' NE ND N1 N2 H. destruct (C26_join_concatenates _ _ _ _ _ NE ND H) as (-> & O & I). cbn [concat]. rewrite map_app, I.
  rewrite (map_ext_in st' st M) by auto.
  assert (G : forall l r : list Z, NoDup l -> NoDup r -> (forall x, In x l -> ~ In x r) -> NoDup (l ++ r)).
  { clear. induction l as [|x l IH]; cbn; auto. intros r A B C. inversion A; subst. constructor; [rewrite in_app_iff; intros [?|?]; [tauto|]; eapply C; eauto|]. apply IH; auto. }
  apply G; auto; [apply zseq_nodup|]. intros x X. rewrite zseq_in. apply in_map_iff in X as (o & <- & X). rewrite Forall_forall in N2. specialize (N2 o X). lia.
Qed.
Example C26_join_example : exists st', join_meta_lists [[0; 1]; []; [2]; [3; 4]]%nat (fun o => Z.of_nat (if Nat.ltb o 2 then o + 1 else o - 1)) =
  Ok ([0; 1; 2; 3; 4]%nat, st') /\ map st' [0; 1; 2; 3; 4]%nat = [1; 2; 3; 4; 5].
Proof. eexists. split; reflexivity. Qed.
(** The two lists of load_step_file when only the first file may have enclosures *)
Theorem C26_files : forall M Ms E Es st, M <> [] -> NoDup (concat (M :: Ms)) -> Forall (fun e => e = []) Es ->
  exists st', join_files (M :: Ms) (E :: Es) st = Ok (concat (M :: Ms), E, st') /\
    (forall o, In o M -> st' o = st o) /\ map st' (concat Ms) = zseq (st (last M 0%nat) + 1) (List.length (concat Ms)).
Proof.
  intros M Ms E Es st NE ND F. unfold join_files.
  assert (X : exists out st1, join_meta_lists (M :: Ms) st = Ok (out, st1)).
  { destruct M as [|x M]; [congruence|]. cbn [join_meta_lists]. destruct (join_rest (x :: M) Ms st). eauto. }
  destruct X as (out & st1 & H). rewrite H. cbn [bind]. destruct (C26_join_concatenates _ _ _ _ _ NE ND H) as (-> & O & I).
  assert (JE : forall Es acc s, Forall (fun e => e = []) Es -> join_rest acc Es s = (acc, s)).
  { clear. induction Es as [|e Es IH]; intros acc s F; auto. inversion F; subst. cbn [join_rest join_one]. rewrite app_nil_r. auto. }
  exists st1. destruct E as [|y E]; cbn [join_meta_lists bind]; [auto|]. rewrite JE by auto. auto.
Qed.
(** When the first file has no solid the solids of all others are lost; when it has no
    enclosure the enclosures of all others are not in the list of enclosures. *)
Theorem C26_first_file_empty_refuted : forall Ms st, join_meta_lists ([] :: Ms) st = Ok ([], st).
Proof. reflexivity. Qed.
Theorem C26_enclosures_of_later_files_lost_refuted : forall M Ms Es st, M <> [] ->
  exists ms st', join_files (M :: Ms) ([] :: Es) st = Ok (ms, [], st').
Proof. intros M Ms Es st NE. unfold join_files. destruct M as [|x M]; [congruence|]. cbn [join_meta_lists]. destruct (join_rest (x :: M) Ms st) as [o s]. cbn. eauto. Qed.
(** When both files have enclosures, those of the second file get the ids of other
    cells: file 1 = enclosure 1, solid 2; file 2 = enclosure (object 2), solid. *)
Theorem C26_enclosure_ids_collide_refuted : exists st',
  join_files [[0; 1]; [2; 3]]%nat [[0]; [2]]%nat (fun o => nth o [1; 2; 1; 2] 0) = Ok ([0; 1; 2; 3], [0; 2], st')%nat /\
  map st' [0; 1; 2; 3]%nat = [1; 2; 2; 4].
Proof. eexists. split; reflexivity. Qed.

(** * C35: skip_solids *)
Theorem C35_skip : forall (A : Type) (skip : list Z) (l : list A), NoDup skip -> Forall (fun i => 0 <= i < Z.of_nat (List.length l)) skip ->
  skip_solids skip l = Ok (keep_at (fun i => negb (existsb (Z.eqb i) skip)) 0 l).
Proof.
  intros A skip l ND F. unfold skip_solids.
  pose proof (del_all_keep l (sort_desc skip) (fun _ => true)) as D. rewrite (keep_at_all l (fun _ => true)) in D by auto. rewrite D.
  - f_equal. apply keep_at_ext. intros j _. cbn [andb]. f_equal. apply eq_true_iff_eq. rewrite !existsb_exists. split; intros (x & I & E); exists x; split; auto; now apply sort_desc_in.
  - now apply sort_desc_desc.
  - rewrite Forall_forall in *. intros d I. apply F. now apply sort_desc_in.
  - auto.
Qed.
Example C35_skip_example : skip_solids [1; 4; 0] [10; 11; 12; 13; 14] = Ok [12; 13].
Proof. reflexivity. Qed.
(** An index given twice also deletes another solid, and negative indices count from
    the end of the list that is left. *)
Theorem C35_duplicate_refuted : skip_solids [1; 1] [10; 11; 12; 13] = Ok [10; 13].
Proof. reflexivity. Qed.
Theorem C35_negative_refuted : skip_solids [-1; -2] [10; 11; 12; 13] = Ok [10; 12].
Proof. reflexivity. Qed.
Theorem C35_out_of_range : forall (A : Type) (l : list A) i, ~ (- Z.of_nat (List.length l) <= i < Z.of_nat (List.length l)) -> skip_solids [i] l = Err IndexError.
Proof.
  intros A l i H. unfold skip_solids. cbn [sort_desc fold_right insert_desc del_all]. unfold py_del.
  replace ((0 <=? i) && (i <? Z.of_nat (List.length l))) with false by lia.
  replace ((i <? 0) && (0 <=? i + Z.of_nat (List.length l))) with false by lia. reflexivity.
Qed.
(** Null cells (dropped splines) are removed, and only these. *)
Theorem C35_null_cells_removed : forall l, NoDup (map ob l) -> drop_null_cells l = filter (fun m => is_some (sols m)) l.
Proof. intros l ND. unfold drop_null_cells. pose proof (drop_null_spec l [] ND) as D. now rewrite !app_nil_r in D. Qed.
Example C35_null_cells_example : map ob (drop_null_cells [Meta 0 1 None None false None; Meta 1 2 None None false None; Meta 2 3 (Some [5]) None false None; Meta 3 4 None None false None]) = [2%nat].
Proof. reflexivity. Qed.

(** * C34: labels *)
(** What the code does: with the option the last word goes, whatever it is. *)
Theorem C34_last_word_always_dropped : forall t ws, layout t ws -> get_label true t = join_words (removelast ws) /\ get_label false t = t.
Proof. intros t ws L. unfold get_label. rewrite (split_layout t ws L). auto. Qed.
Theorem C34_every_label_has_words : forall t, exists ws, layout t ws /\ Forall word ws.
Proof. exact layout_exists. Qed.
(** What its documentation says: only a number is dropped. *)
Definition documented_label (t : chars) (ws : list chars) : chars :=
  match rev ws with w :: r => if forallb is_digit w then join_words (rev r) else t | [] => t end.
Theorem C34_number_dropped : forall t ws w, layout t (ws ++ [w]) -> forallb is_digit w = true -> get_label true t = documented_label t (ws ++ [w]).
Proof.
  intros t ws w L D. rewrite (proj1 (C34_last_word_always_dropped _ _ L)), removelast_last. unfold documented_label. rewrite rev_app_distr. cbn [rev app].
  rewrite D, rev_involutive. reflexivity.
Qed.
Theorem C34_not_a_number_refuted : exists t ws, layout t ws /\ get_label true t = cs "upper" /\ documented_label t ws = cs "upper shield".
Proof.
  exists (cs "upper shield"), [cs "upper"; cs "shield"]. split; [|split; reflexivity].
  change (cs "upper shield") with ([] ++ cs "upper" ++ " "%char :: ([] ++ cs "shield")).
  repeat constructor; discriminate.
Qed.
(** a label of one word disappears, and with it its tags *)
Theorem C34_single_word_refuted : get_label true (cs "m1_steel") = [] /\ element_tag (cs "_m") true (cs "m1_steel") [cs "part"] = None /\
  element_tag (cs "_m") false (cs "m1_steel") [cs "part"] = Some (cs "1").
Proof. repeat split; reflexivity. Qed.
Theorem C34_comment : forall d anc, comment_tree d anc = flat_map (fun l => "/"%char :: get_label d l) (rev anc).
Proof. exact comment_tree_spec. Qed.
Example C34_comment_example : comment_tree false [cs "pipe"; cs "loop"; cs "plant"] = cs "/plant/loop/pipe".
Proof. reflexivity. Qed.

(** * C45: tags *)
(** The tag of an element that is inside a group is the leftmost one of the nearest
    label (the element first, then its ancestors) that has one. *)
Theorem C45_nearest_label : forall p d label anc t, anc <> [] ->
  (element_tag p d label anc = Some t <->
   exists near l far, label :: anc = near ++ l :: far /\ leftmost p ("_"%char :: get_label d l) t /\
     Forall (fun x => forall t', ~ leftmost p ("_"%char :: get_label d x) t') near).
Proof.
  intros p d label anc t NE. unfold element_tag. destruct anc as [|x anc]; [congruence|]. clear NE. generalize (label :: x :: anc). intros L.
  induction L as [|l L IH]; cbn [first_tag].
  - split; [discriminate|]. intros (near & l & far & E & _). destruct near; discriminate.
  - destruct (tag_search p ("_"%char :: get_label d l)) as [t'|] eqn:T.
    + apply tag_search_iff in T. split.
      * intros [= <-]. exists [], l, L. auto.
      * intros (near & l' & far & E & LM & F). destruct near as [|y near]; injection E as <- ->.
        -- f_equal. apply tag_search_iff in T. apply tag_search_iff in LM. congruence.
        -- inversion F; subst. exfalso. eapply H1; eauto.
    + rewrite IH. split; intros (near & l' & far & E & LM & F).
      * exists (l :: near), l', far. rewrite E. split; [auto|]. split; [auto|]. constructor; [|auto]. intros t' X. apply tag_search_iff in X. congruence.
      * destruct near as [|y near]; injection E as <- ->.
        -- apply tag_search_iff in LM. congruence.
        -- exists near, l', far. inversion F; auto.
Qed.
Example C45_example : element_tag (cs "_m") false (cs "pipe") [cs "_m12_loop_m3_"; cs "m7_"] = Some (cs "12").
Proof. reflexivity. Qed.
(** An element at the top of the tree (outside of any group) has no tags at all. *)
Theorem C45_top_level_refuted : forall p d label, element_tag p d label [] = None.
Proof. reflexivity. Qed.
Example C45_top_level_example : tag_search (cs "_m") ("_"%char :: cs "m12_pipe") = Some (cs "12").
Proof. reflexivity. Qed.

Print Assumptions C44_attributes.
Print Assumptions C44_cells.
Print Assumptions C44_ids.
Print Assumptions C26_files.
Print Assumptions C35_skip.
Print Assumptions C35_null_cells_removed.
Print Assumptions C45_nearest_label.
