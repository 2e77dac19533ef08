(** C24, C25, C43: nested enclosures. *)
From Coq Require Import Permutation Sorted.
From Verif Require Import Prelude Enclosures EnclSpec EnclProofs EnclProofs2 EnclProofs3.

(** ** C24: check_enclosure accepts exactly the trees, whatever the geometry;
    everything else is answered with ValueError, in finite time. *)
Theorem C24_check_accepts_exactly_trees : forall inter l,
  check_enclosure inter l = Ok tt <-> l <> [] /\ tree l.
Proof. exact check_enclosure_spec. Qed.
Theorem C24_check_rejects_the_rest : forall inter l,
  ~ (l <> [] /\ tree l) -> check_enclosure inter l = Err ValueError.
Proof.
  intros inter l N. rewrite <- (check_enclosure_spec inter) in N. unfold check_enclosure in *.
  unfold check_ids in *. destruct (memZ 0 (map eid l) || negb (memZ 0 (map pid l)) || repeated [] l) eqn:E; [reflexivity|].
  cbn [bind] in *. pose proof (check_loops_spec l) as CL. unfold check_loops in *.
  destruct (explore (S (length l)) [0] (encl_dict l)) as [d|x|] eqn:X; cbn [bind] in *.
  - destruct d as [|x d]; [|reflexivity]. exfalso. apply N.
    assert (R : forall e, In e l -> rooted l (pid e)) by (apply CL; reflexivity).
    assert (CI : check_ids l = Ok tt) by (unfold check_ids; rewrite E; reflexivity). apply (proj1 (check_ids_spec l)) in CI.
    assert (A : l <> [] /\ tree l).
    { split; [intros ->; destruct CI as (_ & _ & []); auto|]. split; [|split]; try tauto. }
    apply (check_enclosure_spec inter) in A. unfold check_enclosure, check_ids, check_loops in A. rewrite E, X in A. exact A.
  - exfalso. destruct (explore_total l) as (d & D). congruence.
  - exfalso. destruct (explore_total l) as (d & D). congruence.
Qed.

(** The levels: for accepted sets set_enclosure_levels ends, level n holds exactly
    the enclosures whose parent has n links to the root, every enclosure once. *)
Theorem C24_levels_are_distances : forall l, tree l ->
  exists levels, set_levels (S (length l)) l = Ok (levels ++ [[]]) /\
    Permutation l (concat levels) /\
    (forall n e, In e l /\ depth l n (pid e) <-> exists lv, nth_error levels n = Some lv /\ In e lv) /\
    (forall n e, In e l /\ depth l n (pid e) -> forall c, In c (sons (levels ++ [[]]) n e) <-> In c l /\ pid c = eid e) /\
    Forall (StronglySorted (fun a b => pid a <= pid b)) levels.
Proof.
  intros l T. destruct (set_levels_spec l T) as (lv & E & P & _ & HL & S). exists lv. split; [|split; [|split; [|split]]]; auto.
  intros n e A c. apply (sons_spec l lv T HL n e c A).
Qed.
(** Without the check the loop would not end. *)
Theorem C24_levels_loop_forever_otherwise : forall l n, (exists e, In e l /\ ~ rooted l (pid e)) -> set_levels n l = Fuel.
Proof.
  intros l n H. unfold set_levels. rewrite (level_loop_stuck l n [0] l); [reflexivity| |auto|auto].
  intros i [<-|[]]. constructor.
Qed.

Definition ex24 := [Encl 3 1 false 0; Encl 1 0 false 1; Encl 2 1 true 2; Encl 4 3 false 3].
Example C24_example_tree : tree ex24 /\
  set_levels 5 ex24 = Ok [[Encl 1 0 false 1]; [Encl 3 1 false 0; Encl 2 1 true 2]; [Encl 4 3 false 3]; []] /\
  check_enclosure (fun _ _ => 0) ex24 = Ok tt.
Proof.
  assert (R1 : rooted ex24 1) by (apply (rooted_s ex24 (Encl 1 0 false 1)); [simpl; auto|constructor]).
  assert (R3 : rooted ex24 3) by (apply (rooted_s ex24 (Encl 3 1 false 0)); [simpl; auto|auto]).
  split; [|split; reflexivity]. split; [|split].
  - cbn. repeat constructor; cbn; intuition lia.
  - cbn. lia.
  - intros e [<-|[<-|[<-|[<-|[]]]]]; cbn; auto. constructor.
Qed.
Example C24_example_loop : check_enclosure (fun _ _ => 1) [Encl 1 0 false 0; Encl 2 3 false 1; Encl 3 2 false 2] = Err ValueError.
Proof. reflexivity. Qed.

(** ** C25: the geometric tests never fire. *)
Theorem C25_check_ignores_geometry : forall inter inter' l, check_enclosure inter l = check_enclosure inter' l.
Proof.
  intros i i' l.
  assert (D : (l <> [] /\ tree l) \/ ~ (l <> [] /\ tree l)).
  { destruct (check_enclosure i l) as [[]|e|] eqn:E; [left; apply (check_enclosure_spec i); auto| |];
      right; intros H; apply (check_enclosure_spec i) in H; congruence. }
  destruct D as [D|D].
  - rewrite (proj2 (check_enclosure_spec i l) D), (proj2 (check_enclosure_spec i' l) D). reflexivity.
  - rewrite !C24_check_rejects_the_rest; auto.
Qed.
(** Two enclosures under the same parent that overlap, and a child that is not
    embedded in its parent, are accepted. *)
Theorem C25_warns_on_overlap_or_not_embedded_refuted :
  ~ (forall inter l, check_enclosure inter l = Ok tt ->
       (forall e e', In e l -> In e' l -> e <> e' -> pid e = pid e' -> inter e e' = 1) /\
       (forall e c, In e l -> In c l -> pid c = eid e -> inter e c = -2)).
Proof.
  intros H. destruct (H (fun _ _ => 0) [Encl 1 0 false 0; Encl 2 0 false 1] eq_refl) as (S & _).
  specialize (S (Encl 1 0 false 0) (Encl 2 0 false 1)). cbn in S. assert (0 = 1); [apply S; auto; discriminate|lia].
Qed.
Theorem C25_not_embedded_accepted_refuted :
  ~ (forall inter l, check_enclosure inter l = Ok tt ->
       (forall e c, In e l -> In c l -> pid c = eid e -> inter e c = -2)).
Proof.
  intros H. specialize (H (fun _ _ => 1) [Encl 1 0 false 0; Encl 2 1 false 1] eq_refl (Encl 1 0 false 0) (Encl 2 1 false 1)).
  cbn in H. assert (1 = -2); [apply H; auto|lia].
Qed.

(** ** C43: the voids of nested enclosures cover the space outside the solids once. *)
(** A solid as the void generation sees it at a place: is the place in the solid,
    and how the solid meets each enclosure. *)
Record sol := Sol { in_sol : bool; meets : encl -> Z }.
(** [void_cells_at]: number of void cells at a place of the universe box.  For every
    region there is one iff the place is in the region, in none of its son
    enclosures and in none of the solids selected for it (C15/C16). *)
Definition region_cells (levels : list (list encl)) (sols : list sol) (inE : encl -> bool) (r : option encl) (ch : list encl) : nat :=
  let deps := map (fun s => assign (meets s) levels) sols in
  let id := match r with None => -1 | Some e => eid e end in
  let inR := match r with None => true | Some e => inE e end in
  if inR && negb (existsb inE ch) && negb (existsb (fun i => in_sol (nth i sols (Sol false (fun _ => 1)))) (select id deps)) then 1%nat else 0%nat.
Definition void_cells_at (levels : list (list encl)) (sols : list sol) (inE : encl -> bool) : nat :=
  list_sum (map (fun r => region_cells levels sols inE (fst r) (snd r)) (regions levels)).

Lemma select_in id deps : forall i, In i (select id deps) <-> (i < length deps)%nat /\ In id (nth i deps []).
Proof. intros i. unfold select. rewrite filter_In, in_seq, memZ_spec. intuition lia. Qed.
Lemma hit levels (sols : list sol) id s : In s sols -> in_sol s = true -> In id (assign (meets s) levels) ->
  existsb (fun i => in_sol (nth i sols (Sol false (fun _ => 1)))) (select id (map (fun s => assign (meets s) levels) sols)) = true.
Proof.
  intros I S A. apply In_nth_error in I. destruct I as (n & N). apply existsb_exists. exists n.
  assert (L : (n < length sols)%nat) by (apply nth_error_Some; congruence). split.
  - apply select_in. rewrite map_length. split; auto. rewrite (nth_indep _ [] (assign (meets s) levels)) by (rewrite map_length; auto).
    rewrite (map_nth (fun s => assign (meets s) levels) sols s n). rewrite (nth_error_nth _ _ _ N). auto.
  - rewrite (nth_error_nth _ _ _ N). auto.
Qed.
Lemma nohit (sols : list sol) ids : (forall s, In s sols -> in_sol s = false) ->
  existsb (fun i => in_sol (nth i sols (Sol false (fun _ => 1)))) ids = false.
Proof.
  intros H. apply not_true_is_false. intros E. apply existsb_exists in E. destruct E as (i & _ & E).
  destruct (nth_in_or_default i sols (Sol false (fun _ => 1))) as [I|D]; [rewrite H in E; auto; discriminate|rewrite D in E; discriminate].
Qed.

Theorem C43_enclosure_voids_partition : forall l levels sols inE,
  tree l -> set_levels (S (length l)) l = Ok levels ->
  (* the enclosures are nested, and siblings are disjoint *)
  (forall e c, In e l -> In c l -> pid c = eid e -> inE c = true -> inE e = true) ->
  (forall e e', In e l -> In e' l -> pid e = pid e' -> inE e = true -> inE e' = true -> e = e') ->
  (* the answers of check_intersection are right, and no solid fills an enclosure *)
  (forall s e, In s sols -> In e l -> meets s e = 0 \/ meets s e = 1 \/ meets s e = -1) ->
  (forall s e, In s sols -> In e l -> in_sol s = true -> meets s e = 1 -> inE e = false) ->
  (forall s e, In s sols -> In e l -> in_sol s = true -> meets s e = -1 -> inE e = true) ->
  (forall s e c, In s sols -> In e l -> In c l -> pid c = eid e -> meets s e = 1 -> meets s c = 1) ->
  (* then the place is in exactly one void cell, or in a solid, or in an envelope *)
  void_cells_at levels sols inE =
    if existsb in_sol sols then 0%nat
    else if existsb (fun e => envel e && inE e && negb (existsb (fun c => (pid c =? eid e) && inE c) l)) l then 0%nat else 1%nat.
Proof.
  intros l levels sols inE T E Hn Hs Hv H1 Hm Hmo. destruct (set_levels_spec l T) as (lv & E' & P & _ & HL & _).
  rewrite E' in E. injection E as <-.
  assert (NC : forall e, existsb (fun c => (pid c =? eid e) && inE c) l = false <-> forall c, In c l -> pid c = eid e -> inE c = false).
  { intros e. split.
    - intros X c Ic PC. destruct (inE c) eqn:IC; auto.
      assert (existsb (fun c => (pid c =? eid e) && inE c) l = true); [|congruence]. apply existsb_exists. exists c. split; auto. rewrite PC, Z.eqb_refl, IC. reflexivity.
    - intros X. apply not_true_is_false. intros Y. apply existsb_exists in Y. destruct Y as (c & Ic & Y). apply andb_true_iff in Y. destruct Y as (Y & IC).
      apply Z.eqb_eq in Y. rewrite X in IC; auto. discriminate. }
  assert (SC : forall i e, at_level l i e -> existsb inE (sons (lv ++ [[]]) i e) = existsb (fun c => (pid c =? eid e) && inE c) l).
  { intros i e A. apply eq_true_iff_eq. rewrite !existsb_exists. split.
    - intros (c & Ic & C). apply (sons_spec l lv T HL i e c A) in Ic. exists c. split; [tauto|]. destruct Ic as (_ & ->). rewrite Z.eqb_refl. auto.
    - intros (c & Ic & C). apply andb_true_iff in C. destruct C as (PC & C). apply Z.eqb_eq in PC. exists c. split; auto. apply (sons_spec l lv T HL i e c A). auto. }
  unfold void_cells_at.
  rewrite (regions_sum l lv HL (region_cells (lv ++ [[]]) sols inE)
    (fun e => if inE e && negb (existsb (fun c => (pid c =? eid e) && inE c) l) &&
      negb (existsb (fun i => in_sol (nth i sols (Sol false (fun _ => 1)))) (select (eid e) (map (fun s => assign (meets s) (lv ++ [[]])) sols)))
      then 1%nat else 0%nat)).
  2:{ intros i e A. unfold region_cells. rewrite (SC i e A). reflexivity. }
  assert (L0 : forall e, In e (nth 0 (lv ++ [[]]) []) <-> at_level l 0 e).
  { intros e. rewrite HL. destruct lv as [|x r]; cbn [app nth nth_error].
    - split; [intros []|intros (? & ? & _); discriminate].
    - split; [eauto|]. intros (x' & Q & I). injection Q as <-. auto. }
  assert (OW : forall e, owns l inE e <-> In e l /\ (inE e && negb (existsb (fun c => (pid c =? eid e) && inE c) l)) = true).
  { intros e. unfold owns. rewrite andb_true_iff, negb_true_iff, NC. tauto. }
  (* root or owner *)
  destruct (existsb inE (nth 0 (lv ++ [[]]) [])) eqn:TOP.
  - (* some enclosure *)
    assert (ROOT : region_cells (lv ++ [[]]) sols inE None (nth 0 (lv ++ [[]]) []) = 0%nat).
    { unfold region_cells. rewrite TOP. reflexivity. }
    rewrite ROOT. cbn [plus].
    destruct (owner_ex l T lv HL inE) as (o & O).
    { apply existsb_exists in TOP. destruct TOP as (e & I & X). exists e. split; auto. apply L0 in I. apply I. }
    rewrite (sum_one _ o); [| | |].
    + assert (EN : existsb (fun e => envel e && inE e && negb (existsb (fun c => (pid c =? eid e) && inE c) l)) l = envel o).
      { apply eq_true_iff_eq. rewrite existsb_exists. split.
        - intros (e & Ie & X). rewrite <- andb_assoc in X. apply andb_true_iff in X. destruct X as (X & Y).
          assert (owns l inE e) as OE by (apply OW; auto). rewrite <- (owner_uniq l T inE Hn Hs e o); auto.
        - intros X. exists o. split; [apply O|]. rewrite X. apply OW in O. apply O. }
      rewrite EN. destruct (envel o); [destruct (existsb in_sol sols); reflexivity|].
      pose proof (proj1 (OW o) O) as (_ & OO). rewrite OO. cbn [andb].
      destruct (existsb in_sol sols) eqn:S.
      * apply existsb_exists in S. destruct S as (s & Is & S). rewrite (hit (lv ++ [[]]) sols (eid o) s); auto.
        apply (assign_owner l T lv HL inE Hn Hs (meets s)); auto; try apply O; intros; eauto.
      * rewrite nohit; [reflexivity|]. intros s Is. destruct (in_sol s) eqn:X; auto.
        assert (existsb in_sol sols = true); [|congruence]. apply existsb_exists. eauto.
    + apply (levels_nodup l T lv P).
    + apply (levels_in l lv P). apply O.
    + intros e Ie NE. apply (levels_in l lv P) in Ie. destruct (envel e); auto.
      destruct (inE e && negb (existsb (fun c => (pid c =? eid e) && inE c) l)) eqn:X; auto.
      exfalso. apply NE. apply (owner_uniq l T inE Hn Hs); auto. apply OW. auto.
  - (* the universe *)
    assert (NO : forall e, In e l -> inE e = false).
    { apply (no_owner l T inE Hn). intros e A. destruct (inE e) eqn:X; auto.
      assert (existsb inE (nth 0 (lv ++ [[]]) []) = true); [|congruence]. apply existsb_exists. exists e. split; auto. apply L0; auto. }
    rewrite sum_zero.
    2:{ intros e Ie. apply (levels_in l lv P) in Ie. rewrite (NO e Ie). destruct (envel e); reflexivity. }
    rewrite Nat.add_0_r.
    assert (EN : existsb (fun e => envel e && inE e && negb (existsb (fun c => (pid c =? eid e) && inE c) l)) l = false).
    { apply not_true_is_false. intros X. apply existsb_exists in X. destruct X as (e & Ie & X). rewrite (NO e Ie), andb_false_r in X. discriminate. }
    rewrite EN. unfold region_cells. rewrite TOP. cbn [negb andb].
    destruct (existsb in_sol sols) eqn:S.
    + apply existsb_exists in S. destruct S as (s & Is & S). rewrite (hit (lv ++ [[]]) sols (-1) s); auto.
      apply (assign_root l T lv HL inE (meets s)); auto; intros; eauto.
    + rewrite nohit; [reflexivity|]. intros s Is. destruct (in_sol s) eqn:X; auto.
      assert (existsb in_sol sols = true); [|congruence]. apply existsb_exists. eauto.
Qed.

(** The hypothesis "no solid fills an enclosure" is needed: such a solid is
    assigned to the universe only, and the void of the enclosure overlaps it. *)
Theorem C43_solid_filling_an_enclosure_refuted :
  let e := Encl 1 0 false 0 in
  void_cells_at [[e]; []] [Sol true (fun _ => -2)] (fun _ => true) = 1%nat.
Proof. reflexivity. Qed.

(** A place in an inner enclosure, a solid that sticks out of it. *)
Example C43_example :
  let l := [Encl 1 0 false 0; Encl 2 1 false 1; Encl 5 0 false 2] in
  let s := fun b => Sol b (fun e => if eid e =? 5 then 1 else if eid e =? 1 then -1 else 0) in
  exists levels, set_levels 4 l = Ok levels /\
    assign (meets (s true)) levels = [2; 1] /\
    void_cells_at levels [s false; s false] (fun e => (eid e =? 1) || (eid e =? 2)) = 1%nat /\
    void_cells_at levels [s false; s true] (fun e => (eid e =? 1) || (eid e =? 2)) = 0%nat /\
    void_cells_at levels [s false] (fun e => eid e =? 1) = 1%nat /\
    void_cells_at levels [s false] (fun e => false) = 1%nat.
Proof. eexists. split; [reflexivity|]. repeat split; reflexivity. Qed.
Print Assumptions C24_check_accepts_exactly_trees.
Print Assumptions C24_check_rejects_the_rest.
Print Assumptions C24_levels_are_distances.
Print Assumptions C24_levels_loop_forever_otherwise.
Print Assumptions C25_check_ignores_geometry.
Print Assumptions C25_warns_on_overlap_or_not_embedded_refuted.
Print Assumptions C25_not_embedded_accepted_refuted.
Print Assumptions C43_enclosure_voids_partition.
Print Assumptions C43_solid_filling_an_enclosure_refuted.
