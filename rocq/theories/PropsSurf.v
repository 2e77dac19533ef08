(** Properties C20-C22, C30: the surface dictionary. *)
From Verif Require Import Prelude SurfDict SurfDictProofs.

(** The surfaces of a dictionary, whatever their group. *)
Definition registered {S} (d : sdict S) (s : surf S) : Prop := exists k, In s (group d k).

(* ------------------------------------------------------------------ *)
(** * C20 numbering *)

(** Any history of additions and look-ups, starting with an empty dictionary at
    offset [o]: nothing is raised; the numbers in use are exactly
    o+1, ..., o+n, each for one surface; a look-up returns the surface that has
    the number, None if there is none. *)
Theorem C20_registry : forall S cls same o (h : list (op S)),
  (forall i, ~ In (Del i) h) ->
  exists d, run S cls same h (empty o) = Ok d /\
    (forall i, o < i <= o + number d <-> exists s, registered d s /\ index s = i) /\
    (forall s t, registered d s -> registered d t -> index s = index t -> s = t) /\
    (forall i, exists d' r, get_surface i d = Ok (d', r) /\
       forall s, r = Some s <-> registered d s /\ index s = i).
Proof.
  intros S cls same o h ND. destruct (empty_good S o) as (G & C & L).
  destruct (run_total S cls same o h (empty o) ND G C L) as (d & R & (O & NN & I) & C' & L').
  exists d. split; auto. split; [|split].
  - intros i. split.
    + intros Hi. destruct (C' i Hi) as (k & Hk). rewrite (inv_ids _ _ _ _ I) in Hk.
      apply in_map_iff in Hk. destruct Hk as (s & E & Hs). exists s. split; auto. exists k; auto.
    + intros (s & (k & Hs) & <-). eapply (inv_range _ _ _ _ I). eapply index_in; eauto.
  - intros s t (k & Hs) (k' & Ht) E. eapply (surf_uniq _ d _ _ k k'); eauto.
  - intros i. destruct (get_ok _ _ _ i d I L') as (d' & r & E & _ & _ & Hr). exists d', r. split; auto.
    intros s. rewrite Hr. unfold registered. split; [intros (k & A & B); eauto|intros ((k & A) & B); eauto].
Qed.

(** With deletions numbers stay unique and are never used again... *)
Theorem C20_unique_with_deletions : forall S cls same o (h : list (op S)) d,
  run S cls same h (empty o) = Ok d ->
  (forall s t, registered d s -> registered d t -> index s = index t -> s = t) /\
  (forall s, registered d s -> o < index s <= o + number d) /\
  (forall s, snd (snd (add S cls same s d)) = false -> fst (snd (add S cls same s d)) = o + number d + 1).
Proof.
  intros S cls same o h d R. destruct (empty_good S o) as (G & _).
  destruct (run_good S cls same o h _ _ G R) as (O & NN & I). split; [|split].
  - intros s t (k & Hs) (k' & Ht) E. eapply (surf_uniq _ d _ _ k k'); eauto.
  - intros s (k & Hs). eapply (inv_range _ _ _ _ I). eapply index_in; eauto.
  - intros s. unfold add. destruct (find_same S same s 0 (group d (cls s))) as [[i ix]|]; cbn; [discriminate|lia].
Qed.
(** ... but a look-up after deleting the last surface of a group crashes: the
    position of the last access is kept (uf 366-374, 385-389). *)
Theorem C20_deletion_refuted :
  run nat (fun _ => PX) Nat.eqb [Add 5%nat; Add 7%nat; Del 2; Get 1] (empty 0) = Err IndexError.
Proof. reflexivity. Qed.
Example C20_ex : exists d, run nat (fun _ => PX) Nat.eqb [Add 5%nat; Add 7%nat; Get 1; Add 5%nat] (empty 100) = Ok d /\
  number d = 2 /\ registered d (Surf 102 7%nat).
Proof. eexists. split; [reflexivity|]. split; [reflexivity|]. exists PX. simpl. auto. Qed.

(* ------------------------------------------------------------------ *)
(** * C21 no duplicates *)

(** Adding: the number of the first registered surface of the group that is the
    same, and nothing is added; otherwise a fresh number, and the surface is
    registered last in its group. *)
Theorem C21_add : forall S cls same (s : S) (d : sdict S),
  let '(d', (ix, found)) := add S cls same s d in
  if found then
    (forall k, group d' k = group d k) /\ number d' = number d /\
    exists l1 t l2, group d (cls s) = l1 ++ t :: l2 /\ index t = ix /\ same s (geo t) = true /\
      forall u, In u l1 -> same s (geo u) = false
  else
    ix = number d + 1 + offset d /\ number d' = number d + 1 /\
    (forall u, In u (group d (cls s)) -> same s (geo u) = false) /\
    (forall k, k <> cls s -> group d' k = group d k) /\
    group d' (cls s) = group d (cls s) ++ [Surf ix s].
Proof.
  intros S cls same s d. unfold add. pose proof (find_same_spec S cls same s (group d (cls s)) 0) as F.
  destruct (find_same S same s 0 (group d (cls s))) as [[i ix]|]; cbn.
  - split; auto. split; auto. destruct F as (l1 & t & l2 & A & B & C & D & _). exists l1, t, l2. auto.
  - split; auto. split; auto. split; auto. split.
    + intros k NE. apply upd_other; auto.
    + apply upd_same.
Qed.
(** So no registered surface is the same as one registered before it in its group. *)
Theorem C21_distinct : forall S cls same o (h : list (op S)) d,
  (forall i, ~ In (Del i) h) -> run S cls same h (empty o) = Ok d ->
  forall k l1 s l2 t l3, group d k = l1 ++ s :: l2 ++ t :: l3 -> same (geo t) (geo s) = false.
Proof.
  intros S cls same o h d ND R. eapply (run_distinct S cls same h (empty o)); eauto.
  intros k l1 s l2 t l3 E. destruct l1; discriminate.
Qed.
Example C21_ex : snd (add nat (fun _ => PX) Nat.eqb 5%nat (fst (add nat (fun _ => PX) Nat.eqb 5%nat (empty 0)))) = (1, true).
Proof. reflexivity. Qed.

(* ------------------------------------------------------------------ *)
(** * C22 the written list *)

Theorem C22_sorted_surfaces : forall S cls same o (h : list (op S)) d,
  (forall i, ~ In (Del i) h) -> run S cls same h (empty o) = Ok d ->
  exists l, sorted_surfaces d = Ok l /\ (forall s, In s l <-> registered d s) /\
    length l = Z.to_nat (number d) /\
    forall n s, nth_error l n = Some s -> index s = o + 1 + Z.of_nat n.
Proof.
  intros S cls same o h d ND R. destruct (empty_good S o) as (G & C & L).
  destruct (run_total S cls same o h (empty o) ND G C L) as (d0 & R0 & (O & NN & I) & C' & L').
  assert (d0 = d) as -> by congruence. clear R0. unfold sorted_surfaces. rewrite O.
  destruct (sort_loop_spec S (Z.to_nat (number d)) (o + 1) (copy_dict d)) as (l & E & M & IL).
  - replace (o + 1 - 1) with o by lia. rewrite Z2Nat.id by auto. destruct I. constructor; auto.
  - replace (o + 1 - 1) with o by lia. rewrite Z2Nat.id by auto. exact C'.
  - exact L'.
  - exists l. split; auto. split; [intros s; apply IL|].
    assert (ZN : forall n a, length (zseq a n) = n /\ forall j x, nth_error (zseq a n) j = Some x -> x = a + Z.of_nat j).
    { clear. induction n as [|n IH]; intros a; simpl; [split; auto; intros [|j]; discriminate|].
      destruct (IH (a + 1)) as (A & B). split; [lia|]. intros [|j] x; simpl; [intros [= <-]; lia|].
      intros H. apply B in H. lia. }
    destruct (ZN (Z.to_nat (number d)) (o + 1)) as (A & B). split.
    + rewrite <- A, <- M, map_length. auto.
    + intros n s H. apply B. rewrite <- M. rewrite nth_error_map, H. reflexivity.
Qed.
Example C22_ex : exists d, run nat (fun n => if Nat.eqb n 7 then PY else PX) Nat.eqb [Add 5%nat; Add 7%nat; Add 6%nat] (empty 100) = Ok d /\
  sorted_surfaces d = Ok [Surf 101 5%nat; Surf 102 7%nat; Surf 103 6%nat].
Proof. eexists. split; reflexivity. Qed.

(* ------------------------------------------------------------------ *)
(** * C30 the OpenMC boundary *)

Lemma run_number_mono S cls same : forall (h : list (op S)) d d',
  (forall i, ~ In (Del i) h) -> 0 <= number d -> run S cls same h d = Ok d' -> number d <= number d' /\
  (forall s, registered d s -> registered d' s).
Proof.
  induction h as [|x h IH]; intros d d' ND NN H; simpl in H; [injection H as <-; split; auto; lia|].
  assert (ND' : forall i, ~ In (Del i) h) by (intros i Hi; apply (ND i); right; auto).
  inv_bind.
  assert (ST : number d <= number a /\ forall s, registered d s -> registered a s).
  { destruct x as [s|i|i]; simpl in Ha.
    - injection Ha as <-. pose proof (C21_add S cls same s d) as A.
      destruct (add S cls same s d) as [d1 [ix []]]; cbn [fst].
      + destruct A as (A & B & _). split; [lia|]. intros t (k & Ht). exists k. rewrite A. auto.
      + destruct A as (_ & B & _ & A & A'). split; [lia|]. intros t (k & Ht). exists k.
        destruct (key_eqb_spec k (cls s)) as [->|NE]; [rewrite A'; apply in_or_app; auto|rewrite A; auto].
    - inv_bind. destruct a0 as [d1 r]. injection Ha as <-.
      assert (SG : forall ks q, search ks i d = Ok q -> group (fst q) = group d /\ number (fst q) = number d).
      { induction ks as [|k ks IHk]; simpl; intros q E; [injection E as <-; auto|].
        destruct (position i (ids d k)); auto. destruct (nth_error (group d k) n); [|discriminate].
        injection E as <-. split; reflexivity. }
      assert (G : group d1 = group d /\ number d1 = number d).
      { unfold get_surface in Ha0.
        destruct (last d) as [[k j]|]; [|apply SG in Ha0; auto].
        destruct (group d k) as [|s0 l] eqn:GK; [apply SG in Ha0; auto|].
        destruct (nth_error (s0 :: l) j); [|discriminate].
        destruct (index s =? i); [injection Ha0 as <- <-; auto|apply SG in Ha0; auto]. }
      destruct G as (G & G'). split; [lia|]. intros t (k & Ht). exists k. rewrite G. auto.
    - exfalso. apply (ND i). left; auto. }
  destruct ST as (A & B). destruct (IH a d') as (A' & B'); auto; try lia. split; [lia|auto].
Qed.

(** The graveyard sphere is registered at some moment of the translation (void
    generation), [h1] before and [h2] after it.  If it was not known before, the
    vacuum boundary is written on exactly the sphere if and only if nothing new
    is registered after it. *)
Theorem C30_boundary_partial : forall S cls same o h1 h2 sph (d d1 d2 : sdict S) ix,
  (forall i, ~ In (Del i) h1) -> (forall i, ~ In (Del i) h2) ->
  run S cls same h1 (empty o) = Ok d -> add S cls same sph d = (d1, (ix, false)) ->
  run S cls same h2 d1 = Ok d2 ->
  exists l m, sorted_surfaces d2 = Ok l /\ boundary_marks l = Ok m /\ map fst m = l /\
    (forall s, In (s, true) m -> index s = o + number d2) /\
    ((forall s, In (s, true) m <-> s = Surf ix sph) <-> number d2 = number d1).
Proof.
  intros S cls same o h1 h2 sph d d1 d2 ix N1 N2 R1 A R2.
  destruct (empty_good S o) as (G & C & L).
  destruct (run_total S cls same o h1 (empty o) N1 G C L) as (d0 & R0 & (O & NN & I) & _).
  assert (d0 = d) as -> by congruence. clear R0.
  pose proof (C21_add S cls same sph d) as AD. rewrite A in AD. destruct AD as (Eix & Enum & _ & _ & Eg).
  assert (R : run S cls same (h1 ++ Add sph :: h2) (empty o) = Ok d2).
  { assert (RA : forall h h' e e', run S cls same h e = Ok e' -> run S cls same (h ++ h') e = run S cls same h' e').
    { induction h as [|x h IH]; intros h' e e' H; simpl in *; [congruence|].
      destruct (step S cls same x e); simpl in *; try discriminate; auto. }
    rewrite (RA _ _ _ _ R1). simpl. rewrite A. exact R2. }
  assert (ND : forall i, ~ In (Del i) (h1 ++ Add sph :: h2)).
  { intros i H. apply in_app_iff in H. destruct H as [H|[H|H]]; [eapply N1; eauto|discriminate|eapply N2; eauto]. }
  destruct (C22_sorted_surfaces S cls same o _ d2 ND R) as (l & E & IN & LEN & NTH).
  destruct (C20_registry S cls same o _ ND) as (d2' & R' & _ & UQ & _).
  assert (d2' = d2) as -> by congruence. clear R'.
  destruct (run_number_mono S cls same h2 d1 d2 N2) as (MO & RG); auto; [lia|].
  assert (REG : registered d2 (Surf ix sph)).
  { apply RG. exists (cls sph). rewrite Eg. apply in_or_app. right. left; auto. }
  destruct l as [|x l _] using rev_ind.
  { exfalso. apply IN in REG. destruct REG. }
  assert (BM : boundary_marks (l ++ [x]) = Ok (map (fun s => (s, false)) l ++ [(x, true)])).
  { unfold boundary_marks. rewrite rev_app_distr. simpl. rewrite rev_involutive. reflexivity. }
  assert (IT : forall s, In (s, true) (map (fun s => (s, false)) l ++ [(x, true)]) <-> s = x).
  { intros s. rewrite in_app_iff. split.
    - intros [H|[H|[]]]; [|congruence]. apply in_map_iff in H. destruct H as (? & H & _). discriminate.
    - intros ->. right. left; auto. }
  assert (IX : index x = o + number d2).
  { rewrite (NTH (length l) x).
    - rewrite app_length in LEN. simpl in LEN. lia.
    - rewrite nth_error_app2, Nat.sub_diag by lia. reflexivity. }
  exists (l ++ [x]), (map (fun s => (s, false)) l ++ [(x, true)]).
  split; auto. split; auto. split.
  { rewrite map_app, map_map. simpl. rewrite map_id. reflexivity. }
  split. { intros s H. apply IT in H. subst. auto. }
  split.
  - intros H. assert (x = Surf ix sph) as EX by (apply H, IT; auto). rewrite EX in IX. simpl in IX. lia.
  - intros H s. rewrite IT.
    assert (x = Surf ix sph) as ->; [|tauto].
    apply UQ; auto. { apply IN. apply in_or_app. right. left; auto. } simpl. lia.
Qed.
(** The boundary is wrong when a plane is added for a cone after the void
    generation (core.py process_cones), and when the sphere was already known. *)
Theorem C30_cone_plane_refuted : exists d d1 d2 l m,
  run nat (fun n => if Nat.eqb n 9 then Sph else PX) Nat.eqb [Add 1%nat] (empty 0) = Ok d /\
  add nat (fun n => if Nat.eqb n 9 then Sph else PX) Nat.eqb 9%nat d = (d1, (2, false)) /\
  run nat (fun n => if Nat.eqb n 9 then Sph else PX) Nat.eqb [Add 3%nat] d1 = Ok d2 /\
  sorted_surfaces d2 = Ok l /\ boundary_marks l = Ok m /\
  In (Surf 2 9%nat, false) m /\ In (Surf 3 3%nat, true) m.
Proof.
  do 5 eexists. do 5 (split; [reflexivity|]). split; vm_compute; auto.
Qed.
Theorem C30_known_sphere_refuted : exists d d1 l m,
  run nat (fun n => if Nat.eqb n 9 then Sph else PX) Nat.eqb [Add 9%nat; Add 1%nat] (empty 0) = Ok d /\
  add nat (fun n => if Nat.eqb n 9 then Sph else PX) Nat.eqb 9%nat d = (d1, (1, true)) /\
  sorted_surfaces d1 = Ok l /\ boundary_marks l = Ok m /\
  In (Surf 1 9%nat, false) m /\ In (Surf 2 1%nat, true) m.
Proof. do 4 eexists. do 4 (split; [reflexivity|]). split; vm_compute; auto. Qed.
Example C30_ex : exists d d1 l,
  run nat (fun n => if Nat.eqb n 9 then Sph else PX) Nat.eqb [Add 1%nat] (empty 0) = Ok d /\
  add nat (fun n => if Nat.eqb n 9 then Sph else PX) Nat.eqb 9%nat d = (d1, (2, false)) /\
  sorted_surfaces d1 = Ok l /\ boundary_marks l = Ok [(Surf 1 1%nat, false); (Surf 2 9%nat, true)].
Proof. do 3 eexists. repeat (split; [reflexivity|]). reflexivity. Qed.

Print Assumptions C20_registry.
Print Assumptions C20_unique_with_deletions.
Print Assumptions C21_add.
Print Assumptions C21_distinct.
Print Assumptions C22_sorted_surfaces.
Print Assumptions C30_boundary_partial.
