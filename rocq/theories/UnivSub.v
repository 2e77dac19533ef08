(** Nested universes: proofs. *)
From Verif Require Import Prelude Univ UnivSpec UnivProofs.

Lemma fills_in m v : In v (fills m) <-> exists n c, In (n, c) m /\ c_fill c = Some v /\ v <> 0.
Proof.
  unfold fills. rewrite in_map_iff. split.
  - intros ([n c] & <- & I). apply filter_In in I. destruct I as [I T]. cbn in T. apply truthy_some in T. destruct T as (f & F & N). exists n, c. cbn. rewrite F. auto.
  - intros (n & c & I & F & N). exists (n, c). cbn. rewrite F. split; auto. apply filter_In. split; auto. cbn. apply truthy_some. eauto.
Qed.
Lemma members_in cs u n c : In (n, c) (members cs u) <-> In c cs /\ val (c_u c) = u /\ n = c_name c.
Proof.
  unfold members. rewrite in_map_iff. split.
  - intros (x & [= <- <-] & I). apply filter_In in I. destruct I. split; auto. split; auto. lia.
  - intros (I & U & ->). exists c. split; auto. apply filter_In. split; auto. lia.
Qed.
Lemma fills_members cs u v : In v (fills (members cs u)) <-> nests cs u v.
Proof.
  rewrite fills_in. unfold nests. split.
  - intros (n & c & I & F & N). apply members_in in I. exists c. tauto.
  - intros (c & I & U & F & N). exists (c_name c), c. rewrite members_in. auto.
Qed.
Section Sub.
Variable cs : list cell.
Hypothesis ND : NoDup (map c_name cs).
Lemma get_universe u : universe cs u -> zget u (group cs) = Some (members cs u).
Proof.
  intros (c & I & U). rewrite group_get by auto. destruct (members cs u) eqn:E; auto. exfalso. assert (In (c_name c, c) (members cs u)) by (apply members_in; auto). rewrite E in H. destruct H.
Qed.
Lemma get_none u : ~ universe cs u -> zget u (group cs) = None.
Proof. intros N. apply zget_none. rewrite group_keys. auto. Qed.
Lemma path_app u n v m w : path cs u n v -> path cs v m w -> path cs u (n + m) w.
Proof. intros P Q. induction Q as [|m a b Q IH N]; [rewrite Nat.add_0_r; auto|]. rewrite Nat.add_succ_r. econstructor; eauto. Qed.
Lemma path_one u v : nests cs u v <-> path cs u 1 v.
Proof. split; [intros N; econstructor; [constructor|auto]|]. intros P. inversion P as [|? a ? Q N]; subst. inversion Q; subst. auto. Qed.
Lemma path_first u n v : path cs u (S n) v -> exists w, nests cs u w /\ path cs w n v.
Proof.
  revert v. induction n as [|n IH]; intros v P; inversion P as [|? a ? Q N]; subst.
  - inversion Q; subst. exists v. split; auto. constructor.
  - destruct (IH _ Q) as (w & Nw & Pw). exists w. split; auto. econstructor; eauto.
Qed.
Lemma mapM_ok_in {A B} (f : A -> res B) l r : mapM f l = Ok r -> forall y, In y r -> exists x, In x l /\ f x = Ok y.
Proof.
  revert r. induction l as [|x l IH]; cbn; intros r E; [injection E as <-; intros y []|]. destruct (f x) eqn:F; cbn in E; try discriminate. destruct (mapM f l) eqn:M; cbn in E; try discriminate. injection E as <-.
  intros y [<- |I]; [eauto|]. destruct (IH _ eq_refl y I) as (z & ? & ?). eauto.
Qed.
Lemma mapM_ok_all {A B} (f : A -> res B) l r : mapM f l = Ok r -> forall x, In x l -> exists y, In y r /\ f x = Ok y.
Proof.
  revert r. induction l as [|x l IH]; cbn; intros r E; [intros x []|]. destruct (f x) eqn:F; cbn in E; try discriminate. destruct (mapM f l) eqn:M; cbn in E; try discriminate. injection E as <-.
  intros y [<- |I]; [exists a; cbn; auto|]. destruct (IH _ eq_refl y I) as (z & ? & ?). exists z. cbn. auto.
Qed.
Lemma mapM_total {A B} (f : A -> res B) l : (forall x, In x l -> exists y, f x = Ok y) -> exists r, mapM f l = Ok r.
Proof.
  induction l as [|x l IH]; cbn; intros H; [eauto|]. destruct (H x) as [y E]; auto. rewrite E. cbn. destruct IH as [r R]; [intros; apply H; auto|]. rewrite R. cbn. eauto.
Qed.
(** what is returned *)
Lemma sub_sound fuel : forall u r, sub_universes fuel (group cs) u = Ok r -> universe cs u /\ (forall v, In v r <-> inside cs u v) /\ (forall v, nests cs u v -> exists r', sub_universes (pred fuel) (group cs) v = Ok r').
Proof.
  induction fuel as [|k IH]; intros u r E; [discriminate|]. cbn [sub_universes] in E. destruct (universe_dec cs u) as [U|U]; [|unfold key in E; rewrite get_none in E by auto; discriminate].
  unfold key in E. rewrite get_universe in E by auto. cbn [bind] in E. destruct (mapM _ _) as [subs| |] eqn:M; try discriminate. injection E as <-. split; auto. split.
  - intros v. rewrite in_app_iff, nodup_In, fills_members, in_concat. split.
    + intros [N|(l & Il & Iv)]; [exists 0%nat; apply path_one; auto|]. destruct (mapM_ok_in _ _ _ M _ Il) as (w & Iw & Ew). apply nodup_In, fills_members in Iw. apply IH in Ew. destruct Ew as (_ & Ew & _). apply Ew in Iv. destruct Iv as [n P].
      exists (S n). apply (path_app u 1 w (S n) v); auto. apply path_one. auto.
    + intros [n P]. apply path_first in P. destruct P as (w & N & P). destruct n as [|n]; [left; inversion P; subst; auto|]. right.
      destruct (mapM_ok_all _ _ _ M w) as (l & Il & El); [apply nodup_In, fills_members; auto|]. exists l. split; auto. apply IH in El. apply El. exists n. auto.
  - intros v N. destruct (mapM_ok_all _ _ _ M v) as (l & Il & El); [apply nodup_In, fills_members; auto|]. cbn [pred]. eauto.
Qed.
(** success means that the nesting ends *)
Lemma sub_bound fuel : forall u r, sub_universes fuel (group cs) u = Ok r -> forall n v, path cs u n v -> (n < fuel)%nat /\ universe cs v.
Proof.
  induction fuel as [|k IH]; intros u r E n v P; [discriminate|]. destruct (sub_sound _ _ _ E) as (U & _ & S1). destruct n as [|n]; [inversion P; subst; split; [lia|auto]|].
  apply path_first in P. destruct P as (w & N & P). destruct (S1 w N) as [r' E']. cbn [pred] in E'. destruct (IH _ _ E' _ _ P). split; [lia|auto].
Qed.
Lemma path_loop v n : path cs v (S n) v -> forall k, exists m, (k <= m)%nat /\ path cs v m v.
Proof.
  intros P k. induction k as [|k (m & L & Q)]; [exists 0%nat; split; [lia|constructor]|]. exists (m + S n)%nat. split; [lia|]. eapply path_app; eauto.
Qed.
Lemma sub_acyclic fuel u r : sub_universes fuel (group cs) u = Ok r -> acyclic cs u /\ closed cs u.
Proof.
  intros E. split.
  - intros n v P [k Q]. destruct (path_loop _ _ Q fuel) as (m & L & R). assert (X := sub_bound _ _ _ E _ _ (path_app _ _ _ _ _ P R)). lia.
  - intros n v P. apply (sub_bound _ _ _ E _ _ P).
Qed.
(** the vertices of a path *)
Lemma path_vertices u n v : path cs u n v -> exists f, f 0%nat = u /\ f n = v /\ forall i, (i < n)%nat -> nests cs (f i) (f (S i)).
Proof.
  intros P. induction P as [|n a b P (f & F0 & Fn & H) N]; [exists (fun _ => u); split; auto; split; auto; intros i L; lia|].
  exists (fun i => if Nat.leb i n then f i else b). split; [exact F0|]. split; [replace (Nat.leb (S n) n) with false by (symmetry; apply Nat.leb_gt; lia); reflexivity|].
  intros i L. replace (Nat.leb i n) with true by (symmetry; apply Nat.leb_le; lia). destruct (Nat.leb (S i) n) eqn:E; [apply H; apply Nat.leb_le in E; lia|]. apply Nat.leb_gt in E. replace i with n by lia. rewrite Fn. auto.
Qed.
Lemma path_bound u n v : acyclic cs u -> path cs u n v -> (n <= List.length cs)%nat.
Proof.
  intros A P. destruct (path_vertices _ _ _ P) as (f & F0 & Fn & H).
  assert (SEG : forall i k, (i + k <= n)%nat -> path cs (f i) k (f (i + k)%nat)).
  { intros i k. induction k as [|k IHk]; intros L; [rewrite Nat.add_0_r; constructor|]. rewrite Nat.add_succ_r. econstructor; [apply IHk; lia|]. apply H. lia. }
  assert (N : NoDup (map f (seq 0 n))).
  { apply NoDup_nth with (d := f 0%nat). rewrite map_length, seq_length. intros i j Li Lj. rewrite !map_nth, !seq_nth by auto. cbn.
    assert (W : forall i j, (i < j)%nat -> (j < n)%nat -> f i = f j -> False).
    { intros a b Lab Lb E. apply (A a (f a)); [rewrite <- F0; apply (SEG 0%nat a); lia|]. exists (b - a - 1)%nat. replace (S (b - a - 1)) with (b - a)%nat by lia. rewrite E at 2. replace b with (a + (b - a))%nat at 2 by lia. apply SEG. lia. }
    intros E. destruct (Nat.lt_trichotomy i j) as [L|[L|L]]; auto; exfalso; [eapply W; eauto|eapply (W j i); eauto]. }
  assert (IC : incl (map f (seq 0 n)) (map (fun c => val (c_u c)) cs)).
  { intros x Ix. apply in_map_iff in Ix. destruct Ix as (i & <- & Ii). apply in_seq in Ii. destruct (H i) as (c & Ic & U & _); [lia|]. rewrite <- U. apply (in_map (fun c => val (c_u c))). auto. }
  assert (L := NoDup_incl_length N IC). rewrite !map_length, seq_length in L. auto.
Qed.
Lemma sub_complete fuel : forall u, closed cs u -> (forall n v, path cs u n v -> (n < fuel)%nat) -> exists r, sub_universes fuel (group cs) u = Ok r.
Proof.
  induction fuel as [|k IH]; intros u C B; [specialize (B 0%nat u (path_root _ _)); lia|]. cbn [sub_universes]. unfold key. rewrite get_universe by (apply (C 0%nat); constructor). cbn [bind].
  destruct (mapM_total (sub_universes k (group cs)) (nodup Z.eq_dec (fills (members cs u)))) as [r E]; [|rewrite E; cbn; eauto].
  intros v Iv. apply nodup_In, fills_members in Iv. assert (P1 := proj1 (path_one _ _) Iv). apply IH.
  - intros n w P. apply (C (1 + n)%nat). eapply path_app; eauto.
  - intros n w P. assert (X := B _ _ (path_app _ _ _ _ _ P1 P)). lia.
Qed.
(** the outcome in full *)
Lemma sub_exact fuel u : (List.length cs < fuel)%nat ->
  (acyclic cs u /\ closed cs u <-> exists r, sub_universes fuel (group cs) u = Ok r).
Proof.
  intros L. split.
  - intros [A C]. apply sub_complete; auto. intros n v P. assert (X := path_bound _ _ _ A P). lia.
  - intros [r E]. eapply sub_acyclic; eauto.
Qed.
End Sub.
