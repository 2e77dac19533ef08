(** Universes: proofs about the structure of levels. *)
From Verif Require Import Prelude Univ UnivSpec.

Lemma mem_in n l : mem n l = true <-> In n l.
Proof. unfold mem. rewrite existsb_exists. split; [intros (x & I & E); apply Z.eqb_eq in E; subst; auto|intros I; exists n; rewrite Z.eqb_refl; auto]. Qed.
Lemma mem_out n l : mem n l = false <-> ~ In n l.
Proof. rewrite <- mem_in. destruct (mem n l); split; intros; congruence. Qed.
Lemma truthy_some o : truthy o = true <-> exists n, o = Some n /\ n <> 0.
Proof. destruct o as [n|]; cbn; [split; [intros H; exists n; split; auto; lia|intros (m & [= <-] & H); lia]|split; [discriminate|intros (n & H & _); discriminate]]. Qed.
Lemma truthy_none o : truthy o = false <-> o = None \/ o = Some 0.
Proof. destruct o as [n|]; cbn; split; intros H; auto; [right; f_equal; lia|destruct H as [H|[= ->]]; [discriminate|reflexivity]]. Qed.

Lemma filter_len {A} (f : A -> bool) l : (List.length (filter f l) <= List.length l)%nat.
Proof. induction l as [|x l IH]; cbn; [lia|]. destruct (f x); cbn; lia. Qed.
(** ** dictionaries *)
Lemma zget_in {A} n (d : list (Z * A)) v : zget n d = Some v -> In (n, v) d.
Proof. induction d as [|[k w] d IH]; cbn; [discriminate|]. destruct (k =? n) eqn:E; [intros [= ->]; left; f_equal; lia|auto]. Qed.
Lemma zget_nodup {A} n (d : list (Z * A)) v : NoDup (map fst d) -> In (n, v) d -> zget n d = Some v.
Proof.
  induction d as [|[k w] d IH]; cbn; [tauto|]. intros ND. inversion ND as [|? ? N1 N2]; subst. intros [[= -> ->]|I].
  - rewrite Z.eqb_refl. auto.
  - destruct (k =? n) eqn:E; auto. exfalso. apply N1. assert (k = n) by lia. subst. apply in_map_iff. exists (n, v). auto.
Qed.
Lemma zget_none {A} n (d : list (Z * A)) : zget n d = None <-> ~ In n (map fst d).
Proof. induction d as [|[k w] d IH]; cbn; [tauto|]. destruct (k =? n) eqn:E; [split; [discriminate|intros H; destruct H; left; lia]|]. rewrite IH. split; intros H; [intros [K|K]; [lia|auto]|auto]. Qed.
Lemma zput_same {A} n v (d : list (Z * A)) : zget n (zput n v d) = Some v.
Proof. induction d as [|[k w] d IH]; cbn; [rewrite Z.eqb_refl; auto|]. destruct (k =? n) eqn:E; cbn; rewrite E; auto. Qed.
Lemma zput_other {A} m n v (d : list (Z * A)) : m <> n -> zget m (zput n v d) = zget m d.
Proof. intros NE. induction d as [|[k w] d IH]; cbn; [destruct (n =? m) eqn:E; [lia|auto]|]. destruct (k =? n) eqn:E; cbn; destruct (k =? m) eqn:E2; auto; lia. Qed.
Lemma zput_keys {A} n v (d : list (Z * A)) : map fst (zput n v d) = if mem n (map fst d) then map fst d else map fst d ++ [n].
Proof.
  induction d as [|[k w] d IH]; cbn; auto. rewrite (Z.eqb_sym n k). destruct (k =? n) eqn:E; cbn; auto. rewrite IH. unfold mem. destruct (existsb _ _); auto.
Qed.
Lemma zput_nodup {A} n v (d : list (Z * A)) : NoDup (map fst d) -> NoDup (map fst (zput n v d)).
Proof.
  intros ND. rewrite zput_keys. destruct (mem n (map fst d)) eqn:E; auto. apply mem_out in E.
  apply NoDup_Add with (a := n) (l := map fst d); [|split; auto]. apply Add_app with (l2 := []) (l1 := map fst d) (a := n) || (rewrite <- (app_nil_r (map fst d)) at 1; apply Add_app).
Qed.
Lemma zput_new {A} n v (d : list (Z * A)) : ~ In n (map fst d) -> zput n v d = d ++ [(n, v)].
Proof. induction d as [|[k w] d IH]; cbn; auto. intros N. destruct (k =? n) eqn:E; [destruct N; left; lia|]. rewrite IH; auto. Qed.

(** ** grouping *)
Definition members (cs : list cell) (u : Z) : cells := map (fun c => (c_name c, c)) (filter (fun c => val (c_u c) =? u) cs).
Lemma members_keys cs u : map fst (members cs u) = map c_name (filter (fun c => val (c_u c) =? u) cs).
Proof. unfold members. rewrite map_map. reflexivity. Qed.
Lemma group_snoc cs c : group (cs ++ [c]) = let d := group cs in zput (val (c_u c)) (zput (c_name c) c (match zget (val (c_u c)) d with Some m => m | None => [] end)) d.
Proof. unfold group. rewrite fold_left_app. reflexivity. Qed.
Lemma nodup_app_l {A} (l r : list A) : NoDup (l ++ r) -> NoDup l.
Proof. induction l as [|x l IH]; cbn; [constructor|]. intros H. inversion H; subst. constructor; auto. intros I. apply H2. apply in_or_app. auto. Qed.
Lemma nodup_app_last {A} (l : list A) x : NoDup (l ++ [x]) -> ~ In x l.
Proof. intros H I. apply NoDup_remove_2 in H. apply H. rewrite app_nil_r. auto. Qed.
Lemma group_get cs : NoDup (map c_name cs) -> forall u, zget u (group cs) = match members cs u with [] => None | m => Some m end.
Proof.
  induction cs as [|c cs IH] using rev_ind; intros ND u; [reflexivity|]. rewrite map_app in ND. cbn in ND. specialize (IH (nodup_app_l _ _ ND)).
  rewrite group_snoc. cbv zeta. unfold members. rewrite filter_app. cbn [filter]. destruct (Z.eq_dec u (val (c_u c))) as [-> |NE].
  - rewrite zput_same, Z.eqb_refl, map_app, IH. cbn [map].
    assert (N : ~ In (c_name c) (map fst (members cs (val (c_u c))))). { rewrite members_keys. intros I. apply (nodup_app_last _ _ ND). apply in_map_iff in I. destruct I as [x [E I]]. apply filter_In in I. rewrite <- E. apply in_map. tauto. }
    destruct (members cs (val (c_u c))) as [|p m] eqn:E; unfold members in E; rewrite E; [reflexivity|]. rewrite zput_new by auto. destruct (p :: m) eqn:E2; [discriminate|]. reflexivity.
  - rewrite zput_other by auto. replace (val (c_u c) =? u) with false by lia. rewrite app_nil_r. apply IH.
Qed.
Lemma group_keys cs : forall u, In u (map fst (group cs)) <-> universe cs u.
Proof.
  induction cs as [|c cs IH] using rev_ind; intros u; [cbn; split; [tauto|intros (c & [] & _)]|]. rewrite group_snoc. cbv zeta. rewrite zput_keys.
  assert (X : universe (cs ++ [c]) u <-> universe cs u \/ u = val (c_u c)).
  { unfold universe. split.
    - intros (x & I & E). apply in_app_or in I. destruct I as [I|[<- |[]]]; [left; eauto|auto].
    - intros [(x & I & E)| ->]; [exists x; split; auto; apply in_or_app; auto|exists c; split; auto; apply in_or_app; right; left; auto]. }
  rewrite X, <- IH. destruct (mem (val (c_u c)) (map fst (group cs))) eqn:M.
  - apply mem_in in M. split; auto. intros [H| ->]; auto.
  - rewrite in_app_iff. cbn. split; intros [H|H]; auto. destruct H as [H|[]]; auto.
Qed.
Lemma group_nodup cs : NoDup (map fst (group cs)).
Proof. induction cs as [|c cs IH] using rev_ind; [constructor|]. rewrite group_snoc. cbv zeta. apply zput_nodup. auto. Qed.

(** ** levels *)
Lemma containers_in cs c : In c (containers cs) <-> In c cs /\ exists f, c_fill c = Some f /\ f <> 0.
Proof. unfold containers. rewrite filter_In, truthy_some. tauto. Qed.
Lemma nests_containers cs a b : nests cs a b <-> exists c, In c (containers cs) /\ val (c_u c) = a /\ val (c_fill c) = b.
Proof.
  unfold nests. split.
  - intros (c & I & U & F & N). exists c. rewrite containers_in. split; [eauto|]. split; auto. rewrite F. reflexivity.
  - intros (c & I & U & F). apply containers_in in I. destruct I as (I & f & E & N). exists c. rewrite E in F. cbn in F. subst. auto.
Qed.
Lemma labels_in cs b : In b (labels cs) <-> exists a, nests cs a b.
Proof.
  unfold labels. rewrite in_map_iff. split.
  - intros (c & E & I). exists (val (c_u c)). apply nests_containers. eauto.
  - intros (a & N). apply nests_containers in N. destruct N as (c & I & _ & E). eauto.
Qed.
Section Levels.
Variables (cs : list cell) (root : Z).
Notation path := (path cs root). Notation depth_of := (depth_of cs root).

Fixpoint reach (n : nat) : list Z :=
  match n with
  | O => [root]
  | S k => map (fun c => val (c_fill c)) (filter (fun c => mem (val (c_u c)) (reach k)) (containers cs))
  end.
Lemma reach_spec n : forall u, path n u <-> In u (reach n).
Proof.
  induction n as [|n IH]; intros u.
  - split; [intros H; inversion H; cbn; auto|intros [<- |[]]; constructor].
  - cbn [reach]. rewrite in_map_iff. split.
    + intros H. inversion H as [|? a ? P N]; subst. apply nests_containers in N. destruct N as (c & I & U & F). exists c. split; auto. apply filter_In. split; auto. apply mem_in. rewrite <- IH. congruence.
    + intros (c & F & I). apply filter_In in I. destruct I as [I M]. apply mem_in in M. rewrite <- IH in M. econstructor; [exact M|]. apply nests_containers. eauto.
Qed.
Lemma path_dec n u : path n u \/ ~ path n u.
Proof. rewrite reach_spec. destruct (in_dec Z.eq_dec u (reach n)); auto. Qed.
Lemma least n u : path n u -> exists m, (m <= n)%nat /\ depth_of m u.
Proof.
  revert u. induction n as [n IH] using lt_wf_ind. intros u P.
  assert (D : forall k, (exists m, (m < k)%nat /\ path m u) \/ forall m, (m < k)%nat -> ~ path m u).
  { induction k as [|k D]; [right; intros m L; lia|]. destruct D as [(m & L & Q)|H]; [left; exists m; split; [lia|auto]|].
    destruct (path_dec k u) as [Q|Q]; [left; exists k; split; auto|]. right. intros m L. destruct (Nat.eq_dec m k) as [-> |]; auto. apply H. lia. }
  destruct (D n) as [(m & L & Q)|H]; [|exists n; split; auto; split; auto]. destruct (IH m L u Q) as (k & K & Z). exists k. split; auto. lia.
Qed.
Lemma depth_fun n m u : depth_of n u -> depth_of m u -> n = m.
Proof. intros [P H] [Q K]. destruct (Nat.lt_trichotomy n m) as [L|[L|L]]; auto; [destruct (K n L P)|destruct (H m L Q)]. Qed.
(** a universe nested at depth n+1 has one of depth n around it *)
Lemma depth_prev n v : depth_of (S n) v -> exists u, depth_of n u /\ nests cs u v.
Proof.
  intros [P H]. inversion P as [|? u ? Q N]; subst. exists u. split; auto. split; auto. intros m L R. apply (H (S m)); [lia|]. econstructor; eauto.
Qed.
Definition at_depth (n : nat) (c : cell) : Prop := In c (containers cs) /\ depth_of n (val (c_u c)).
Lemma at_depth_prev n c : at_depth (S n) c -> exists c', at_depth n c'.
Proof. intros [I D]. destruct (depth_prev _ _ D) as (u & Du & N). apply nests_containers in N. destruct N as (c' & I' & U & _). exists c'. split; auto. rewrite U. auto. Qed.
Lemma at_depth_all n : (forall c, ~ at_depth n c) -> forall m c, (n <= m)%nat -> ~ at_depth m c.
Proof. intros H m. induction m as [|m IH]; intros c L A. - replace n with 0%nat in H by lia. exact (H c A). - destruct (Nat.eq_dec n (S m)) as [-> |]; [exact (H c A)|]. destruct (at_depth_prev _ _ A) as [c' A']. apply (IH c'); auto. lia. Qed.

Definition inv (k : nat) (cur : list Z) (cont : list cell) : Prop :=
  (forall u, In u cur -> path k u) /\ (forall u, depth_of k u -> In u cur) /\
  forall c, In c cont <-> In c (containers cs) /\ forall m, (m < k)%nat -> ~ path m (val (c_u c)).
Lemma inv_start : inv 0 [root] (containers cs).
Proof. split; [intros u [<- |[]]; constructor|]. split; [intros u [P _]; inversion P; cbn; auto|]. intros c. split; [intros I; split; auto; intros m L; lia|tauto]. Qed.
Lemma inv_now k cur cont c : inv k cur cont -> (In c cont /\ In (val (c_u c)) cur) <-> at_depth k c.
Proof.
  intros (A & B & C). unfold at_depth. rewrite C. split.
  - intros [[I N] M]. split; auto. split; auto.
  - intros [I D]. split; [split; auto; apply D|]. auto.
Qed.
Lemma inv_next k cur cont : inv k cur cont ->
  inv (S k) (map (fun c => val (c_fill c)) (filter (fun c => mem (val (c_u c)) cur) (rev cont))) (filter (fun c => negb (mem (val (c_u c)) cur)) cont).
Proof.
  intros I. assert (I0 := I). destruct I as (A & B & C). split; [|split].
  - intros v H. apply in_map_iff in H. destruct H as (c & E & H). apply filter_In in H. destruct H as [H M]. apply in_rev in H. apply mem_in in M.
    econstructor; [exact (A _ M)|]. apply nests_containers. exists c. split; auto. apply C in H. tauto.
  - intros v D. destruct (depth_prev _ _ D) as (u & Du & N). apply nests_containers in N. destruct N as (c & Ic & U & F). apply in_map_iff. exists c. split; auto.
    assert (AD : at_depth k c) by (split; auto; rewrite U; auto). apply (inv_now _ _ _ _ I0) in AD. apply filter_In. split; [apply in_rev; rewrite rev_involutive; tauto|]. apply mem_in. tauto.
  - intros c. rewrite filter_In, negb_true_iff, mem_out, C. split.
    + intros [[Ic N] M]. split; auto. intros m L P. destruct (Nat.eq_dec m k) as [-> |]; [|apply (N m); auto; lia]. apply M. apply B. split; auto.
    + intros [Ic N]. split; [split; auto|]. intros M. apply A in M. apply (N k); auto.
Qed.
Lemma level_loop_spec fuel : forall k cur cont, inv k cur cont -> (List.length cont < fuel)%nat ->
  exists ls vs, level_loop fuel (S k) cur cont = Ok (ls, vs) /\
  (forall i v, In v (nth i ls []) <-> exists c, at_depth (k + i) c /\ val (c_fill c) = v) /\
  (forall i, (i < List.length ls)%nat <-> exists c, at_depth (k + i) c) /\
  (forall n l, In (n, l) vs <-> exists i c, l = (S k + i)%nat /\ at_depth (k + i) c /\ c_name c = n).
Proof.
  induction fuel as [|fuel IH]; intros k cur cont I L; [lia|]. cbn [level_loop].
  assert (NX := inv_next _ _ _ I). assert (NW := fun c => inv_now _ _ _ c I).
  set (now := filter (fun c => mem (val (c_u c)) cur) (rev cont)) in *. set (rest := filter (fun c => negb (mem (val (c_u c)) cur)) cont) in *.
  assert (NW' : forall c, In c now <-> at_depth k c). { intros c. rewrite <- NW. unfold now. rewrite filter_In, mem_in, <- in_rev. tauto. }
  destruct now as [|c0 now'] eqn:EN.
  - cbn [map]. assert (E : forall i c, ~ at_depth (k + i) c). { intros i c. apply (at_depth_all k); [|lia]. intros c'. rewrite <- NW'. auto. }
    exists [], []. split; auto. split; [|split].
    + intros i v. destruct i; cbn; split; try tauto; intros (c & A & _); eapply E; eauto.
    + intros i. cbn. split; [lia|]. intros (c & A). destruct (E i c A).
    + intros n l. cbn. split; [tauto|]. intros (i & c & _ & A & _). destruct (E i c A).
  - rewrite <- EN in *. clear NW.
    assert (LR : (List.length rest < fuel)%nat).
    { assert (LL : (List.length rest < List.length cont)%nat); [|lia]. assert (IC : In c0 cont) by (apply (inv_now _ _ _ _ I); apply NW'; rewrite EN; left; auto).
      assert (MC : mem (val (c_u c0)) cur = true). { assert (In c0 now) by (rewrite EN; left; auto). rewrite EN in H. rewrite <- EN in H. apply mem_in. apply (inv_now _ _ _ c0 I). apply NW'. auto. }
      unfold rest. clear -IC MC. induction cont as [|x cont IHc]; [destruct IC|]. cbn. destruct IC as [-> |IC].
      - rewrite MC. cbn. assert (F := filter_len (fun c => negb (mem (val (c_u c)) cur)) cont). lia.
      - destruct (negb _); cbn; [specialize (IHc IC); lia|]. assert (F := filter_len (fun c => negb (mem (val (c_u c)) cur)) cont). lia. }
    destruct (IH (S k) _ _ NX LR) as (ls & vs & E & S1 & S2 & S3).
    destruct (map (fun c => val (c_fill c)) now) as [|v0 nx] eqn:EM; [rewrite EN in EM; discriminate|]. rewrite E. cbn [bind].
    exists ((v0 :: nx) :: ls), (map (fun c => (c_name c, S k)) now ++ vs). split; auto. rewrite <- EM. split; [|split].
    + intros [|i] v; cbn [nth].
      * rewrite in_map_iff. replace (k + 0)%nat with k by lia. split; intros (c & H1 & H2); exists c; [rewrite <- NW'|rewrite NW']; auto.
      * rewrite S1. replace (S k + i)%nat with (k + S i)%nat by lia. tauto.
    + intros [|i]; cbn [List.length].
      * replace (k + 0)%nat with k by lia. split; [|lia]. intros _. exists c0. apply NW'. rewrite EN. left. auto.
      * rewrite <- Nat.succ_lt_mono. rewrite S2. replace (S k + i)%nat with (k + S i)%nat by lia. tauto.
    + intros n l. rewrite in_app_iff, in_map_iff, S3. split.
      * intros [(c & [= <- <-] & H)|(i & c & -> & A & <-)]; [exists 0%nat, c; split; [lia|]; split; auto; replace (k + 0)%nat with k by lia; apply NW'; auto|].
        exists (S i), c. split; [lia|]. split; auto. replace (k + S i)%nat with (S k + i)%nat by lia. auto.
      * intros ([|i] & c & -> & A & <-); [left; exists c; split; [f_equal; lia|]; apply NW'; replace (k + 0)%nat with k in A by lia; auto|].
        right. exists i, c. split; [lia|]. split; auto. replace (S k + i)%nat with (k + S i)%nat by lia. auto.
Qed.
End Levels.

(** ** the root and the check of containers *)
Definition filled (cs : list cell) (u : Z) : Prop := exists a, nests cs a u.
Lemma nth_S_cons {A} (x : A) l k d : nth (S k) (x :: l) d = nth k l d.
Proof. reflexivity. Qed.
Lemma root_some cs r : root_of (map fst (group cs)) (labels cs) = Some r ->
  universe cs r /\ (r = 0 \/ ~ universe cs 0 /\ ~ filled cs r).
Proof.
  unfold root_of. destruct (mem 0 (map fst (group cs))) eqn:E.
  - intros [= <-]. apply mem_in, group_keys in E. auto.
  - apply mem_out in E. rewrite group_keys in E. intros F. apply find_some in F. destruct F as [F G]. apply group_keys in F. split; auto. right. split; auto.
    apply negb_true_iff, mem_out in G. rewrite labels_in in G. exact G.
Qed.
Lemma root_none cs : root_of (map fst (group cs)) (labels cs) = None -> ~ universe cs 0 /\ forall u, universe cs u -> filled cs u.
Proof.
  unfold root_of. destruct (mem 0 (map fst (group cs))) eqn:E; [discriminate|]. apply mem_out in E. rewrite group_keys in E. intros F. split; auto.
  intros u U. apply group_keys in U. apply (find_none _ _ F) in U. apply negb_false_iff, mem_in, labels_in in U. exact U.
Qed.
Lemma check_spec cs o : forallb (fun k => mem k (labels cs) || match o with Some r => k =? r | None => false end) (map fst (group cs)) = true <->
  forall u, universe cs u -> filled cs u \/ o = Some u.
Proof.
  rewrite forallb_forall. split; intros H u U.
  - apply group_keys in U. specialize (H u U). apply orb_true_iff in H. destruct H as [H|H]; [left; apply labels_in; apply mem_in; auto|]. destruct o as [r|]; [|discriminate]. right. f_equal. lia.
  - apply group_keys in U. apply orb_true_iff. destruct (H u U) as [F|F]; [left; apply mem_in, labels_in; auto|]. right. rewrite F. apply Z.eqb_refl.
Qed.
Lemma structure_spec cs s : structure_of cs = Ok s -> exists r,
  root_of (map fst (group cs)) (labels cs) = Some r /\
  (forall u, universe cs u -> filled cs u \/ u = r) /\
  l_universes s = group cs /\
  nth 0 (l_levels s) [] = [r] /\
  (forall k v, In v (nth (S k) (l_levels s) []) <-> exists u, depth_of cs r k u /\ nests cs u v) /\
  (forall k, (S k < List.length (l_levels s))%nat <-> exists u v, depth_of cs r k u /\ nests cs u v) /\
  (0 < List.length (l_levels s))%nat /\
  (forall n k, In (n, k) (l_level s) <-> exists c i f, In c cs /\ c_name c = n /\ c_fill c = Some f /\ f <> 0 /\ depth_of cs r i (val (c_u c)) /\ k = S i).
Proof.
  unfold structure_of. destruct (forallb _ _) eqn:E; [|discriminate]. rewrite check_spec in E. destruct (root_of _ _) as [r|] eqn:R; [|discriminate].
  destruct (level_loop_spec cs r (S (List.length (containers cs))) 0 [r] (containers cs) (inv_start cs r)) as (ls & vs & EL & S1 & S2 & S3); [lia|].
  rewrite EL. cbn [bind]. intros [= <-]. exists r. cbn [l_universes l_levels l_level]. split; auto. split; [intros u U; destruct (E u U) as [F|[= ->]]; auto|]. split; auto. split; auto.
  assert (AD : forall k v, (exists c, at_depth cs r k c /\ val (c_fill c) = v) <-> exists u, depth_of cs r k u /\ nests cs u v).
  { intros k v. split.
    - intros (c & [I D] & F). exists (val (c_u c)). split; auto. apply nests_containers. eauto.
    - intros (u & D & N). apply nests_containers in N. destruct N as (c & I & U & F). exists c. split; auto. split; auto. rewrite U. auto. }
  split; [intros k v; rewrite nth_S_cons, S1; apply AD|]. split; [|split].
  - intros k. cbn [List.length]. rewrite <- Nat.succ_lt_mono, S2. split.
    + intros (c & A). destruct (proj1 (AD k (val (c_fill c)))) as (u & H); eauto.
    + intros (u & v & H). destruct (proj2 (AD k v)) as (c & A & _); eauto.
  - cbn. lia.
  - intros n k. rewrite S3. split.
    + intros (i & c & -> & [I D] & <-). apply containers_in in I. destruct I as (I & f & F & N). exists c, i, f. repeat split; auto; apply D.
    + intros (c & i & f & I & <- & F & N & D & ->). exists i, c. split; auto. split; auto. split; auto. apply containers_in. eauto.
Qed.
Lemma structure_ok cs r : root_of (map fst (group cs)) (labels cs) = Some r -> (forall u, universe cs u -> filled cs u \/ u = r) -> exists s, structure_of cs = Ok s.
Proof.
  intros R H. unfold structure_of. rewrite R. replace (forallb _ _) with true by (symmetry; apply (check_spec cs (Some r)); intros u U; destruct (H u U) as [F| ->]; auto).
  destruct (level_loop_spec cs r (S (List.length (containers cs))) 0 [r] (containers cs) (inv_start cs r)) as (ls & vs & EL & _); [lia|]. rewrite EL. cbn [bind]. eauto.
Qed.
Lemma filled_dec cs u : filled cs u \/ ~ filled cs u.
Proof. unfold filled. rewrite <- labels_in. destruct (in_dec Z.eq_dec u (labels cs)); auto. Qed.
Lemma universe_dec cs u : universe cs u \/ ~ universe cs u.
Proof. rewrite <- group_keys. destruct (in_dec Z.eq_dec u (map fst (group cs))); auto. Qed.
(** the outcome, for every list of cells *)
Lemma structure_total cs :
  match structure_of cs with
  | Ok _ => exists r, (forall u, universe cs u -> filled cs u \/ u = r) /\ universe cs r /\ (r = 0 \/ ~ universe cs 0 /\ ~ filled cs r)
  | Err e => e = UnboundLocal /\ ~ universe cs 0 /\ (forall u, universe cs u -> filled cs u) \/
             e = ValueError /\ exists u r, universe cs u /\ ~ filled cs u /\ u <> r /\ universe cs r /\ (r = 0 \/ ~ universe cs 0 /\ ~ filled cs r)
  | Fuel => False
  end.
Proof.
  destruct (root_of (map fst (group cs)) (labels cs)) as [r|] eqn:R.
  - destruct (forallb (fun k => mem k (labels cs) || (k =? r)) (map fst (group cs))) eqn:F.
    + destruct (structure_ok cs r R) as [s E]; [intros u U; destruct (proj1 (check_spec cs (Some r)) F u U) as [H|[= ->]]; auto|]. rewrite E. exists r.
      split; [intros u U; destruct (proj1 (check_spec cs (Some r)) F u U) as [H|[= ->]]; auto|]. apply root_some. auto.
    + unfold structure_of. rewrite R, F. right. split; auto. assert (RS := root_some _ _ R).
      assert (X : exists u, In u (map fst (group cs)) /\ mem u (labels cs) || (u =? r) = false).
      { clear -F. induction (map fst (group cs)) as [|x l IH]; [discriminate|]. cbn in F. destruct (mem x (labels cs) || (x =? r)) eqn:E; [|exists x; cbn; auto]. destruct (IH F) as (u & I & E'). exists u. cbn. auto. }
      destruct X as (u & I & E). apply orb_false_iff in E. destruct E as [E1 E2]. apply mem_out in E1. rewrite labels_in in E1. apply group_keys in I. exists u, r. split; auto. split; [exact E1|]. split; [lia|auto].
  - destruct (root_none _ R) as [A B]. unfold structure_of. rewrite R. replace (forallb _ _) with true by (symmetry; apply (check_spec cs None); intros u U; left; auto). auto.
Qed.

(** ** the first level where a universe is found is its least depth *)
Lemma find_combine (p : list Z -> bool) ls : forall a, 
  match find (fun q => p (snd q)) (combine (seq a (List.length ls)) ls) with
  | Some (n, l) => exists i, n = (a + i)%nat /\ (i < List.length ls)%nat /\ l = nth i ls [] /\ p (nth i ls []) = true /\ forall j, (j < i)%nat -> p (nth j ls []) = false
  | None => forall i, (i < List.length ls)%nat -> p (nth i ls []) = false
  end.
Proof.
  induction ls as [|x ls IH]; intros a; cbn; [intros i L; lia|]. destruct (p x) eqn:E.
  - exists 0%nat. split; [lia|]. split; [lia|]. split; auto. split; auto. intros j L. lia.
  - specialize (IH (S a)). destruct (find _ _) as [[n l]|].
    + destruct IH as (i & -> & L & -> & P & Q). exists (S i). split; [lia|]. split; [lia|]. split; auto. split; auto. intros [|j] L'; auto. apply Q. lia.
    + intros [|i] L; auto. apply IH. lia.
Qed.
Lemma first_level_spec cs s r : structure_of cs = Ok s -> nth 0 (l_levels s) [] = [r] ->
  forall u, match first_level (l_levels s) u with
            | Some n => depth_of cs r n u /\ (n < List.length (l_levels s))%nat
            | None => forall n, ~ path cs r n u
            end.
Proof.
  intros E R0 u. destruct (structure_spec _ _ E) as (r' & R & _ & _ & N0 & NS & LN & L0 & _). assert (r' = r) by congruence. subst r'. clear E R0.
  unfold first_level. assert (F := find_combine (mem u) (l_levels s) 0). destruct (find _ _) as [[n l]|].
  - destruct F as (i & -> & L & -> & P & Q). cbn. split; auto. apply mem_in in P.
    assert (PI : path cs r i u). { destruct i as [|i]; [rewrite N0 in P; destruct P as [-> |[]]; constructor|]. apply NS in P. destruct P as (a & D & N). econstructor; [apply D|eauto]. }
    destruct (least _ _ _ _ PI) as (m & M & D). destruct (Nat.eq_dec m i) as [-> |NE]; auto. exfalso. assert (ML : (m < i)%nat) by lia. apply Q in ML. apply mem_out in ML. apply ML.
    destruct m as [|m]; [rewrite N0; destruct D as [D _]; inversion D; left; auto|]. apply NS. apply depth_prev. auto.
  - intros n P. destruct (least _ _ _ _ P) as (m & _ & D). destruct m as [|m].
    + specialize (F 0%nat L0). apply mem_out in F. apply F. rewrite N0. destruct D as [D _]; inversion D; left; auto.
    + destruct (depth_prev _ _ _ _ D) as (a & Da & N). assert (L : (S m < List.length (l_levels s))%nat) by (apply LN; eauto). apply F in L. apply mem_out in L. apply L. apply NS. eauto.
Qed.
