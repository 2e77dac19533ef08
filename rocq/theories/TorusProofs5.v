(** Merging the angular ranges of the faces of one torus. *)
From Verif Require Import Prelude Vec3 Prim PrimProofs AddPlane AddPlaneProofs2 TorusAnnex TorusSpec TorusProofs3.
From Coq Require Import List Permutation Sorted.
Open Scope R_scope.

Definition chain (l : list (R * R)) : Prop :=
  StronglySorted (fun p q => snd p <= fst q) l /\ Forall (fun p => 0 <= fst p < snd p /\ snd p <= 2 * PI) l.

Lemma leb_fst p q : pair_leb p q = true -> fst p <= fst q.
Proof. unfold pair_leb. destruct (Rlt_dec _ _); [lra|]. destruct (Rlt_dec _ _); [discriminate|]. lra. Qed.
Lemma leb_fst' p q : pair_leb p q = false -> fst q <= fst p.
Proof. unfold pair_leb. destruct (Rlt_dec _ _); [discriminate|]. lra. Qed.

Lemma insert_perm p l : Permutation (insert_pair p l) (p :: l).
Proof. induction l as [|q r IH]; cbn; auto. destruct (pair_leb p q); auto. rewrite IH. apply perm_swap. Qed.
Lemma sort_perm l : Permutation (sort_pairs l) l.
Proof. induction l as [|p r IH]; cbn; auto. rewrite insert_perm. auto. Qed.

Lemma insert_chain p l : chain l -> 0 <= fst p < snd p /\ snd p <= 2 * PI ->
  (forall q, In q l -> snd p <= fst q \/ snd q <= fst p) -> chain (insert_pair p l).
Proof.
  intros [S B] Hp D. assert (B' : Forall (fun p => 0 <= fst p < snd p /\ snd p <= 2 * PI) (insert_pair p l)).
  { eapply Permutation_Forall; [symmetry; apply insert_perm|]. constructor; auto. }
  split; [|exact B']. clear B'. induction l as [|q r IH]; cbn [insert_pair]; [repeat constructor|].
  inversion S as [|? ? Sr Sq]; subst. inversion B as [|? ? Bq Br]; subst.
  assert (Dq := D q (or_introl eq_refl)).
  destruct (pair_leb p q) eqn:E.
  - apply leb_fst in E. assert (snd p <= fst q) by lra. constructor; auto. constructor; auto.
    rewrite Forall_forall in *. intros x Hx. specialize (Sq x Hx). lra.
  - apply leb_fst' in E. constructor; [apply IH; auto; intros x Hx; apply D; right; auto|].
    rewrite Forall_forall in *. intros x Hx. eapply Permutation_in in Hx; [|apply insert_perm].
    destruct Hx as [<-|Hx]; [lra|auto].
Qed.
Lemma sort_chain l : apart l -> chain (sort_pairs l).
Proof.
  intros [B D]. induction l as [|p r IH]; cbn; [split; constructor|]. inversion D as [|? ? D1 D2]; subst.
  apply insert_chain; [apply IH; [intros q Hq; apply B; right; auto|auto]|apply B; left; auto|].
  intros q Hq. rewrite Forall_forall in D1. apply D1. eapply Permutation_in; [apply sort_perm|exact Hq].
Qed.
Lemma total_perm l l' : Permutation l l' -> total l = total l'.
Proof. induction 1; cbn [total]; lra. Qed.

(** *** a full turn *)
Lemma chain_total l : forall lo hi, StronglySorted (fun p q => snd p <= fst q) l -> (forall p, In p l -> lo <= fst p < snd p /\ snd p <= hi) ->
  lo <= hi -> total l <= hi - lo.
Proof.
  induction l as [|p r IH]; intros lo hi S B H; cbn [total]; [lra|]. inversion S as [|? ? Sr Sp]; subst.
  destruct (B p (or_introl eq_refl)) as [B1 B2]. 
  assert (total r <= hi - snd p); [|lra]. apply IH; auto; try lra. intros q Hq. rewrite Forall_forall in Sp.
  specialize (Sp q Hq). destruct (B q (or_intror Hq)). lra.
Qed.
Lemma chain_avoid l : forall lo hi c rho, StronglySorted (fun p q => snd p <= fst q) l -> (forall p, In p l -> lo <= fst p < snd p /\ snd p <= hi) ->
  l <> [] -> lo <= c <= hi -> (forall p, In p l -> c < fst p - rho \/ snd p + rho < c) -> 0 < rho -> total l < hi - lo - rho.
Proof.
  induction l as [|p r IH]; intros lo hi c rho S B N Hc A Hr; [congruence|]. inversion S as [|? ? Sr Sp]; subst.
  rewrite Forall_forall in Sp. destruct (B p (or_introl eq_refl)) as [B1 B2].
  assert (Br : forall q, In q r -> snd p <= fst q < snd q /\ snd q <= hi).
  { intros q Hq. specialize (Sp q Hq). destruct (B q (or_intror Hq)). lra. }
  destruct (A p (or_introl eq_refl)) as [Q|Q].
  - assert (total (p :: r) <= hi - fst p); [|lra]. cbn [total].
    assert (total r <= hi - snd p) by (apply chain_total; auto; lra). lra.
  - cbn [total]. destruct r as [|q r']; [cbn [total]; lra|].
    assert (total (q :: r') < hi - snd p - rho); [|lra].
    apply (IH (snd p) hi c rho); auto; try discriminate; try lra. intros x Hx. apply A. right. auto.
Qed.

Lemma last_cons {T} (r : list T) : forall q p, last (q :: r) p = last r q.
Proof. induction r as [|x r IH]; intros q p; auto. change (last (x :: r) p = last (x :: r) q). rewrite !IH. auto. Qed.
Lemma last_in {T} (l : list T) : forall p, In (last l p) (p :: l).
Proof. induction l as [|q r IH]; intros p; [left; auto|]. rewrite last_cons. right. apply IH. Qed.

(** *** the first gap *)
Lemma first_gap_ok rp l : forall p, l <> [] -> chain (p :: l) ->
  exists e b, first_gap rp p l = Ok (e, b) /\ exists l1 a q l2, p :: l = l1 ++ a :: q :: l2 /\ e = snd a /\ b = fst q
  /\ (rp <= b - e \/ forall k1 a' q' k2, p :: l = k1 ++ a' :: q' :: k2 -> fst q' - snd a' < rp).
Proof.
  induction l as [|q r IH]; intros p N C; [congruence|]. clear N. cbn [first_gap].
  destruct C as [S B]. inversion S as [|? ? Sr Sp]; subst. inversion Sp as [|? ? Hpq _]; subst. inversion B as [|? ? _ Br]; subst.
  assert (E : Rabs (snd p - fst q) = fst q - snd p) by (rewrite Rabs_left1; lra).
  destruct (rltb (Rabs (snd p - fst q)) rp) eqn:L; rewrite E in L; [apply rltb_true in L|apply rltb_false in L].
  - destruct r as [|x r'].
    + do 2 eexists. split; [reflexivity|]. exists [], p, q, []. repeat split; auto. right.
      intros k1 a' q' k2 H. destruct k1 as [|y1 [|y2 k1]].
      * injection H as -> -> _. lra.
      * injection H as _ _ H. discriminate.
      * injection H as _ _ H. destruct k1; discriminate.
    + destruct (IH q) as (e & b & EQ & l1 & a & q1 & l2 & E1 & E2 & E3 & E4); [discriminate|split; auto|].
      rewrite EQ. do 2 eexists. split; [reflexivity|]. exists (p :: l1), a, q1, l2. rewrite E1. repeat split; auto.
      destruct E4 as [E4|E4]; auto. right. intros k1 a' q' k2 H. destruct k1 as [|y k1].
      * injection H as -> H. rewrite <- E1 in H. injection H as -> _. lra.
      * injection H as -> H. apply (E4 k1 a' q' k2). rewrite E1. auto.
  - do 2 eexists. split; [reflexivity|]. exists [], p, q, r. repeat split; auto.
Qed.

Lemma chain_mid l1 a q l2 : chain (l1 ++ a :: q :: l2) ->
  snd a <= fst q /\ (forall x, In x (l1 ++ a :: q :: l2) -> snd x <= snd a \/ fst q <= fst x).
Proof.
  intros [S B]. rewrite Forall_forall in B. pose proof (ss_split _ _ _ _ S) as [S1 S2]. split; [apply S2; left; auto|].
  intros x Hx. apply in_app_or in Hx as [Hx|[<-|Hx]].
  - specialize (S1 x Hx). destruct (B a); [apply in_or_app; right; left; auto|]. lra.
  - left. lra.
  - right. destruct Hx as [<-|Hx]; [lra|].
    assert (S' : StronglySorted (fun p q => snd p <= fst q) ((l1 ++ [a]) ++ q :: l2)) by (rewrite <- app_assoc; auto).
    pose proof (ss_split _ _ _ _ S') as [_ S3]. specialize (S3 x Hx).
    destruct (B q); [apply in_or_app; right; right; left; auto|]. lra.
Qed.
Lemma chain_ends p l : chain (p :: l) -> forall x, In x (p :: l) -> fst p <= fst x /\ snd x <= snd (last l p).
Proof.
  intros [S B] x Hx. rewrite Forall_forall in B. split.
  - inversion S as [|? ? Sr Sp]; subst. destruct Hx as [->|Hx]; [lra|]. rewrite Forall_forall in Sp. specialize (Sp x Hx).
    destruct (B p (or_introl eq_refl)). lra.
  - destruct (exists_last (l := p :: l)) as (l' & y & E); [discriminate|].
    assert (Ey : last l p = y). { rewrite <- (last_cons l p p), E. apply last_last. }
    rewrite Ey. rewrite E in S, Hx. apply in_app_or in Hx as [Hx|[->|[]]]; [|lra].
    pose proof (ss_split _ _ _ _ S) as [S1 _]. specialize (S1 x Hx).
    destruct (B y) as [B1 _]; [rewrite E; apply in_or_app; right; left; auto|]. lra.
Qed.
(** every angle of a chain without gaps, seam included, is near a range *)
Lemma chain_near rp p l : 0 < rp -> chain (p :: l) -> fst p < rp -> 2 * PI - rp < snd (last l p) ->
  (forall k1 a q k2, p :: l = k1 ++ a :: q :: k2 -> fst q - snd a < rp) ->
  forall c, 0 <= c <= 2 * PI -> exists x e, In x (p :: l) /\ fst x <= e <= snd x /\ Rabs (c - e) < rp.
Proof.
  intros Hr C H0 H1 G c Hc.
  assert (Gen : forall l lo p, lo < fst p + rp -> chain (p :: l) -> fst p - lo < rp -> 2 * PI - rp < snd (last l p) ->
    (forall k1 a q k2, p :: l = k1 ++ a :: q :: k2 -> fst q - snd a < rp) -> lo <= c -> 
    exists x e, In x (p :: l) /\ fst x <= e <= snd x /\ Rabs (c - e) < rp).
  { clear p l C H0 H1 G. induction l as [|q r IH]; intros lo p Hlo C H0 H1 G Hlc.
    - cbn [last] in H1. destruct (Rlt_dec c (fst p)); [exists p, (fst p)|destruct (Rlt_dec (snd p) c); [exists p, (snd p)|exists p, c]];
        destruct C as [_ B]; inversion B; subst; (split; [left; auto|]); (split; [lra|]); apply Rabs_def1; lra.
    - destruct C as [S B]. inversion S as [|? ? Sr Sp]; subst. inversion B as [|? ? Bp Br]; subst. 
      destruct (Rlt_dec c (fst p)); [exists p, (fst p)|destruct (Rlt_dec (snd p) c); [|exists p, c]].
      + split; [left; auto|]. split; [lra|]. apply Rabs_def1; lra.
      + assert (Gp : fst q - snd p < rp) by (apply (G [] p q r); auto). inversion Sp as [|? ? Spq _]; subst.
        destruct (IH (snd p) q) as (x & e & Hx & He & Ha); auto; try lra.
        * split; auto.
        * rewrite last_cons in H1. auto.
        * intros k1 a q' k2 E. apply (G (p :: k1) a q' k2). rewrite E. auto.
        * exists x, e. split; [right; auto|auto].
      + split; [left; auto|]. split; [lra|]. apply Rabs_def1; lra. }
  apply (Gen l 0 p); auto; try lra.
  destruct C as [_ B]. inversion B; subst. lra.
Qed.

Lemma turn_shift a b u z : turn_between a b u <-> turn_between a b (u + 2 * PI * IZR z).
Proof.
  split; intros [k H].
  - exists (k - z)%Z. rewrite minus_IZR. lra.
  - exists (k + z)%Z. rewrite plus_IZR. lra.
Qed.
Lemma covered_shift rs u z : covered rs u <-> covered rs (u + 2 * PI * IZR z).
Proof. split; intros (p & H1 & H2); exists p; (split; [auto|]); apply (turn_shift _ _ u z); auto. Qed.
Lemma covered_in rs p u : In p rs -> fst p <= u <= snd p -> covered rs u.
Proof. intros H Hu. exists p. split; auto. exists 0%Z. lra. Qed.
Lemma z_small (z : Z) : -1 < IZR z < 1 -> z = 0%Z.
Proof. intros [H1 H2]. apply lt_IZR in H1. apply lt_IZR in H2. lia. Qed.
(** a point of [0, 2 pi) in no range of a chain is not covered *)
Lemma uncovered rs w : (forall p, In p rs -> 0 <= fst p < snd p /\ snd p <= 2 * PI) -> 0 < w < 2 * PI ->
  (forall p, In p rs -> w < fst p \/ snd p < w) -> ~ covered rs w.
Proof.
  intros B Hw D (p & Hp & z & Hz). destruct (B p Hp) as [B1 B2]. pose proof PI_RGT_0.
  assert (z = 0%Z). { apply z_small. nra. } subst. destruct (D p Hp); lra.
Qed.

(** two gaps cannot be in the complement of one arc *)
Lemma two_gaps rs x y u w e e' : x <= y < x + 2 * PI -> (forall t, covered rs t <-> turn_between x y t) ->
  ~ covered rs u -> ~ covered rs w -> u < e < w -> w < e' < u + 2 * PI -> covered rs e -> covered rs e' -> False.
Proof.
  intros Hxy A Nu Nw He He' Ce Ce'. pose proof PI_RGT_0 as PP.
  destruct (reduce_turn x u) as [z Hz]. 
  assert (U : y < u + 2 * PI * IZR z). { destruct (Rlt_le_dec y (u + 2 * PI * IZR z)); auto. exfalso. apply Nu, A. exists z. lra. }
  assert (In_w : forall t, y < t < x + 2 * PI -> ~ covered rs t).
  { intros t Ht C. apply A in C as [k Hk]. assert (k = 0%Z \/ k <> 0%Z) as [->|Nk] by lia; [lra|].
    assert (IZR k <= -1 \/ 1 <= IZR k) as [Q|Q].
    { assert (k <= -1 \/ 1 <= k)%Z as [Q|Q] by lia; [left; apply (IZR_le k (-1)); auto|right; apply (IZR_le 1 k); auto]. }
    - nra.
    - nra. }
  assert (sh : forall t k, covered rs t -> covered rs (t + 2 * PI * IZR k)) by (intros t k Ht; apply covered_shift; auto).
  destruct (Rlt_le_dec (w + 2 * PI * IZR z) (x + 2 * PI)) as [L|L].
  - apply (In_w (e + 2 * PI * IZR z)); [lra|auto].
  - assert (W : y < w + 2 * PI * IZR (z - 1)).
    { destruct (Rlt_le_dec y (w + 2 * PI * IZR (z - 1))); auto. exfalso. apply Nw, A. exists (z - 1)%Z. rewrite minus_IZR in *. lra. }
    apply (In_w (e' + 2 * PI * IZR (z - 1))); [rewrite minus_IZR in *; lra|auto].
Qed.

Lemma merge_ok rp ranges : 0 < rp -> ranges <> [] -> apart ranges ->
  exists closed a b, merge_periodic rp ranges = Ok (closed, (a, b)) /\
  (closed = true -> forall u, exists e, covered ranges e /\ Rabs (u - e) <= 2 * PI * rp) /\
  (closed = false -> b - a <= 2 * PI /\ (forall u, covered ranges u -> turn_between a b u) /\
     forall x y, x <= y <= x + 2 * PI - 2 * rp -> (forall u, covered ranges u <-> turn_between x y u) ->
       forall u, turn_between a b u -> covered ranges u).
Proof.
  intros Hrp Hne HA. pose proof PI_RGT_0 as PP. pose proof PI2_3_2 as P3.
  pose proof (sort_chain ranges HA) as C. pose proof (sort_perm ranges) as SP.
  assert (Hin : forall p, In p (sort_pairs ranges) <-> In p ranges) by (intros p; split; apply Permutation_in; [|symmetry]; auto).
  assert (Hcov : forall u, covered (sort_pairs ranges) u <-> covered ranges u).
  { intros u. split; intros (p & H1 & H2); exists p; (split; [apply Hin; auto|auto]). }
  unfold merge_periodic. destruct (sort_pairs ranges) as [|p rest] eqn:ES.
  { exfalso. apply Permutation_nil in SP. congruence. }
  destruct HA as [HB _]. pose proof (chain_ends p rest C) as Ends.
  assert (B : forall q, In q (p :: rest) -> 0 <= fst q < snd q /\ snd q <= 2 * PI) by (intros q Hq; apply HB, Hin; auto).
  set (lst := last rest p) in *. assert (Hl : In lst (p :: rest)) by apply last_in.
  assert (Hp : In p (p :: rest)) by (left; auto).
  destruct (Rle_dec (2 * PI * (1 - rp)) (total ranges)) as [T|T].
  - exists true, (fst p), (fst p + 2 * PI). split; [auto|]. split; [|discriminate]. intros _ u.
    destruct (reduce_turn 0 u) as [z Hz]. set (c := u + 2 * PI * IZR z) in *. set (rho := 2 * PI * rp).
    assert (Hrho : 0 < rho) by (unfold rho; nra).
    destruct (Exists_dec (fun q => fst q - rho <= c <= snd q + rho) (p :: rest)) as [Ex|Ex].
    { intros q. destruct (Rle_dec (fst q - rho) c), (Rle_dec c (snd q + rho)); [left; lra|right; lra..]. }
    + apply Exists_exists in Ex as (q & Hq & Hc).
      assert (G : exists e, fst q <= e <= snd q /\ Rabs (c - e) <= rho).
      { destruct (B q Hq). destruct (Rlt_dec c (fst q)); [exists (fst q)|destruct (Rlt_dec (snd q) c); [exists (snd q)|exists c]];
          (split; [lra|]); apply Rabs_le; lra. }
      destruct G as (e & He & Hd). exists (e + 2 * PI * IZR (- z)). split.
      * apply covered_shift, Hcov. apply (covered_in _ q); auto.
      * rewrite opp_IZR. replace (u - (e + 2 * PI * - IZR z)) with (c - e) by (unfold c; ring). auto.
    + exfalso. assert (total (p :: rest) < 2 * PI - 0 - rho).
      { apply (chain_avoid (p :: rest) 0 (2 * PI) c rho); auto; try discriminate; try lra.
        - apply C.
        - intros q Hq. destruct (Rlt_le_dec c (fst q - rho)) as [|Q1]; auto. destruct (Rlt_le_dec (snd q + rho) c) as [|Q2]; auto.
          exfalso. apply Ex, Exists_exists. exists q. auto. }
      rewrite (total_perm _ _ SP) in H. unfold rho in H. lra.
  - destruct (rltb (Rabs (fst p - 0)) rp && rltb (Rabs (snd lst - 2 * PI)) rp) eqn:L.
    + apply andb_true_iff in L as [L1 L2]. apply rltb_true, Rabs_def2 in L1, L2.
      destruct rest as [|q0 rest0].
      { exfalso. cbn [last] in lst. unfold lst in *. apply T. rewrite <- (total_perm _ _ SP). cbn [total]. nra. }
      destruct (first_gap_ok rp (q0 :: rest0) p) as (e & b & EG & l1 & a & q & l2 & E1 & E2 & E3 & E4); [discriminate|auto|].
      rewrite EG. cbn [bind]. exists false, (b - 2 * PI), e. split; [auto|]. split; [discriminate|]. intros _.
      assert (Cm := C). rewrite E1 in Cm. destruct (chain_mid _ _ _ _ Cm) as [M1 M2].
      assert (Ha : In a (p :: q0 :: rest0)) by (rewrite E1; apply in_or_app; right; left; auto).
      assert (Hq : In q (p :: q0 :: rest0)) by (rewrite E1; apply in_or_app; right; right; left; auto).
      destruct (B a Ha) as [Ba1 Ba2]. destruct (B q Hq) as [Bq1 Bq2]. subst e b.
      split; [lra|]. split.
      * intros u Hu. apply Hcov in Hu as (x & Hx & z & Hz). destruct (B x Hx) as [Bx1 Bx2].
        rewrite E1 in Hx. destruct (M2 x Hx) as [Q|Q].
        -- exists z. lra.
        -- exists (z - 1)%Z. rewrite minus_IZR. lra.
      * intros x y Hxy HU u [z Hz]. apply (covered_shift _ u z). set (c := u + 2 * PI * IZR z) in *.
        destruct (Req_EM_T c (snd a)) as [->|N1]; [apply Hcov, (covered_in _ a); auto; lra|].
        destruct (Req_EM_T c (fst q - 2 * PI)) as [->|N2].
        { replace (fst q - 2 * PI) with (fst q + 2 * PI * IZR (-1)) by (replace (IZR (-1)) with (-1) by auto; ring).
          apply covered_shift, Hcov, (covered_in _ q); auto; lra. }
        destruct (Exists_dec (fun r => fst r <= c <= snd r) (p :: q0 :: rest0)) as [Ex|Ex].
        { intros r. destruct (Rle_dec (fst r) c), (Rle_dec c (snd r)); [left; lra|right; lra..]. }
        { apply Exists_exists in Ex as (r & Hr & Hc). apply Hcov, (covered_in _ r); auto. }
        destruct E4 as [E4|E4].
        -- 
           assert (D : covered ranges c \/ ~ covered ranges c).
           { destruct (reduce_turn x c) as [k Hk]. destruct (Rle_dec (c + 2 * PI * IZR k) y) as [Q|Q].
             - left. apply HU. exists k. lra.
             - right. intros CC. apply HU in CC as [k' Hk']. 
               assert (k' = k); [|subst; lra]. assert (k' - k = 0)%Z; [|lia]. apply z_small. rewrite minus_IZR. nra. }
           destruct D as [D|D]; auto. exfalso. set (w := (snd a + fst q) / 2).
           apply (two_gaps ranges x y c w (snd a) (fst q)); auto; try (unfold w; lra).
           ++ intros CC. apply Hcov in CC. revert CC. apply uncovered; auto; [unfold w; lra|].
              intros r Hr. rewrite E1 in Hr. destruct (M2 r Hr); [right|left]; unfold w; lra.
           ++ apply Hcov, (covered_in _ a); auto; lra.
           ++ apply Hcov, (covered_in _ q); auto; lra.
        -- exfalso. set (mid := (y + (x + 2 * PI)) / 2). destruct (reduce_turn 0 mid) as [k Hk].
           destruct (chain_near rp p (q0 :: rest0) Hrp C) with (c := mid + 2 * PI * IZR k) as (r & e & Hr & He & Hd); auto; try (fold lst; lra).
           assert (CE : covered ranges (e + 2 * PI * IZR (- k))) by (apply covered_shift, Hcov, (covered_in _ r); auto).
           apply HU in CE as [k' Hk']. apply Rabs_def2 in Hd. rewrite opp_IZR in Hk'.
           assert (Q : y < e + 2 * PI * - IZR k < x + 2 * PI) by (unfold mid in Hd; lra).
           assert (k' = 0%Z \/ k' <> 0%Z) as [->|Nk] by lia; [lra|].
           assert (IZR k' <= -1 \/ 1 <= IZR k') as [Q'|Q'].
           { assert (k' <= -1 \/ 1 <= k')%Z as [Q'|Q'] by lia; [left; apply (IZR_le k' (-1)); auto|right; apply (IZR_le 1 k'); auto]. }
           ++ nra.
           ++ nra.
    + exists false, (fst p), (snd lst). split; [auto|]. split; [discriminate|]. intros _.
      destruct (B p Hp) as [Bp1 Bp2]. destruct (B lst Hl) as [Bl1 Bl2].
      split; [lra|]. split.
      * intros u Hu. apply Hcov in Hu as (x & Hx & z & Hz). exists z. destruct (Ends x Hx). lra.
      * intros x y Hxy HU u [z Hz]. apply (covered_shift _ u z). set (c := u + 2 * PI * IZR z) in *.
        destruct (Req_EM_T c (fst p)) as [->|N1]; [apply Hcov, (covered_in _ p); auto; lra|].
        destruct (Req_EM_T c (snd lst)) as [->|N2]; [apply Hcov, (covered_in _ lst); auto; lra|].
        assert (D : covered ranges c \/ ~ covered ranges c).
        { destruct (reduce_turn x c) as [k Hk]. destruct (Rle_dec (c + 2 * PI * IZR k) y) as [Q|Q].
          - left. apply HU. exists k. lra.
          - right. intros CC. apply HU in CC as [k' Hk']. 
            assert (k' = k); [|subst; lra]. assert (k' - k = 0)%Z; [|lia]. apply z_small. rewrite minus_IZR. nra. }
        destruct D as [D|D]; auto. exfalso.
        assert (Gap : snd lst < fst p + 2 * PI).
        { apply andb_false_iff in L as [L|L]; apply rltb_false in L; [rewrite Rabs_right in L by lra; lra|].
          rewrite Rabs_left1 in L by lra. lra. }
        set (w := (snd lst + (fst p + 2 * PI)) / 2).
        apply (two_gaps ranges x y c w (snd lst) (fst p + 2 * PI * IZR 1)); auto; try (unfold w; lra).
        -- intros CC. apply Hcov in CC as (r & Hr & k & Hk). destruct (Ends r Hr). destruct (B r Hr).
           assert (Hk1 : (k <= -1 \/ 0 <= k)%Z) by lia. destruct Hk1 as [Hk1|Hk1]; apply IZR_le in Hk1.
           ++ unfold w in Hk. nra.
           ++ unfold w in Hk. nra.
        -- apply Hcov, (covered_in _ lst); auto; lra.
        -- apply covered_shift, Hcov, (covered_in _ p); auto; lra.
Qed.
