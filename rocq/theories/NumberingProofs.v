(** Proofs about the numbering of cells. *)
From Coq Require Import Permutation.
From Verif Require Import Prelude Enclosures Numbering.

(** ** Specification *)
(** The cells of the final list, in order, and their labels. *)
Definition cells (l : list line) : list cell := flat_map (fun x => match x with Line c _ _ => [c] | Sep => [] end) l.
Definition nums (l : list line) : list Z := flat_map (fun x => match x with Line _ n _ => [n] | Sep => [] end) l.
(** start, start + 1, ..., n numbers *)
Fixpoint zseq (start : Z) (n : nat) : list Z := match n with O => [] | S n => start :: zseq (start + 1) n end.
Definition kept (m : cell) : bool := negb (null m || isenc m).
Definition written (m : cell) : bool := negb (null m).

Lemma cells_app a b : cells (a ++ b) = cells a ++ cells b. Proof. apply flat_map_app. Qed.
Lemma nums_app a b : nums (a ++ b) = nums a ++ nums b. Proof. apply flat_map_app. Qed.
Lemma zseq_app a : forall s b, zseq s (a + b) = zseq s a ++ zseq (s + Z.of_nat a) b.
Proof.
  induction a as [|a IH]; intros s b; cbn [zseq plus app]; [rewrite Z.add_0_r; auto|]. rewrite IH. do 2 f_equal. f_equal. lia.
Qed.
Lemma zseq_in n : forall s x, In x (zseq s n) <-> s <= x < s + Z.of_nat n.
Proof. induction n as [|n IH]; intros s x; cbn [zseq In]; [lia|]. rewrite IH. lia. Qed.
Lemma zseq_nodup n : forall s, NoDup (zseq s n).
Proof. induction n as [|n IH]; intros s; cbn [zseq]; constructor; auto. rewrite zseq_in. lia. Qed.
Lemma zseq_length n : forall s, length (zseq s n) = n.
Proof. induction n; intros; cbn; auto. Qed.

(** the dict after a list of lines *)
Definition pairs (o : list line) : labels := flat_map (fun x => match x with Line c n _ => [(cid c, n)] | Sep => [] end) o.
Lemma pairs_app a b : pairs (a ++ b) = pairs a ++ pairs b. Proof. apply flat_map_app. Qed.
Lemma number_solids_spec : forall l i d o n d', number_solids i d l = (o, (n, d')) ->
  cells o = filter kept l /\ nums o = zseq (i + 1) (length (cells o)) /\ n = i + Z.of_nat (length (cells o)) /\ d' = rev (pairs o) ++ d.
Proof.
  induction l as [|m l IH]; intros i d o n d' H; cbn [number_solids] in H.
  - injection H as <- <- <-. cbn. repeat split; auto. lia.
  - cbn [filter]. unfold kept at 1. destruct (null m || isenc m); cbn [negb]; [apply IH in H; auto|].
    destruct (number_solids (i + 1) ((cid m, i + 1) :: d) l) as [o' [n' d'']] eqn:E. injection H as <- <- <-.
    destruct (IH _ _ _ _ _ E) as (A & B & C & D). cbn [cells nums pairs flat_map app length] in *. fold (cells o') (nums o') (pairs o').
    rewrite A, B, <- A. repeat split; auto; [rewrite C; fold (cells o'); lia|]. cbn [rev]. rewrite <- app_assoc. exact D.
Qed.
Lemma give_labels_spec : forall l i d o n d', give_labels i d l = (o, (n, d')) ->
  cells o = filter written l /\ nums o = zseq (i + 1) (length (cells o)) /\ n = i + Z.of_nat (length (cells o)) /\ d' = rev (pairs o) ++ d.
Proof.
  induction l as [|m l IH]; intros i d o n d' H; cbn [give_labels] in H.
  - injection H as <- <- <-. cbn. repeat split; auto. lia.
  - cbn [filter]. unfold written at 1. destruct (null m); cbn [negb]; [apply IH in H; auto|].
    destruct (give_labels (i + 1) ((cid m, i + 1) :: d) l) as [o' [n' d'']] eqn:E. injection H as <- <- <-.
    destruct (IH _ _ _ _ _ E) as (A & B & C & D). cbn [cells nums pairs flat_map app length] in *. fold (cells o') (nums o') (pairs o').
    rewrite A, B, <- A. repeat split; auto; [rewrite C; fold (cells o'); lia|]. cbn [rev]. rewrite <- app_assoc. exact D.
Qed.
Lemma number_voids_spec : forall l i d o, number_voids i d l = Ok o ->
  cells o = filter written l /\ nums o = zseq (i + 1) (length (cells o)) /\
  (forall v n c, In (Line v n c) o -> update_comment d v = Ok c) /\ ~ In Sep o.
Proof.
  induction l as [|m l IH]; intros i d o H; cbn [number_voids] in H.
  - injection H as <-. cbn. split; [auto|]. split; [auto|]. split; [intros ? ? ? []|intros []].
  - cbn [filter]. unfold written at 1. destruct (null m); cbn [negb]; [apply IH in H; auto|].
    inv_bind. injection H as <-. destruct (IH _ _ _ Ha0) as (A & B & C & D). cbn [cells nums flat_map app length] in *. fold (cells a0) (nums a0).
    rewrite A, B, <- A. repeat split; auto.
    + intros v n c [E|I]; [injection E as <- <- <-; auto|eauto].
    + intros [E|I]; [discriminate|auto].
Qed.

Lemma label_of_app i : forall a b, (forall x, In x a -> fst x <> i) -> label_of i (a ++ b) = label_of i b.
Proof.
  induction a as [|[k v] a IH]; intros b H; cbn [app label_of]; auto.
  destruct (Z.eqb_spec k i) as [->|_]; [exfalso; apply (H (i, v)); simpl; auto|]. apply IH. intros; apply H; simpl; auto.
Qed.
Lemma label_of_in i : forall d, (exists v, label_of i d = Ok v) <-> In i (map fst d).
Proof.
  induction d as [|[k v] d IH]; cbn [label_of map fst].
  - split; [intros (? & ?); discriminate|intros []].
  - destruct (Z.eqb_spec k i) as [->|N]; [split; simpl; eauto|]. rewrite IH. split; [right; auto|]. intros [E|]; [cbn in E; congruence|auto].
Qed.
Lemma label_of_err i d : ~ In i (map fst d) -> label_of i d = Err KeyError.
Proof.
  induction d as [|[k v] d IH]; cbn [label_of map fst]; auto. intros H. destruct (Z.eqb_spec k i) as [->|N]; [exfalso; apply H; simpl; auto|].
  apply IH. intros I. apply H. right; auto.
Qed.
Lemma label_of_val i v d : NoDup (map fst d) -> In (i, v) d -> label_of i d = Ok v.
Proof.
  induction d as [|[k w] d IH]; intros N I; [destruct I|]. destruct I as [E|I]; cbn [label_of].
  - injection E as -> ->. rewrite Z.eqb_refl. auto.
  - cbn in N. inversion N; subst. destruct (Z.eqb_spec k i) as [->|]; [|auto]. exfalso. apply H1. apply (in_map fst) in I. exact I.
Qed.
Lemma label_of_mem i v d : label_of i d = Ok v -> In (i, v) d.
Proof.
  induction d as [|[k w] d IH]; cbn [label_of]; [discriminate|]. destruct (Z.eqb_spec k i) as [->|]; [intros [= ->]; simpl; auto|right; auto].
Qed.
Lemma pairs_in o i v : In (i, v) (pairs o) <-> exists c k, In (Line c v k) o /\ cid c = i.
Proof.
  unfold pairs. rewrite in_flat_map. split.
  - intros ([c n k|] & I & X); [|destruct X]. destruct X as [E|[]]. injection E as <- <-. eauto.
  - intros (c & k & I & <-). exists (Line c v k). simpl; auto.
Qed.
Lemma pairs_fst o : map fst (pairs o) = map cid (cells o).
Proof. unfold pairs, cells. induction o as [|[c n k|] o IH]; cbn; auto. f_equal. exact IH. Qed.

(** ** the sorted list *)
Definition sorted_cells (voids metas : list cell) : list cell :=
  flat_map (fun m => if null m then [] else if isenc m then filter written (filter (fun v => encid v =? encid m) voids) else [m]) metas.
Lemma sort_metas_spec voids : forall l i d o n d', sort_metas voids i d l = Ok (o, (n, d')) ->
  cells o = sorted_cells voids l /\ nums o = zseq (i + 1) (length (cells o)) /\ n = i + Z.of_nat (length (cells o)) /\ d' = rev (pairs o) ++ d.
Proof.
  induction l as [|m l IH]; intros i d o n d' H; cbn [sort_metas] in H.
  - injection H as <- <- <-. cbn. repeat split; auto. lia.
  - cbn [sorted_cells flat_map]. fold (sorted_cells voids l). destruct (null m); [apply IH in H; auto|].
    destruct (isenc m).
    + inv_bind. destruct (give_labels i d a) as [o1 [n1 d1]] eqn:E. inv_bind. destruct a0 as [o2 [n2 d2]]. injection H as <- <- <-.
      unfold voids_of in Ha. assert (a = filter (fun v => encid v =? encid m) voids) as ->.
      { destruct (filter (fun v => encid v =? encid m) voids); [discriminate|]. injection Ha as <-. reflexivity. }
      destruct (give_labels_spec _ _ _ _ _ _ E) as (A1 & B1 & C1 & D1). destruct (IH _ _ _ _ _ Ha0) as (A2 & B2 & C2 & D2).
      change (Sep :: o1 ++ Sep :: o2) with ([Sep] ++ o1 ++ [Sep] ++ o2). rewrite !cells_app, !nums_app, !pairs_app. cbn [cells nums pairs flat_map app].
      fold (cells o1) (cells o2) (nums o1) (nums o2) (pairs o1) (pairs o2).
      rewrite A1, A2, B1, B2. repeat split.
      * rewrite app_length, zseq_app, A1, A2. f_equal. f_equal. rewrite C1, A1. lia.
      * rewrite app_length, C2, A2, C1, A1. lia.
      * rewrite D2, D1, rev_app_distr, app_assoc. reflexivity.
    + inv_bind. destruct a as [o1 [n1 d1]]. injection H as <- <- <-. destruct (IH _ _ _ _ _ Ha) as (A & B & C & D).
      cbn [cells nums pairs flat_map app length] in *. fold (cells o1) (nums o1) (pairs o1).
      rewrite A, B, <- A. repeat split; auto; [rewrite C; fold (cells o1); lia|]. cbn [rev]. rewrite <- app_assoc. exact D.
Qed.
Lemma add_comments_spec d : forall l o, add_comments d l = Ok o ->
  cells o = cells l /\ nums o = nums l /\
  (forall v n c, In (Line v n c) o -> (if isvoid v && negb (isenc v) then update_comment d v else Ok None) = Ok c).
Proof.
  induction l as [|[c n k|] l IH]; intros o H; cbn [add_comments] in H.
  - injection H as <-. cbn. repeat split; auto. intros ? ? ? [].
  - inv_bind. injection H as <-. destruct (IH _ Ha0) as (A & B & C). cbn [cells nums flat_map app] in *. fold (cells a0) (nums a0) (cells l) (nums l) in *.
    rewrite A, B. repeat split; auto. intros v n' c' [E|I]; [injection E as <- <- <-; auto|eauto].
  - inv_bind. injection H as <-. destruct (IH _ Ha) as (A & B & C). cbn [cells nums flat_map app] in *. fold (cells a) (nums a) (cells l) (nums l) in *.
    repeat split; auto. intros v n' c' [E|I]; [discriminate|eauto].
Qed.
