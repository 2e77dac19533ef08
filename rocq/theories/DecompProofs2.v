(** Proofs for C52, second part: split_bop, simple pieces, volumes, order of planes. *)
From Coq Require Import QArith Qabs Permutation Sorting.Sorted Lqa.
From Verif Require Import Prelude Decomp DecompSpec DecompProofs.

Section Bop.
  Variable Sh T : Type.
  Variable C : cad Sh T.
  Variable op : options.
  Notation split_bop := (split_bop Sh T C op).
  Notation sliced := (sliced Sh T C).

  Lemma leb_true a b : (a <= b)%Q -> Qle_bool a b = true.
  Proof. apply Qle_bool_iff. Qed.
  Lemma leb_false a b : (b < a)%Q -> Qle_bool a b = false.
  Proof. intros H. destruct (Qle_bool a b) eqn:E; auto. apply Qle_bool_iff in E. lra. Qed.
  Lemma leb_cases a b : Qle_bool a b = true /\ (a <= b)%Q \/ Qle_bool a b = false /\ (b < a)%Q.
  Proof.
    destruct (Qle_bool a b) eqn:E.
    - left. split; auto. apply Qle_bool_iff. auto.
    - right. split; auto. apply Qnot_le_lt. intros H. apply leb_true in H. congruence.
  Qed.
  Lemma up_tol t : (Qred (t * (10 # 1)) == t * 10)%Q.
  Proof. rewrite Qred_correct. reflexivity. Qed.
  Lemma down_tol t : (Qred (t * (1 # 10)) == t * (1 # 10))%Q.
  Proof. apply Qred_correct. Qed.
  Lemma div_down t : (Qred (t / (1 # 10)) == t * 10)%Q.
  Proof. rewrite Qred_correct. unfold Qdiv. change (/ (1 # 10))%Q with (10 # 1)%Q. reflexivity. Qed.
  Lemma div_up t : (Qred (t / (10 # 1)) == t * (1 # 10))%Q.
  Proof. rewrite Qred_correct. unfold Qdiv. change (/ (10 # 1))%Q with (1 # 10)%Q. reflexivity. Qed.

  Fixpoint pow10 (k : nat) : Q := match k with O => 1 # 1 | S k => (10 * pow10 k)%Q end.

  Lemma bop_up s ts : forall k t lim, (1 # 1000000000000 <= t)%Q -> (1 # 10 <= t * pow10 k)%Q -> (k < lim)%nat ->
    exists tol, split_bop lim s ts t (10 # 1) = sliced s ts tol.
  Proof.
    induction k as [|k IH]; intros t lim A B L; (destruct lim as [|lim]; [lia|]); cbn [Decomp.split_bop pow10] in *.
    - rewrite leb_true by lra. eauto.
    - destruct (leb_cases (1 # 10) t) as [(-> & _)|(-> & H)]; eauto. rewrite (leb_true _ _ A). cbn [negb].
      unfold Decomp.sliced. destruct (slice C s ts t) as [l|] eqn:E; [exists t; rewrite E; auto|].
      apply (IH (Qred (t * (10 # 1))) lim); [rewrite up_tol; lra|rewrite up_tol; lra|lia].
  Qed.
  Lemma bop_down s ts : scale_up op = false \/ (split_tol op == 0)%Q \/ (1 # 10000000000000 <= split_tol op)%Q ->
    forall k t lim, (t < (1 # 1000000000000) * pow10 k)%Q -> (k + 12 < lim)%nat ->
    exists tol, split_bop lim s ts t (1 # 10) = sliced s ts tol.
  Proof.
    intros HT. induction k as [|k IH]; intros t lim A L; (destruct lim as [|lim]; [lia|]); cbn [Decomp.split_bop pow10] in *.
    - rewrite (leb_false (1 # 10) t) by lra. rewrite (leb_false (1 # 1000000000000) t) by lra. cbn [negb].
      destruct (scale_up op); [|eauto]. change (Qred (1 / (1 # 10))) with (10 # 1)%Q.
      set (t0 := if Qeq_bool (split_tol op) 0 then (1 # 10000000000000)%Q else split_tol op).
      assert (B : (1 # 10000000000000 <= t0)%Q).
      { unfold t0. destruct (Qeq_bool (split_tol op) 0) eqn:E; [lra|]. destruct HT as [|[HT|HT]]; [discriminate| |auto].
        apply Qeq_bool_iff in HT. congruence. }
      apply (bop_up s ts 11); [rewrite div_down; lra|rewrite div_down; cbn [pow10]; lra|lia].
    - destruct (leb_cases (1 # 10) t) as [(-> & _)|(-> & H)]; eauto.
      destruct (leb_cases (1 # 1000000000000) t) as [(-> & H2)|(-> & H2)]; cbn [negb].
      + unfold Decomp.sliced. destruct (slice C s ts t) as [l|] eqn:E; [exists t; rewrite E; auto|].
        apply (IH (Qred (t * (1 # 10))) lim); [rewrite down_tol; lra|lia].
      + destruct (scale_up op); [|eauto]. change (Qred (1 / (1 # 10))) with (10 # 1)%Q.
        set (t0 := if Qeq_bool (split_tol op) 0 then (1 # 10000000000000)%Q else split_tol op).
        assert (B : (1 # 10000000000000 <= t0)%Q).
        { unfold t0. destruct (Qeq_bool (split_tol op) 0) eqn:E; [lra|]. destruct HT as [|[HT|HT]]; [discriminate| |auto].
          apply Qeq_bool_iff in HT. congruence. }
        apply (bop_up s ts 11); [rewrite div_down; lra|rewrite div_down; cbn [pow10]; lra|lia].
  Qed.
  Lemma bop_ends lim s ts : scale_up op = false \/ (split_tol op == 0)%Q \/ (1 # 10000000000000 <= split_tol op)%Q ->
    (24 <= lim)%nat -> exists tol, bop Sh T C op lim s ts = sliced s ts tol.
  Proof.
    intros HT L. unfold bop. destruct (leb_cases (1 # 10) (split_tol op)) as [(E & H)|(E & H)].
    - destruct lim as [|lim]; [lia|]. cbn [Decomp.split_bop]. rewrite E. eauto.
    - apply (bop_down s ts HT 11); [cbn [pow10]; lra|lia].
  Qed.
  Lemma bop_stuck : scale_up op = true -> Qeq_bool (split_tol op) 0 = false -> (split_tol op < 1 # 10000000000000)%Q ->
    forall lim s ts t, (t < 1 # 1000000000000)%Q -> split_bop lim s ts t (1 # 10) = cad_err /\ split_bop lim s ts t (10 # 1) = cad_err.
  Proof.
    intros HU HZ HT. induction lim as [|lim IH]; intros s ts t A; cbn [Decomp.split_bop]; auto.
    rewrite (leb_false (1 # 10) t) by lra. rewrite (leb_false (1 # 1000000000000) t) by lra. cbn [negb]. rewrite HU, HZ.
    change (Qred (1 / (1 # 10))) with (10 # 1)%Q. change (Qred (1 / (10 # 1))) with (1 # 10)%Q.
    split; apply IH; [rewrite div_down|rewrite div_up]; lra.
  Qed.

  (** The first tolerance used. *)
  Lemma bop_first lim s ts l tol : (2 <= lim)%nat ->
    ((1 # 1000000000000 <= split_tol op)%Q \/ scale_up op = false) /\ tol = split_tol op \/
    (split_tol op == 0)%Q /\ scale_up op = true /\ tol = (1 # 1000000000000)%Q ->
    slice C s ts tol = Some l -> bop Sh T C op lim s ts = Ok l.
  Proof.
    intros L [(H & ->)|(H & HU & ->)] E; unfold bop; (destruct lim as [|lim]; [lia|]); cbn [Decomp.split_bop].
    - unfold Decomp.sliced. rewrite E. destruct (Qle_bool (1 # 10) (split_tol op)); auto.
      destruct (leb_cases (1 # 1000000000000) (split_tol op)) as [(-> & _)|(-> & H2)]; cbn [negb]; auto.
      destruct H as [H|H]; [lra|]. rewrite H. auto.
    - rewrite (leb_false (1 # 10)) by lra. rewrite (leb_false (1 # 1000000000000)) by lra. cbn [negb]. rewrite HU.
      assert (EZ : Qeq_bool (split_tol op) 0 = true) by (apply Qeq_bool_iff; auto). rewrite EZ.
      destruct lim as [|lim]; [lia|].
      change (Qred ((1 # 10000000000000) / (1 # 10))) with (1 # 1000000000000)%Q. cbn [Decomp.split_bop].
      change (Qle_bool (1 # 10) (1 # 1000000000000)) with false. change (Qle_bool (1 # 1000000000000) (1 # 1000000000000)) with true.
      cbn [negb]. rewrite E. auto.
  Qed.
End Bop.

Section Simple.
  Variable Sh T : Type.
  Variable C : cad Sh T.
  Variable op : options.
  Notation bop := (bop Sh T C op).

  (** Cut with planes: nothing else can be cut. *)
  Lemma planes_simple fuel lim solids l e : rounds Sh fuel (split_p_planes Sh T C op lim) solids [] 0 = Ok (l, e) ->
    forall p g l', In p l -> In g (sort_planes Sh T C false (planes C p)) -> bop lim p g = Ok l' -> (length l' <= 1)%nat.
  Proof.
    intros H p g l' I G E. destruct (rounds_single Sh _ _ _ _ _ _ _ H p I) as [[]|(b & e0 & F)].
    unfold split_p_planes in F. inv_bind. injection F as F <-. destruct a as [l0|].
    - apply first_cut_ok in Ha. destruct Ha as (t & _ & _ & L). rewrite F in L. simpl in L. lia.
    - injection F as ->. eapply first_cut_none; eauto. unfold reversed_planes.
      destruct (Nat.ltb _ _); auto. apply -> in_rev. auto.
  Qed.

  Definition quad_cut (lim : nat) (s : Sh) (t : T) : Prop :=
    exists l, bop lim s [t] = Ok l /\ ~ (vol C s == 0)%Q /\
      let big := filter (fun p => negb (Qle_bool (vol C p) (1 # 1000000000))) l in
      (1 < length big)%nat /\ (Qabs ((vol C s - total C big) / vol C s) < 1 # 100000)%Q.
  Lemma sum_total l : sum_vol Sh T C l = total C l.
  Proof. induction l as [|s l IH]; simpl; congruence. Qed.
  Lemma quad_loop_none lim s : forall ts err e, quad_loop Sh T C op lim s ts err = (None, e) -> forall t, In t ts -> ~ quad_cut lim s t.
  Proof.
    induction ts as [|t ts IH]; intros err e H t' I; cbn [quad_loop] in H; [destruct I|].
    destruct I as [->|I].
    - intros (l & E & NZ & L & V). rewrite E in H.
      destruct (Qeq_bool (vol C s) 0) eqn:EZ; [apply Qeq_bool_iff in EZ; auto|]. rewrite sum_total in H.
      assert (V' : Qle_bool (1 # 100000) (Qabs ((vol C s - total C (filter (fun p => negb (Qle_bool (vol C p) (1 # 1000000000))) l)) / vol C s)) = false) by (apply leb_false; auto).
      rewrite V' in H. apply Nat.ltb_lt in L. rewrite L in H. discriminate.
    - destruct (bop lim s [t]) as [l|e0|]; [|eapply IH; eauto|eapply IH; eauto].
      destruct (Qeq_bool (vol C s) 0); [eapply IH; eauto|].
      match type of H with (if ?b then _ else _) = _ => destruct b end; [discriminate|eapply IH; eauto].
  Qed.
  Lemma quad_pass_none lim k : forall base kb cb err kb' cb' err', quad_pass Sh T C op lim k base kb cb err = (kb', cb', err') ->
    forall p, In p kb' -> In p kb \/ forall t, In t (quadrics C k p) -> ~ quad_cut lim p t.
  Proof.
    induction base as [|b bs IH]; intros kb cb err kb' cb' err' H p I; cbn [quad_pass] in H; [injection H as <- <- <-; auto|].
    destruct (quad_loop Sh T C op lim b (quadrics C k b) err) as [[l|] e] eqn:E.
    - eapply IH; eauto.
    - destruct (IH _ _ _ _ _ _ H p I) as [J|J]; auto. apply in_app_or in J. destruct J as [J|[<-|[]]]; auto.
      right. eapply quad_loop_none; eauto.
  Qed.
  Lemma quad_simple lim k : forall fuel base kb err l e, quad_rounds Sh T C op fuel lim k base kb err = Ok (l, e) ->
    forall p, In p l -> In p kb \/ forall t, In t (quadrics C k p) -> ~ quad_cut lim p t.
  Proof.
    induction fuel as [|n IH]; intros base kb err l e H p I; cbn [quad_rounds] in H; [discriminate|].
    destruct (quad_pass Sh T C op lim k base kb [] err) as [[kb' cb'] err'] eqn:E.
    pose proof (quad_pass_none _ _ _ _ _ _ _ _ _ E) as Q.
    destruct cb' as [|x cb']; [injection H as <- <-; auto|]. destruct (IH _ _ _ _ _ H p I); auto.
  Qed.

  (** * Volumes *)
  Lemma total_app a b : (total C (a ++ b) == total C a + total C b)%Q.
  Proof. induction a as [|x a IH]; simpl; [lra|]. rewrite IH. lra. Qed.
  Hypothesis AD : additive C.
  Definition vkeeps (f : Sh -> res (list Sh * Z)) : Prop := forall b cut e, f b = Ok (cut, e) -> (total C cut == vol C b)%Q.
  Lemma fc_vol lim : vkeeps (cut_full_cylinder Sh T C op lim).
  Proof.
    intros b cut e H. unfold cut_full_cylinder in H. destruct (full_cyl C b) as [[cy ps]|]; [|injection H as <- <-; simpl; lra].
    destruct (sort_planes Sh T C true ps); [injection H as <- <-; simpl; lra|]. inv_bind. injection H as <- <-.
    destruct a as [lx|]; [|simpl; lra]. apply first_cut_ok in Ha. destruct Ha as (t & _ & E & _).
    apply split_bop_slice in E. destruct E as (t0 & E). eapply AD; eauto.
  Qed.
  Lemma pass_vol f : vkeeps f -> forall bases si ne err si' ne' err', pass Sh f bases si ne err = Ok (si', ne', err') ->
    (total C si' + total C ne' == total C si + total C ne + total C bases)%Q.
  Proof.
    intros VF. induction bases as [|b bs IH]; intros si ne err si' ne' err' H; cbn [pass] in H; [injection H as <- <- <-; simpl; lra|].
    inv_bind. destruct a as [cut e]. pose proof (VF _ _ _ Ha) as V. cbn [total].
    destruct (length cut =? 1)%nat; rewrite (IH _ _ _ _ _ _ H), total_app; lra.
  Qed.
  Lemma rounds_vol f : vkeeps f -> forall fuel bases si err l e, rounds Sh fuel f bases si err = Ok (l, e) ->
    (total C l == total C si + total C bases)%Q.
  Proof.
    intros VF. induction fuel as [|n IH]; intros bases si err l e H; cbn [rounds] in H; [discriminate|].
    inv_bind. destruct a as [[si' ne'] err']. apply (pass_vol f VF) in Ha. cbn [total] in Ha.
    destruct ne' as [|x ne']; [injection H as <- <-; simpl in Ha; lra|]. rewrite (IH _ _ _ _ _ H). lra.
  Qed.

  (** Error codes are not negative. *)
  Lemma quad_loop_err lim s : forall ts err r e, quad_loop Sh T C op lim s ts err = (r, e) -> err <= e.
  Proof.
    induction ts as [|t ts IH]; intros err r e H; cbn [quad_loop] in H; [injection H as <- <-; lia|].
    destruct (bop lim s [t]) as [l|e0|]; [|apply IH in H; lia|apply IH in H; lia].
    destruct (Qeq_bool (vol C s) 0); [apply IH in H; lia|].
    match type of H with (if ?b then _ else _) = _ => destruct b end; [injection H as <- <-; lia|apply IH in H; lia].
  Qed.
  Lemma quad_pass_err lim k : forall base kb cb err kb' cb' err', quad_pass Sh T C op lim k base kb cb err = (kb', cb', err') -> err <= err'.
  Proof.
    induction base as [|b bs IH]; intros kb cb err kb' cb' err' H; cbn [quad_pass] in H; [injection H as <- <- <-; lia|].
    destruct (quad_loop Sh T C op lim b (quadrics C k b) err) as [[l|] e] eqn:E; apply quad_loop_err in E; apply IH in H; lia.
  Qed.
  Lemma quad_rounds_err lim k : forall fuel base kb err l e, quad_rounds Sh T C op fuel lim k base kb err = Ok (l, e) -> err <= e.
  Proof.
    induction fuel as [|n IH]; intros base kb err l e H; cbn [quad_rounds] in H; [discriminate|].
    destruct (quad_pass Sh T C op lim k base kb [] err) as [[kb' cb'] err'] eqn:E. apply quad_pass_err in E.
    destruct cb' as [|x cb']; [injection H as <- <-; auto|]. apply IH in H. lia.
  Qed.
  Lemma quad_kinds_err fuel lim : forall ks base err l e, quad_kinds Sh T C op fuel lim ks base err = Ok (l, e) -> err <= e.
  Proof.
    induction ks as [|k ks IH]; intros base err l e H; cbn [quad_kinds] in H; [injection H as <- <-; lia|].
    inv_bind. destruct a as [b1 e1]. apply quad_rounds_err in Ha. apply IH in H. lia.
  Qed.
  Lemma extra_err lim s : forall ps com err cut e, 0 <= err -> extra_loop Sh T C op lim s ps com err = Ok (cut, e) -> 0 <= e.
  Proof.
    induction ps as [|q ps IH]; intros com err cut e P H; cbn [extra_loop] in H; [injection H as <- <-; auto|].
    inv_bind. destruct a as [|a1 [|a2 l]]; [eapply IH; eauto|eapply IH; eauto|].
    unfold remove_solids in H. 
    set (er := if existsb (fun s0 => Qle_bool (vol C s0) (1 # 100)) (a1 :: a2 :: l) then 2 else 0) in *.
    assert (0 <= er) by (unfold er; destruct (existsb _ _); lia).
    destruct (Nat.ltb 1 _); [injection H as <- <-; auto|eapply IH; eauto].
  Qed.
  Lemma rounds_err f : (forall b cut e, f b = Ok (cut, e) -> 0 <= e) -> forall fuel bases si err l e, 0 <= err ->
    rounds Sh fuel f bases si err = Ok (l, e) -> 0 <= e.
  Proof.
    intros HF.
    assert (PF : forall bases si ne err si' ne' err', 0 <= err -> pass Sh f bases si ne err = Ok (si', ne', err') -> 0 <= err').
    { induction bases as [|b bs IH]; intros si ne err si' ne' err' P H; cbn [pass] in H; [injection H as <- <- <-; auto|].
      inv_bind. destruct a as [cut e]. apply HF in Ha. destruct (length cut =? 1)%nat; eapply IH; [|eauto| |eauto]; auto. }
    induction fuel as [|n IH]; intros bases si err l e P H; cbn [rounds] in H; [discriminate|].
    inv_bind. destruct a as [[si' ne'] err']. apply PF in Ha; auto.
    destruct ne' as [|x ne']; [injection H as <- <-; auto|]. eapply IH; [|eauto]; auto.
  Qed.

  Lemma component_vol fuel lim solids l : split_component Sh T C op fuel lim solids = Ok (l, 0) ->
    (Qabs ((total C solids - total C l) / total C solids) <= 1 # 100)%Q /\ ~ (total C solids == 0)%Q.
  Proof.
    intros H. unfold split_component, split_planes in H.
    apply bind_ok in H. destruct H as ([s0 e0] & R0 & H). apply bind_ok in H. destruct H as ([s1 e1] & R1 & H).
    apply bind_ok in H. destruct H as ([s2 e2] & R2 & H). cbv zeta in H. rewrite !sum_total in H.
    apply quad_kinds_err in R1. apply rounds_err in R2; [|intros b cut e HB; eapply (extra_err lim b); [|exact HB]; lia|lia].
    destruct (Qeq_bool (total C solids) 0) eqn:EZ; [discriminate|].
    set (n := Z.of_nat (length (filter (fun p => Qle_bool (vol C p) (1 # 10000000000)) s2))) in *. assert (0 <= n) by lia.
    set (pcs := filter (fun p => negb (Qle_bool (vol C p) (1 # 10000000000))) s2) in *. rewrite ?sum_total in H.
    rewrite (sum_total pcs) in H.
    destruct (leb_cases (Qabs ((total C solids - total C pcs) / total C solids)) (1 # 100)) as [(E & V)|(E & V)]; rewrite E in H; cbn [negb] in H.
    - injection H as <- _. split; auto. intros K. apply Qeq_bool_iff in K. congruence.
    - exfalso. apply (f_equal (fun r => match r with Ok (_, z) => z | _ => 0 end)) in H. lia.
  Qed.
End Simple.

Section Order.
  Variable Sh T : Type.
  Variable C : cad Sh T.
  Lemma insert_perm {A} leb (x : A) l : Permutation (insert leb x l) (x :: l).
  Proof.
    induction l as [|y l IH]; simpl; auto. destruct (leb x y); auto.
    eapply perm_trans; [apply perm_skip, IH|apply perm_swap].
  Qed.
  Lemma sort_perm {A} leb (l : list A) : Permutation (sort leb l) l.
  Proof. induction l as [|x l IH]; simpl; auto. eapply perm_trans; [apply insert_perm|auto]. Qed.
  Definition flat (g : T * list T) : list T := fst g :: snd g.
  Lemma put_plane_perm p gs : Permutation (concat (map flat (put_plane Sh T C p gs))) (p :: concat (map flat gs)).
  Proof.
    induction gs as [|[q r] gs IH]; cbn [put_plane]; [simpl; auto|].
    destruct (parallel C p q); cbn [map concat flat fst snd].
    - cbn [app flat fst snd]. apply perm_trans with (q :: p :: r ++ concat (map flat gs)); [|apply perm_swap].
      apply perm_skip. rewrite <- app_assoc. cbn [app]. symmetry. apply Permutation_middle.
    - eapply perm_trans; [apply Permutation_app_head, IH|]. symmetry. apply Permutation_middle.
  Qed.
  Lemma group_perm l : Permutation (concat (map flat (group_planes Sh T C l))) l.
  Proof.
    assert (K : forall l gs, Permutation (concat (map flat (fold_left (fun gs p => put_plane Sh T C p gs) l gs))) (concat (map flat gs) ++ l)).
    { clear l. induction l as [|p l IH]; intros gs; cbn [fold_left]; [rewrite app_nil_r; auto|].
      eapply perm_trans; [apply IH|]. eapply perm_trans; [apply Permutation_app_tail, put_plane_perm|]. cbn [app]. apply Permutation_middle. }
    apply (K l []).
  Qed.
  Lemma concat_perm {A} (l m : list (list A)) : Permutation l m -> Permutation (concat l) (concat m).
  Proof.
    induction 1; cbn [concat]; auto.
    - apply Permutation_app_head; auto.
    - rewrite !app_assoc. apply Permutation_app_tail, Permutation_app_comm.
    - eapply perm_trans; eauto.
  Qed.
  Lemma sort_planes_perm srt l : Permutation (concat (sort_planes Sh T C srt l)) l.
  Proof.
    unfold sort_planes. eapply perm_trans; [apply concat_perm, sort_perm|].
    eapply perm_trans; [|apply group_perm]. generalize (group_planes Sh T C l). intros gs.
    induction gs as [|g gs IH]; cbn [map concat]; auto. apply Permutation_app; auto.
    destruct srt; [apply sort_perm|apply Permutation_refl].
  Qed.
  Lemma sort_sorted {A} (f : A -> nat) l : StronglySorted (fun a b => f a <= f b)%nat (sort (fun a b => Nat.leb (f a) (f b)) l).
  Proof.
    assert (K : forall x l, StronglySorted (fun a b => f a <= f b)%nat l -> StronglySorted (fun a b => f a <= f b)%nat (insert (fun a b => Nat.leb (f a) (f b)) x l)).
    { clear l. induction l as [|y l IH]; intros H; simpl; [repeat constructor|].
      inversion H as [|? ? H1 H2]; subst. destruct (Nat.leb_spec (f x) (f y)).
      - constructor; auto. constructor; auto. rewrite Forall_forall in *. intros z I. specialize (H2 z I). lia.
      - constructor; auto. rewrite Forall_forall in *. intros z I. apply (Permutation_in _ (insert_perm _ x l)) in I. destruct I as [<-|I]; auto; lia. }
    induction l as [|x l IH]; simpl; [constructor|]. apply K; auto.
  Qed.
  Lemma sort_planes_sorted srt l : StronglySorted (fun a b => length a <= length b)%nat (sort_planes Sh T C srt l).
  Proof. unfold sort_planes. apply sort_sorted. Qed.
End Order.
