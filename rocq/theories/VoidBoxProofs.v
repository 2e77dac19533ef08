(** Proofs about the subdivision of void boxes. *)
From Coq Require Import QArith Lqa.
From Verif Require Import Prelude BoolSpec BoolSeq BoolProofs BoolTotal3 VoidBoxes VoidBoxSpec VoidProofs.
Open Scope Z_scope.

Lemma Qltb_spec x y : Qltb x y = true <-> (x < y)%Q.
Proof.
  unfold Qltb. rewrite negb_true_iff. split.
  - intros H. apply Qnot_le_lt. intros L. apply Qle_bool_iff in L. congruence.
  - intros H. destruct (Qle_bool y x) eqn:E; auto. apply Qle_bool_iff in E. lra.
Qed.
Lemma Qltb_false x y : Qltb x y = false <-> (y <= x)%Q.
Proof. unfold Qltb. rewrite negb_false_iff. apply Qle_bool_iff. Qed.
Lemma axis_eqb_spec a b : reflect (a = b) (axis_eqb a b).
Proof. destruct a, b; constructor; congruence. Qed.

Lemma argmax_in b : forall l best, In (argmax b best l) (best :: l).
Proof.
  induction l as [|a l IH]; intros best; simpl; auto.
  specialize (IH (if Qltb (len b best) (len b a) then a else best)). simpl in IH.
  destruct (Qltb (len b best) (len b a)); intuition.
Qed.
Lemma long_spec m b a : In a (long_axes m b) <-> (m <= (1#2) * len b a)%Q.
Proof.
  unfold long_axes. rewrite filter_In, negb_true_iff, Qltb_false. split; [tauto|].
  intros H. split; auto. destruct a; simpl; auto.
Qed.
(** A split cuts at the middle of an axis that is long enough. *)
Lemma split_spec m b : match split m b with
  | None => forall a, ((1#2) * len b a < m)%Q
  | Some (b1, b2) => exists a, (m <= (1#2) * len b a)%Q /\
      let pos := (lo b a + (1#2) * len b a)%Q in
      b1 = Box (lo b) (set (hi b) a pos) /\ b2 = Box (set (lo b) a pos) (hi b)
  end.
Proof.
  unfold split. destruct (long_axes m b) as [|a0 l] eqn:L.
  - intros a. apply Qnot_le_lt. rewrite <- long_spec, L. auto.
  - exists (argmax b a0 l). split; [|cbv zeta; auto].
    apply long_spec. rewrite L. apply argmax_in.
Qed.

Lemma set_same f a q : set f a q a = q.
Proof. unfold set. destruct a; reflexivity. Qed.
Lemma set_other f a q x : x <> a -> set f a q x = f x.
Proof. unfold set. destruct (axis_eqb_spec x a); congruence. Qed.
Ltac axes_at p a := intros a; pose proof (p a).

Lemma split_inside m b b1 b2 : (0 <= m)%Q -> split m b = Some (b1, b2) ->
  (forall p, inside b p <-> inside b1 p \/ inside b2 p) /\
  (forall p, interior b1 p -> interior b2 p -> False) /\
  (forall p, interior b1 p \/ interior b2 p -> interior b p).
Proof.
  intros M H. pose proof (split_spec m b) as P. rewrite H in P. destruct P as (a & L & E1 & E2).
  set (pos := (lo b a + (1#2) * len b a)%Q) in *. subst b1 b2.
  assert (B : (lo b a <= pos <= hi b a)%Q) by (unfold pos, len in *; split; lra).
  unfold inside, interior; cbn [lo hi]. split; [|split].
  - intros p. split.
    + intros P. destruct (Qlt_le_dec (p a) pos).
      * left. intros x. specialize (P x). destruct (axis_eqb_spec x a) as [->|NE]; [rewrite set_same|rewrite set_other by auto]; lra.
      * right. intros x. specialize (P x). destruct (axis_eqb_spec x a) as [->|NE]; [rewrite set_same|rewrite set_other by auto]; lra.
    + intros [P|P] x; specialize (P x); destruct (axis_eqb_spec x a) as [->|NE];
        [rewrite set_same in P|rewrite set_other in P by auto|rewrite set_same in P|rewrite set_other in P by auto]; lra.
  - intros p P1 P2. specialize (P1 a). specialize (P2 a). rewrite set_same in *. lra.
  - intros p [P|P] x; specialize (P x); destruct (axis_eqb_spec x a) as [->|NE];
        [rewrite set_same in P|rewrite set_other in P by auto|rewrite set_same in P|rewrite set_other in P by auto]; lra.
Qed.

Lemma split_pos m b b1 b2 : (0 < m)%Q -> split m b = Some (b1, b2) -> (forall a, (0 < len b a)%Q) ->
  forall a, (0 < len b1 a)%Q /\ (0 < len b2 a)%Q.
Proof.
  intros M H P. pose proof (split_spec m b) as S. rewrite H in S. destruct S as (a & L & -> & ->).
  intros x. pose proof (P x). pose proof (P a). unfold len in *; cbn [lo hi].
  destruct (axis_eqb_spec x a) as [->|NE]; [rewrite !set_same|rewrite !set_other by auto]; split; lra.
Qed.

(** ** How often a box can be split *)
Lemma big_len_ge m l : (m <= big_len m l)%Q.
Proof. unfold big_len. destruct (Qle_bool m l) eqn:E; [apply Qle_bool_iff in E; auto|lra]. Qed.
Lemma big_len_half m l l' : (0 <= m)%Q -> (m <= (1#2) * l)%Q -> (l' == (1#2) * l)%Q ->
  (big_len m l' == (1#2) * big_len m l)%Q.
Proof.
  intros M H E. unfold big_len.
  assert (Qle_bool m l = true) as -> by (apply Qle_bool_iff; lra).
  assert (Qle_bool m l' = true) as -> by (apply Qle_bool_iff; lra). lra.
Qed.
Lemma big_len_eq m l l' : (l' == l)%Q -> (big_len m l' == big_len m l)%Q.
Proof.
  intros E. unfold big_len. assert (Qle_bool m l' = Qle_bool m l) as ->.
  { destruct (Qle_bool m l) eqn:A; [apply Qle_bool_iff in A; apply Qle_bool_iff; lra|].
    destruct (Qle_bool m l') eqn:B; auto. apply Qle_bool_iff in B. assert (Qle_bool m l = true) by (apply Qle_bool_iff; lra). congruence. }
  destruct (Qle_bool m l); lra.
Qed.

Lemma split_weight m b b1 b2 : (0 <= m)%Q -> split m b = Some (b1, b2) ->
  (weight m b1 == (1#2) * weight m b)%Q /\ (weight m b2 == (1#2) * weight m b)%Q.
Proof.
  intros M H. pose proof (split_spec m b) as P. rewrite H in P. destruct P as (a & L & E1 & E2).
  set (pos := (lo b a + (1#2) * len b a)%Q) in *.
  assert (A : forall b', b' = b1 \/ b' = b2 -> (len b' a == (1#2) * len b a)%Q /\ forall x, x <> a -> (len b' x == len b x)%Q).
  { intros b' [-> | ->]; subst b1 b2; unfold len; cbn [lo hi]; split.
    - rewrite set_same. unfold pos, len. lra.
    - intros x NE. rewrite set_other by auto. lra.
    - rewrite set_same. unfold pos, len. lra.
    - intros x NE. rewrite set_other by auto. lra. }
  assert (W : forall b', b' = b1 \/ b' = b2 -> (weight m b' == (1#2) * weight m b)%Q).
  { intros b' Hb. destruct (A b' Hb) as (A1 & A2). unfold weight. destruct a.
    - rewrite (big_len_half m (len b AX) (len b' AX) M L A1).
      rewrite (big_len_eq m (len b AY) (len b' AY)) by (apply A2; congruence).
      rewrite (big_len_eq m (len b AZ) (len b' AZ)) by (apply A2; congruence). ring.
    - rewrite (big_len_half m (len b AY) (len b' AY) M L A1).
      rewrite (big_len_eq m (len b AX) (len b' AX)) by (apply A2; congruence).
      rewrite (big_len_eq m (len b AZ) (len b' AZ)) by (apply A2; congruence). ring.
    - rewrite (big_len_half m (len b AZ) (len b' AZ) M L A1).
      rewrite (big_len_eq m (len b AX) (len b' AX)) by (apply A2; congruence).
      rewrite (big_len_eq m (len b AY) (len b' AY)) by (apply A2; congruence). ring. }
  auto.
Qed.
Lemma weight_ge m b : (0 <= m)%Q -> (m * m * m <= weight m b)%Q.
Proof.
  intros M. unfold weight.
  pose proof (big_len_ge m (len b AX)). pose proof (big_len_ge m (len b AY)). pose proof (big_len_ge m (len b AZ)).
  assert (m * m <= big_len m (len b AX) * big_len m (len b AY))%Q by nra. nra.
Qed.
Lemma weight_small m b : (0 < m)%Q -> split m b = None -> (weight m b < 8 * (m * m * m))%Q.
Proof.
  intros M H. pose proof (split_spec m b) as P. rewrite H in P. unfold weight.
  assert (B : forall a, (m <= big_len m (len b a) < 2 * m)%Q).
  { intros a. split; [apply big_len_ge|]. specialize (P a). unfold big_len. destruct (Qle_bool m (len b a)); lra. }
  pose proof (B AX). pose proof (B AY). pose proof (B AZ).
  assert (big_len m (len b AX) * big_len m (len b AY) < 4 * (m * m))%Q by nra.
  assert (0 < big_len m (len b AX) * big_len m (len b AY))%Q by nra. nra.
Qed.

Lemma desc_weight m u n b : (0 <= m)%Q -> desc m u n b -> (weight m b * inject_Z (2 ^ Z.of_nat n) == weight m u)%Q.
Proof.
  intros M. induction 1 as [|n b b1 b2 D IH H|n b b1 b2 D IH H].
  - simpl. change (inject_Z 1) with 1%Q. ring.
  - destruct (split_weight _ _ _ _ M H) as (W & _). rewrite W, <- IH.
    rewrite Nat2Z.inj_succ, Z.pow_succ_r, inject_Z_mult by lia. change (inject_Z 2) with (2#1). field.
  - destruct (split_weight _ _ _ _ M H) as (_ & W). rewrite W, <- IH.
    rewrite Nat2Z.inj_succ, Z.pow_succ_r, inject_Z_mult by lia. change (inject_Z 2) with (2#1). field.
Qed.

Lemma halfb_spec b p : halfb b p = true <-> forall a, (lo b a <= p a < hi b a)%Q.
Proof.
  unfold halfb. rewrite forallb_forall. split.
  - intros H a. assert (In a axes) as Ha by (destruct a; simpl; auto).
    specialize (H a Ha). rewrite andb_true_iff, Qle_bool_iff, Qltb_spec in H. auto.
  - intros H a _. rewrite andb_true_iff, Qle_bool_iff, Qltb_spec. auto.
Qed.
Lemma half_inside b p : halfb b p = true -> inside b p.
Proof. rewrite halfb_spec. intros H a. specialize (H a). lra. Qed.
Lemma split_half m b b1 b2 p : (0 <= m)%Q -> split m b = Some (b1, b2) ->
  halfb b p = halfb b1 p || halfb b2 p /\ halfb b1 p && halfb b2 p = false.
Proof.
  intros M H. pose proof (split_spec m b) as P. rewrite H in P. destruct P as (a & L & E1 & E2).
  set (pos := (lo b a + (1#2) * len b a)%Q) in *. subst b1 b2.
  assert (B : (lo b a <= pos <= hi b a)%Q) by (unfold pos, len in *; split; lra).
  split.
  - apply eq_true_iff_eq. rewrite orb_true_iff, !halfb_spec. cbn [lo hi]. split.
    + intros P. destruct (Qlt_le_dec (p a) pos).
      * left. intros x. specialize (P x). destruct (axis_eqb_spec x a) as [->|NE]; [rewrite set_same|rewrite set_other by auto]; lra.
      * right. intros x. specialize (P x). destruct (axis_eqb_spec x a) as [->|NE]; [rewrite set_same|rewrite set_other by auto]; lra.
    + intros [P|P] x; specialize (P x); destruct (axis_eqb_spec x a) as [->|NE];
        [rewrite set_same in P|rewrite set_other in P by auto|rewrite set_same in P|rewrite set_other in P by auto]; lra.
  - apply not_true_iff_false. rewrite andb_true_iff, !halfb_spec. cbn [lo hi]. intros (P1 & P2).
    specialize (P1 a). specialize (P2 a). rewrite set_same in *. lra.
Qed.

(** ** Objects of a box *)
Lemma inside_valid b p : inside b p -> valid b = true.
Proof. intros H. apply forallb_forall. intros a _. apply Qle_bool_iff. specialize (H a). lra. Qed.
Lemma inside_meets b c p : inside b p -> inside c p -> meets b c = true.
Proof.
  intros H H'. apply forallb_forall. intros a _. rewrite andb_true_iff, !Qle_bool_iff.
  specialize (H a). specialize (H' a). lra.
Qed.
Lemma hull_inside p : forall l b, inside b p \/ Exists (fun c => inside c p) l -> inside (hull b l) p.
Proof.
  unfold hull. induction l as [|c l IH]; intros b H; simpl.
  - destruct H as [H|H]; auto. inversion H.
  - apply IH. assert (J : inside b p \/ inside c p -> inside (join_box b c) p).
    { intros J a. cbn. unfold Qmin, Qmax.
      destruct (Qle_bool (lo b a) (lo c a)) eqn:E1, (Qle_bool (hi b a) (hi c a)) eqn:E2;
      repeat match goal with
      | E : Qle_bool _ _ = true |- _ => apply Qle_bool_iff in E
      | E : Qle_bool ?x ?y = false |- _ => assert (y < x)%Q by (apply Qltb_spec; unfold Qltb; rewrite E; auto); clear E
      end; destruct J as [J|J]; specialize (J a); lra. }
    destruct H as [H|H]; [left; auto|]. inversion H; subst; auto.
Qed.

Section Objects.
  Variable p : place.
  Variable v : point.
  Definition ok2 (n : node) (s : box) := (exists o k xs, n = Seq o k xs) /\ (eval v n = true -> inside s p).

  (** the loop keeps the elements whose boxes meet the box *)
  Lemma extra_loop_spec bx d op lev (l0 : list node) : d = Seq op lev l0 ->
    forall l sols i rs rd lv kept, Forall2 ok2 l sols -> Forall wf l ->
    (forall j, nth_error l j = nth_error l0 (i + j)) ->
    rd = Seq OR lv kept -> wf rd -> Forall2 ok2 kept rs ->
    exists rs' lv' kept', extra_loop bx d i sols rs rd = Ok (rs', Seq OR lv' kept') /\
      wf (Seq OR lv' kept') /\ Forall2 ok2 kept' rs' /\
      (inside bx p -> existsb (eval v) kept' = existsb (eval v) kept || existsb (eval v) l) /\
      (length rs' <= length rs + length sols)%nat.
  Proof.
    intros ->. induction l as [|n l IH]; intros sols i rs rd lv kept F W N E Wr K; inversion F as [|? s ? sols' O F']; subst; cbn [extra_loop].
    - exists rs, lv, kept. split; auto. split; auto. split; auto. split; [|simpl; lia]. intros _. cbn. rewrite orb_false_r. auto.
    - inversion W; subst. destruct O as ((o & k & xs & ->) & O).
      assert (N' : forall j, nth_error l j = nth_error l0 (S i + j)).
      { intros j. rewrite <- (N (S j)) || (replace (S i + j)%nat with (i + S j)%nat by lia; rewrite <- N). reflexivity. }
      destruct (valid s && meets bx s) eqn:V.
      + cbn [element]. specialize (N 0%nat). rewrite Nat.add_0_r in N. rewrite <- N. cbn [nth_error bind append append_loop].
        destruct (IH sols' (S i) (rs ++ [s]) (Seq OR (Z.max lv (k + 1)) (kept ++ [Seq o k xs])) (Z.max lv (k + 1)) (kept ++ [Seq o k xs]))
          as (rs' & lv' & kept' & E & W' & K' & EV & LN); auto.
        * apply (append_wf (Seq OR lv kept) [AN (Seq o k xs)]); auto. 
        * apply Forall2_app; auto. constructor; auto. split; eauto.
        * exists rs', lv', kept'. split; auto. split; auto. split; auto. split.
          { intros B. rewrite EV by auto. rewrite existsb_app. cbn [existsb]. rewrite orb_false_r, <- orb_assoc. reflexivity. }
          { rewrite app_length in LN. simpl in *. lia. }
      + destruct (IH sols' (S i) rs (Seq OR lv kept) lv kept) as (rs' & lv' & kept' & E & W' & K' & EV & LN); auto.
        exists rs', lv', kept'. split; auto. split; auto. split; auto. split; [|simpl; lia].
        intros B. rewrite EV by auto. cbn [existsb].
        destruct (eval v (Seq o k xs)) eqn:EN; auto. exfalso. specialize (O eq_refl).
        rewrite (inside_valid _ _ O), (inside_meets _ _ _ B O) in V. discriminate.
  Qed.

  Lemma ok2_hull l s sols : Forall2 ok2 l (s :: sols) -> existsb (eval v) l = true -> inside (hull s sols) p.
  Proof.
    intros F E. apply hull_inside. apply existsb_exists in E. destruct E as (n & I & E).
    assert (G : Exists (fun c => inside c p) (s :: sols)).
    { revert I F. generalize (s :: sols). clear s sols. induction l as [|x l IH]; intros sols I F; [destruct I|]. destruct I as [->|I]; inversion F as [|? ? ? ? OK ?]; subst.
      - constructor. apply OK; auto.
      - constructor 2. apply IH; auto. }
    inversion G; auto.
  Qed.

  Lemma object_spec bx m b : aligned p v m -> mbb m = Some b ->
    exists o, (do c <- copy_meta m; remove_extra_comp bx c) = Ok o /\ aligned p v o /\
      (inside bx p -> eval v (mdef o) = eval v (mdef m)).
  Proof.
    intros ((W & SQ) & BB & C) EB. destruct C as (op & lev & l & sols & ED & ES & C); [congruence|].
    unfold copy_meta. rewrite ES.
    destruct sols as [|s sols].
    - cbn [bind]. unfold remove_extra_comp. cbn [msol]. eexists; split; [reflexivity|].
      unfold aligned. cbn [mdef mbb]. rewrite copy_id. split; auto. split; auto. split; [|congruence].
      destruct C as [(-> & F)|(s & E & _)]; [|discriminate]. inversion F; subst. rewrite ED. discriminate.
    - cbn [bind]. unfold remove_extra_comp. cbn [msol mdef]. rewrite copy_id.
      (* the copy itself *)
      assert (AC : aligned p v (Meta (mid m) (Some (hull s sols)) (Some (s :: sols)) (mdef m) (set_ns (mdef m) 0) (mencl m))).
      { split; auto. cbn [mdef mbb msol]. split.
        - intros E. eexists; split; [reflexivity|]. destruct C as [(-> & F)|(s' & E' & _ & C)].
          + rewrite ED, eval_seq in E. eapply ok2_hull; eauto.
          + injection E' as <- ->. apply hull_inside. auto.
        - intros _. exists op, lev, l, (s :: sols). auto. }
      destruct C as [(-> & F)|(s' & E' & NE & C)].
      + rewrite ED. assert (Wl : Forall wf l) by (rewrite ED in W; apply wf_seq in W; tauto).
        destruct (extra_loop_spec bx (Seq OR lev l) OR lev l eq_refl l (s :: sols) 0 [] (Seq OR 0 []) 0 [] F Wl)
          as (rs' & lv' & kept' & E & W' & K' & EV & LN); auto.
        { apply wf_seq. split; [lia|]. auto. }
        rewrite E. cbn [bind]. destruct (Nat.ltb (length rs') (length (s :: sols))).
        * eexists; split; [reflexivity|]. split.
          { split; [split; [exact W'|exact Logic.I]|]. cbn [mdef mbb msol]. split.
            - intros EE. rewrite eval_seq in EE. destruct rs' as [|b' rs'].
              + inversion K'; subst. discriminate.
              + eexists; split; [reflexivity|]. eapply ok2_hull; eauto.
            - intros _. exists OR, lv', kept', rs'. auto. }
          { intros B. cbn [mdef]. rewrite !eval_seq. cbn [evl]. rewrite EV by auto. reflexivity. }
        * eexists; split; [reflexivity|]. rewrite ED in AC. split; auto.
      + injection E' as -> ->. rewrite ED in *. destruct l as [|e l]; [congruence|].
        cbn [extra_loop element nth_error bind].
        destruct (valid s' && meets bx s') eqn:V.
        * assert (AP : exists rd, append (Seq OR 0 []) [AN e] = Ok rd) by (cbn; eauto).
          destruct AP as (rd & AP). rewrite AP. cbn [bind]. cbn [app length Nat.ltb].
          eexists; split; [reflexivity|]. split; auto.
        * cbn [length]. eexists; split; [reflexivity|]. split.
          { split; [split; [apply wf_seq; split; [lia|auto]|exact Logic.I]|]. cbn [mdef mbb msol]. split; [discriminate|congruence]. }
          { intros B. cbn [mdef]. destruct (eval v (Seq op lev (e :: l))) eqn:EN; auto. exfalso.
            specialize (C eq_refl). rewrite (inside_valid _ _ C), (inside_meets _ _ _ B C) in V. discriminate. }
  Qed.

  Definition solid (ms : list meta) : bool := existsb (fun m => eval v (mdef m)) ms.
  Lemma box_objects_spec bx : forall ms, Forall (aligned p v) ms ->
    exists os, box_objects bx ms = Ok os /\ Forall (aligned p v) os /\
      (inside bx p -> solid os = solid ms).
  Proof.
    induction ms as [|m ms IH]; intros F; cbn [box_objects]; [eauto|].
    inversion F as [|? ? A F']; subst. destruct (IH F') as (os & E & FO & EV). clear IH.
    assert (SK : (inside bx p -> eval v (mdef m) = false) -> exists os0, box_objects bx ms = Ok os0 /\ Forall (aligned p v) os0 /\
               (inside bx p -> solid os0 = solid (m :: ms))).
    { intros Z. exists os. split; auto. split; auto. intros B. unfold solid in *. cbn [existsb]. rewrite Z by auto. cbn [orb]. auto. }
    destruct (mbb m) as [b|] eqn:EB.
    - destruct (valid b && meets bx b) eqn:V.
      + destruct (object_spec bx m b A EB) as (o & EO & AO & EVO).
        apply bind_ok in EO. destruct EO as (c & -> & EO). cbn [bind]. rewrite EO. cbn [bind]. rewrite E. cbn [bind].
        eexists; split; [reflexivity|]. split; [constructor; auto|]. intros B. unfold solid in *. cbn [existsb]. rewrite EVO, EV; auto.
      + apply SK. intros B. destruct (eval v (mdef m)) eqn:EN; auto. exfalso.
        destruct A as (_ & A & _). destruct (A EN) as (b' & Eb & Ib). assert (b' = b) as -> by congruence.
        rewrite (inside_valid _ _ Ib), (inside_meets _ _ _ B Ib) in V. discriminate.
    - apply SK. intros _. destruct (eval v (mdef m)) eqn:EN; auto. exfalso.
      destruct A as (_ & A & _). destruct (A EN) as (b' & Eb & _). congruence.
  Qed.
End Objects.
