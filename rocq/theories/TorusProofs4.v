(** The grouping of the toroidal faces. *)
From Verif Require Import Prelude Vec3 AddPlane AddPlaneProofs4 TorusAnnex TorusSpec.
From Coq Require Import List Permutation Relations.
Open Scope nat_scope.

Lemma NoDup_app_remove_l {T} (a b : list T) : NoDup (a ++ b) -> NoDup b.
Proof. induction a as [|x a IH]; auto. cbn. intros H. inversion H; auto. Qed.

Lemma remove_one x l : In x l -> exists l', list_remove x l = Ok l' /\ Permutation l (x :: l').
Proof.
  induction l as [|y l IH]; [intros []|]. intros H. cbn [list_remove]. destruct (Nat.eqb x y) eqn:E.
  - apply Nat.eqb_eq in E as ->. eauto.
  - destruct H as [->|H]; [rewrite Nat.eqb_refl in E; discriminate|]. destruct (IH H) as (l' & -> & P).
    cbn [bind]. eexists. split; [reflexivity|]. rewrite P. apply perm_swap.
Qed.
Lemma remove_list xs : forall l, NoDup xs -> incl xs l -> exists l', remove_all xs l = Ok l' /\ Permutation l (xs ++ l').
Proof.
  induction xs as [|x xs IH]; intros l N I; cbn [remove_all]; [eauto|].
  destruct (remove_one x l (I x (or_introl eq_refl))) as (l1 & -> & P1). cbn [bind]. inversion N; subst.
  destruct (IH l1) as (l2 & -> & P2); auto.
  - intros y Hy. assert (Q : In y (x :: l1)) by (eapply Permutation_in; [exact P1|apply I; right; auto]).
    destruct Q as [->|Q]; [contradiction|auto].
  - eexists. split; [reflexivity|]. rewrite P1, P2. reflexivity.
Qed.

Lemma scan_eq (nr : nat -> bool) temp : forall cur rem, NoDup temp ->
  near_scan nr temp cur rem = (cur ++ filter (fun x => nr x && negb (has x cur)) temp, rem ++ filter (fun x => nr x && negb (has x cur)) temp).
Proof.
  induction temp as [|t r IH]; intros cur rem N; cbn [near_scan filter]; [rewrite !app_nil_r; auto|].
  inversion N; subst.
  destruct (nr t); cbn [andb]; [|apply IH; auto]. destruct (has t cur) eqn:E; cbn [negb]; [apply IH; auto|].
  rewrite IH by auto. rewrite <- !app_assoc. cbn [app].
  assert (G : filter (fun x => nr x && negb (has x (cur ++ [t]))) r = filter (fun x => nr x && negb (has x cur)) r).
  { apply filter_ext_in. intros x Hx. f_equal. f_equal. unfold has. rewrite existsb_app. cbn [existsb].
    destruct (Nat.eqb x t) eqn:Q; [apply Nat.eqb_eq in Q; congruence|]. rewrite !orb_false_r. reflexivity. }
  rewrite G. reflexivity.
Qed.

Section Sep.
Variables (near : nat -> nat -> bool) (s : list nat) (n : nat) (t : nat).

(** [temp] and [cur] share the faces of the set; the first [i] of [cur] touch nothing in [temp] *)
Record ginv (s0 temp cur : list nat) (i : nat) : Prop := {
  g_perm : Permutation s0 (cur ++ temp);
  g_nodup : NoDup s0;
  g_done : forall k c x, nth_error cur k = Some c -> k < i -> In x temp -> near c x = false;
  g_link : forall c, In c cur -> linked near s0 t c }.

Lemma grow_ok s0 : forall fuel temp cur i, ginv s0 temp cur i -> i <= List.length cur -> List.length s0 - i < fuel ->
  exists cur' temp', grow fuel near temp cur [] i = Ok (cur', temp')
  /\ Permutation s0 (cur' ++ temp') /\ (forall c x, In c cur' -> In x temp' -> near c x = false)
  /\ (forall c, In c cur' -> linked near s0 t c) /\ incl cur cur'.
Proof.
  induction fuel as [|fu IH]; intros temp cur i [P N D L] Hi Hf; [lia|]. cbn [grow].
  assert (NN : NoDup (cur ++ temp)) by (eapply Permutation_NoDup; eauto).
  destruct temp as [|x0 tr].
  { exists cur, []. split; [auto|split; [auto|split; [intros c x _ []|split; [auto|apply incl_refl]]]]. }
  set (temp := x0 :: tr) in *.
  destruct (nth_error cur i) as [c|] eqn:E.
  2:{ exists cur, temp. split; [auto|split; [auto|split; [|split; [auto|apply incl_refl]]]]. intros c x Hc Hx. apply In_nth_error in Hc as [k Hk].
      apply (D k); auto. assert (k < List.length cur) by (apply nth_error_Some; congruence).
      apply nth_error_None in E. lia. }
  apply NoDup_app_remove_l in NN as Nt. rewrite scan_eq by auto.
  set (F := filter (fun x => near c x && negb (has x cur)) temp). cbn [app].
  assert (Ftemp : incl F temp) by (intros y Hy; apply filter_In in Hy; tauto).
  destruct (remove_list F temp) as (temp' & ET & PT); [apply NoDup_filter; auto|auto|].
  rewrite ET. cbn [bind].
  assert (Dis : forall y, In y cur -> In y temp -> False).
  { intros y H1 H2. clear - NN H1 H2. induction cur as [|z cu IHc]; [destruct H1|]. inversion NN; subst.
    destruct H1 as [->|H1]; [apply H3, in_or_app; auto|auto]. }
  assert (Hin : forall y, In y temp' -> In y temp /\ ~ In y F).
  { intros y Hy. split; [eapply Permutation_in; [symmetry; exact PT|apply in_or_app; auto]|].
    intros HF. assert (Q : NoDup (F ++ temp')) by (eapply Permutation_NoDup; eauto).
    clear - Q Hy HF. induction F as [|z F IHF]; [destruct HF|]. inversion Q; subst.
    destruct HF as [->|HF]; [apply H1, in_or_app; auto|auto]. }
  assert (Hs : forall y, In y (cur ++ temp) -> In y s0) by (intros y; apply Permutation_in; symmetry; auto).
  destruct (IH temp' (cur ++ F) (S i)) as (cur' & temp'' & EG & R1 & R2 & R3 & R4).
  - constructor; auto.
    + rewrite P, PT. rewrite app_assoc. reflexivity.
    + intros k c' x Hk Hlt Hx. destruct (Hin x Hx) as [Hx1 Hx2].
      rewrite nth_error_app1 in Hk by (assert (i < List.length cur) by (apply nth_error_Some; congruence); lia).
      destruct (Nat.eq_dec k i) as [->|Nk]; [|apply (D k); auto; lia].
      assert (c' = c) by congruence. subst c'. destruct (near c x) eqn:Q; auto. exfalso. apply Hx2.
      unfold F. apply filter_In. split; auto. rewrite Q. cbn [andb]. apply negb_true_iff.
      destruct (has x cur) eqn:Q2; auto. apply has_in in Q2. exfalso. eauto.
    + intros y Hy. apply in_app_or in Hy as [Hy|Hy]; auto. apply filter_In in Hy as [Hy1 Hy2].
      apply andb_true_iff in Hy2 as [Hy2 _]. apply nth_error_In in E.
      eapply rt_trans; [apply L; exact E|]. apply rt_step. split; [|split; auto]; apply Hs, in_or_app; auto.
  - rewrite app_length. assert (i < List.length cur) by (apply nth_error_Some; congruence). lia.
  - assert (Q : i < List.length cur) by (apply nth_error_Some; congruence).
    apply Permutation_length in P. rewrite app_length in P. lia.
  - exists cur', temp''. split; [auto|split; [auto|split; [auto|split; [auto|]]]]. intros y Hy. apply R4, in_or_app. auto.
Qed.
End Sep.

Lemma linked_sym near l i j : (forall a b, near a b = near b a) -> linked near l i j -> linked near l j i.
Proof.
  intros S H. induction H as [a b (H1 & H2 & H3)|a|a b c _ IH1 _ IH2]; [|apply rt_refl|eapply rt_trans; eauto].
  apply rt_step. rewrite S in H3. auto.
Qed.
Lemma linked_mono near l l' i j : incl l l' -> linked near l i j -> linked near l' i j.
Proof.
  intros S H. induction H as [a b (H1 & H2 & H3)|a|a b c _ IH1 _ IH2]; [|apply rt_refl|eapply rt_trans; eauto].
  apply rt_step. auto.
Qed.
(** a part of [l] that touches nothing else is closed *)
Lemma linked_closed near l p q i j : Permutation l (p ++ q) -> (forall c x, In c p -> In x q -> near c x = false) ->
  linked near l i j -> In i p -> In j p.
Proof.
  intros P C H. induction H as [a b (H1 & H2 & H3)|a|a b c _ IH1 _ IH2]; auto.
  intros Ha. assert (Q : In b (p ++ q)) by (eapply Permutation_in; eauto). apply in_app_or in Q as [Q|Q]; auto.
  rewrite (C a b) in H3 by auto. discriminate.
Qed.
Lemma linked_part near l p q i j : Permutation l (p ++ q) -> (forall c x, In c p -> In x q -> near c x = false) ->
  linked near l i j -> In i p -> linked near p i j.
Proof.
  intros P C H. apply clos_rt_rt1n in H. induction H as [a|a b c (H1 & H2 & H3) _ IH]; intros Ha; [apply rt_refl|].
  assert (Hb : In b p). { eapply (linked_closed near l p q a b); eauto. apply rt_step. auto. }
  eapply rt_trans; [apply rt_step; split; [exact Ha|split; [exact Hb|exact H3]]|]. apply IH; auto.
Qed.

Lemma separate_ok near : (forall a b, near a b = near b a) -> forall fuel temp acc, NoDup temp -> List.length temp <= fuel ->
  exists gs, separate_set fuel near temp acc = Ok (acc ++ gs) /\ classes near temp gs.
Proof.
  intros Sy. induction fuel as [|fu IH]; intros temp acc N Hl.
  - destruct temp; [|cbn in Hl; lia]. exists []. rewrite app_nil_r. split; auto. split; [constructor|intros g i []].
  - destruct temp as [|t r]; [exists []; rewrite app_nil_r; split; auto; split; [constructor|intros g i []]|].
    cbn [separate_set]. set (temp := t :: r) in *.
    assert (G : exists cur' temp', grow (S (List.length temp)) near temp [t] [t] 0 = Ok (cur', temp')
       /\ Permutation temp (cur' ++ temp') /\ (forall c x, In c cur' -> In x temp' -> near c x = false)
       /\ (forall c, In c cur' -> linked near temp t c) /\ incl [t] cur').
    { cbn [grow nth_error]. unfold temp at 1. cbn [List.length]. rewrite scan_eq by auto.
      set (F := filter (fun x => near t x && negb (has x [t])) temp).
      inversion N as [|? ? Nt Nr]; subst.
      assert (EF : F = filter (near t) r).
      { unfold F, temp. cbn [filter has existsb]. rewrite Nat.eqb_refl. cbn [orb negb]. rewrite andb_false_r.
        apply filter_ext_in. intros x Hx. unfold has. cbn [existsb]. destruct (Nat.eqb x t) eqn:Q.
        - apply Nat.eqb_eq in Q. congruence.
        - cbn [orb negb]. rewrite andb_true_r. reflexivity. }
      rewrite EF. cbn [app]. destruct (remove_list (t :: filter (near t) r) temp) as (temp' & ET & PT).
      { constructor; [intros Q; apply filter_In in Q; tauto|apply NoDup_filter; auto]. }
      { intros y [->|Hy]; [left; auto|right; apply filter_In in Hy; tauto]. }
      rewrite ET. cbn [bind].
      assert (Hd : forall x, In x temp' -> near t x = false).
      { intros x Hx. assert (Q : NoDup ((t :: filter (near t) r) ++ temp')) by (eapply Permutation_NoDup; eauto).
        assert (Hx' : In x temp) by (eapply Permutation_in; [symmetry; exact PT|apply in_or_app; auto]).
        assert (NI : ~ In x (t :: filter (near t) r)).
        { intros HF. clear - Q Hx HF. induction (t :: filter (near t) r) as [|z F' IHF]; [destruct HF|]. inversion Q; subst.
          destruct HF as [->|HF]; [apply H1, in_or_app; auto|auto]. }
        destruct (near t x) eqn:E; auto. exfalso. apply NI. destruct Hx' as [->|Hx']; [left; auto|right; apply filter_In; auto]. }
      destruct (grow_ok near t temp (S (List.length r)) temp' (t :: filter (near t) r) 1) as (cur' & temp'' & EG & R1 & R2 & R3 & R4).
      - constructor; auto.
        + intros k c x Hk Hlt Hx. assert (k = 0) by lia. subst k. injection Hk as <-. auto.
        + intros c [<-|Hc]; [apply rt_refl|]. apply filter_In in Hc as [Hc1 Hc2]. apply rt_step. split; [left; auto|split; [right; auto|auto]].
      - cbn. lia.
      - unfold temp. cbn [List.length]. lia.
      - exists cur', temp''. split; [auto|split; [auto|split; [auto|split; [auto|]]]]. intros y [->|[]]. apply R4. left. auto. }
    destruct G as (cur & temp' & EG & P & D & L & I). rewrite EG. cbn [bind].
    assert (N2 : NoDup (cur ++ temp')) by (eapply Permutation_NoDup; eauto).
    assert (Dt : forall x c, In x temp' -> In c cur -> near x c = false) by (intros; rewrite Sy; auto).
    assert (P' : Permutation temp (temp' ++ cur)) by (rewrite P; apply Permutation_app_comm).
    destruct (IH temp' (acc ++ [cur])) as (gs & EQ & PG & CG).
    { apply NoDup_app_remove_l in N2. auto. }
    { assert (1 <= List.length cur) by (specialize (I t (or_introl eq_refl)); destruct cur; [destruct I|cbn; lia]).
      apply Permutation_length in P. rewrite app_length in P. lia. }
    exists (cur :: gs). split; [rewrite EQ, <- app_assoc; reflexivity|]. split.
    { cbn [concat]. rewrite PG. symmetry. auto. }
    intros g i [<-|Hg] Hi j.
    + split; intros H.
      * eapply rt_trans; [apply linked_sym; [auto|apply L; exact Hi]|apply L; exact H].
      * eapply linked_closed; eauto.
    + rewrite (CG g i Hg Hi j). assert (Hi' : In i temp').
      { eapply Permutation_in; [exact PG|]. apply in_concat. eauto. }
      split; intros H.
      * eapply linked_mono; [|exact H]. intros y Hy. eapply Permutation_in; [symmetry; exact P|apply in_or_app; auto].
      * eapply (linked_part near temp temp' cur); eauto.
Qed.

Lemma same_ok same : forall fuel temp acc, NoDup temp -> List.length temp <= fuel ->
  exists gs, same_torus fuel same temp acc = Ok (acc ++ gs) /\ Permutation (concat gs) temp
  /\ forall g, In g gs -> exists i r, g = i :: r /\ forall j, In j r -> same i j = true.
Proof.
  induction fuel as [|fu IH]; intros temp acc N Hl.
  - destruct temp; [|cbn in Hl; lia]. exists []. rewrite app_nil_r. split; auto. split; [constructor|intros g []].
  - destruct temp as [|i r]; [exists []; rewrite app_nil_r; split; auto; split; [constructor|intros g []]|].
    cbn [same_torus]. inversion N; subst.
    destruct (remove_list (i :: filter (same i) r) (i :: r)) as (temp' & ET & PT).
    { constructor; [intros Q; apply filter_In in Q; tauto|apply NoDup_filter; auto]. }
    { intros y [->|Hy]; [left; auto|right; apply filter_In in Hy; tauto]. }
    rewrite ET. cbn [bind].
    destruct (IH temp' (acc ++ [i :: filter (same i) r])) as (gs & EQ & PG & CG).
    { eapply Permutation_NoDup in N; [|exact PT]. apply NoDup_app_remove_l in N. auto. }
    { apply Permutation_length in PT. rewrite app_length in PT. cbn [List.length] in *. lia. }
    exists ((i :: filter (same i) r) :: gs). split; [rewrite EQ, <- app_assoc; reflexivity|]. split.
    { cbn [concat]. rewrite PG. symmetry. auto. }
    intros g [<-|Hg]; auto. exists i, (filter (same i) r). split; auto. intros j Hj. apply filter_In in Hj. tauto.
Qed.

Lemma same_classes same : an_equivalence same -> forall fuel temp acc, NoDup temp -> List.length temp <= fuel ->
  exists gs, same_torus fuel same temp acc = Ok (acc ++ gs) /\ Permutation (concat gs) temp
  /\ forall g i, In g gs -> In i g -> forall j, In j g <-> In j temp /\ same i j = true.
Proof.
  intros (Re & Sy & Tr). induction fuel as [|fu IH]; intros temp acc N Hl.
  - destruct temp; [|cbn in Hl; lia]. exists []. rewrite app_nil_r. split; auto. split; [constructor|intros g i []].
  - destruct temp as [|i r]; [exists []; rewrite app_nil_r; split; auto; split; [constructor|intros g i []]|].
    cbn [same_torus]. inversion N; subst.
    destruct (remove_list (i :: filter (same i) r) (i :: r)) as (temp' & ET & PT).
    { constructor; [intros Q; apply filter_In in Q; tauto|apply NoDup_filter; auto]. }
    { intros y [->|Hy]; [left; auto|right; apply filter_In in Hy; tauto]. }
    rewrite ET. cbn [bind].
    assert (N2 : NoDup ((i :: filter (same i) r) ++ temp')) by (eapply Permutation_NoDup; eauto).
    destruct (IH temp' (acc ++ [i :: filter (same i) r])) as (gs & EQ & PG & CG).
    { apply NoDup_app_remove_l in N2. auto. }
    { apply Permutation_length in PT. rewrite app_length in PT. cbn [List.length] in *. lia. }
    exists ((i :: filter (same i) r) :: gs). split; [rewrite EQ, <- app_assoc; reflexivity|]. split.
    { cbn [concat]. rewrite PG. symmetry. auto. }
    assert (First : forall j, In j (i :: filter (same i) r) <-> In j (i :: r) /\ same i j = true).
    { intros j. cbn [In]. rewrite filter_In. split; [intros [<-|[A B]]; auto|intros [[<-|A] B]; auto]. }
    intros g i' [<-|Hg] Hi j.
    + rewrite First. apply First in Hi as [_ Hi]. split; intros [A B]; split; auto; eauto.
    + rewrite (CG g i' Hg Hi j). assert (Hi' : In i' temp') by (eapply Permutation_in; [exact PG|apply in_concat; eauto]).
      assert (Ni : ~ In i' (i :: filter (same i) r)).
      { intros HF. clear - N2 Hi' HF. induction (i :: filter (same i) r) as [|z F' IHF]; [destruct HF|]. inversion N2; subst.
        destruct HF as [->|HF]; [apply H1, in_or_app; auto|auto]. }
      assert (Hi2 : In i' (i :: r)) by (eapply Permutation_in; [symmetry; exact PT|apply in_or_app; auto]).
      split; intros [A B]; split; auto.
      * eapply Permutation_in; [symmetry; exact PT|apply in_or_app; auto].
      * assert (Q : In j ((i :: filter (same i) r) ++ temp')) by (eapply Permutation_in; eauto).
        apply in_app_or in Q as [Q|Q]; auto. exfalso. apply Ni, First. split; auto. apply First in Q as [_ Q]. eauto.
Qed.

Lemma groups_classes same near l : an_equivalence same -> (forall a b, near a b = near b a) -> NoDup l ->
  exists gs, torus_groups same near l = Ok gs /\ classes (fun a b => same a b && near a b) l gs.
Proof.
  intros Eq Sy N. unfold torus_groups. destruct (same_classes same Eq (List.length l) l [] N (Nat.le_refl _)) as (sets & E & P & Cl).
  rewrite E. cbn [bind app]. clear E.
  assert (Nd : NoDup (concat sets)) by (eapply Permutation_NoDup; [symmetry; exact P|auto]).
  assert (Cl' : forall g i, In g sets -> In i g -> forall j, In j g <-> In j (concat sets) /\ same i j = true).
  { intros g i Hg Hi j. rewrite (Cl g i Hg Hi j). split; intros [A B]; split; auto; eapply Permutation_in; [symmetry|..]; eauto. }
  assert (Gen : forall todo acc done, sets = done ++ todo -> exists gs, separate_surfaces near todo acc = Ok (acc ++ gs)
     /\ Permutation (concat gs) (concat todo)
     /\ forall g i, In g gs -> In i g -> exists s, In s todo /\ In i s /\ forall j, In j g <-> linked near s i j).
  { induction todo as [|s r IH]; intros acc done Ed.
    - exists []. rewrite app_nil_r. split; auto. split; auto. intros g i [].
    - cbn [separate_surfaces]. assert (Ns : NoDup s).
      { rewrite Ed, concat_app in Nd. apply NoDup_app_remove_l in Nd. cbn [concat] in Nd.
        clear - Nd. induction s as [|x s IHs]; [constructor|]. inversion Nd; subst. constructor; auto.
        intros Q. apply H1, in_or_app; auto. }
      destruct (separate_ok near Sy (List.length s) s acc Ns (Nat.le_refl _)) as (gs1 & -> & P1 & C1). cbn [bind].
      destruct (IH (acc ++ gs1) (done ++ [s])) as (gs2 & E2 & P2 & C2); [rewrite <- app_assoc; auto|].
      exists (gs1 ++ gs2). rewrite E2, <- app_assoc. split; auto. split.
      { rewrite concat_app. cbn [concat]. rewrite P1, P2. reflexivity. }
      intros g i Hg Hi. apply in_app_or in Hg as [Hg|Hg].
      + exists s. split; [left; auto|]. split; [eapply Permutation_in; [exact P1|apply in_concat; eauto]|apply (C1 g i Hg Hi)].
      + destruct (C2 g i Hg Hi) as (s' & A & B & D). exists s'. split; [right; auto|auto]. }
  destruct (Gen sets [] []) as (gs & E & PG & CG); auto. exists gs. split; [auto|]. split.
  { rewrite PG, P. auto. }
  intros g i Hg Hi j. destruct (CG g i Hg Hi) as (s & Hs & His & HL). rewrite (HL j).
  split; intros H.
  - assert (J : In i s -> linked (fun a b => same a b && near a b) l i j /\ In j s).
    { clear HL Hi Hg His. induction H as [a b (A & B & D)|a|a b d _ IH1 _ IH2]; intros Hi.
      - split; auto. apply rt_step. apply (Cl s a Hs A b) in B as B'. destruct B' as [B1 B2].
        split; [apply (Cl s a Hs A a); auto|]. split; auto. rewrite B2, D. auto.
      - split; [apply rt_refl|auto].
      - destruct (IH1 Hi) as [Q1 Q2]. destruct (IH2 Q2) as [Q3 Q4]. split; auto. eapply rt_trans; eauto. }
    apply J; auto.
  - assert (J : In i s -> linked near s i j /\ In j s).
    { clear HL Hi Hg His. induction H as [a b (A & B & D)|a|a b d _ IH1 _ IH2]; intros Hi.
      - apply andb_true_iff in D as [D1 D2]. assert (Hb : In b s) by (apply (Cl s a Hs Hi b); auto).
        split; auto. apply rt_step. auto.
      - split; [apply rt_refl|auto].
      - destruct (IH1 Hi) as [Q1 Q2]. destruct (IH2 Q2) as [Q3 Q4]. split; auto. eapply rt_trans; eauto. }
    apply J; auto.
Qed.
