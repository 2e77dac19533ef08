(** Termination (fuel adequacy) and absence of exceptions. *)
From Verif Require Import Prelude BoolSpec BoolSeq BoolProofs BoolProofs2.
From Coq Require Import Permutation.

Definition hmax (l : list node) : nat := fold_right (fun c m => Nat.max (height c) m) O l.
Lemma height_seq op lev l : height (Seq op lev l) = S (hmax l).
Proof. reflexivity. Qed.
Lemma hmax_In l x : In x l -> (height x <= hmax l)%nat.
Proof.
  induction l as [|y l IH]; simpl; [tauto|]. intros [->|H]; [lia|]. specialize (IH H). lia.
Qed.
Lemma hmax_le l m : (forall x, In x l -> (height x <= m)%nat) -> (hmax l <= m)%nat.
Proof.
  induction l as [|y l IH]; simpl; intros H; [lia|].
  pose proof (H y (or_introl eq_refl)). specialize (IH (fun x Hx => H x (or_intror Hx))). lia.
Qed.
Lemma hmax_app l1 l2 : hmax (l1 ++ l2) = Nat.max (hmax l1) (hmax l2).
Proof. induction l1; simpl; [lia|]. rewrite IHl1. lia. Qed.

Lemma level_update_height n : height (level_update n) = height n.
Proof.
  induction n as [z|op lev b|op lev l IH] using node_ind'; auto.
  simpl level_update. rewrite !height_seq. f_equal.
  induction IH as [|x l Hx Hl IHl]; simpl; auto.
Qed.

Definition not_cst (n : node) : Prop := match n with Cst _ _ _ => False | _ => True end.

Lemma clean_list_not_cst f op l l' : clean_list f op l = inr l' -> Forall not_cst l'.
Proof.
  revert l'; induction l as [|e r IH]; simpl; intros l' H; [inv H; auto|].
  destruct (clean_list f op r) as [b|r']; [discriminate|].
  destruct (f e) as [z|o lv b'|o lv xs].
  - inv H. constructor; simpl; auto.
  - destruct (eqb b' (absorbing op)); inv H; auto.
  - inv H. constructor; simpl; auto.
Qed.

Lemma clean_self_shape op lev l :
  (exists b, clean_self (Seq op lev l) = Cst op (-1) b) \/
  (exists l', clean_self (Seq op lev l) = Seq op lev l' /\ l' <> [] /\ Forall not_cst l' /\
              forall x, In x l' -> In x l).
Proof.
  simpl. destruct (clean_list (fun e => e) op l) as [b|[|x l']] eqn:E; simpl; eauto.
  right. exists (x :: l'). split; [auto|split; [discriminate|split]].
  - eapply clean_list_not_cst; eauto.
  - intros y Hy. destruct (clean_list_incl _ _ _ _ E _ Hy) as (e & ? & ->). auto.
Qed.

Lemma level_update_shape op lev l :
  exists lev', level_update (Seq op lev l) = Seq op lev' (map level_update l) /\ 0 <= lev' /\
     (lev' = 0 -> Forall is_lit l).
Proof.
  simpl level_update. fold lstep. eexists. split; [reflexivity|]. split.
  - apply (lstep_ge (map level_update l) 0).
  - intros H. assert (HF : Forall is_lit (map level_update l)).
    { apply (lstep_zero _ 0); auto; [lia|]. intros x Hx. apply in_map_iff in Hx.
      destruct Hx as (y & <- & Hy). destruct (level_update_level y) as [Q|Q]; auto.
      left. destruct y; simpl in *; tauto. }
    rewrite Forall_map in HF. eapply Forall_impl; [|exact HF].
    intros [z|o lv b|o lv xs]; simpl; auto.
Qed.


Lemma remove_lit_skipn z l : forall j,
  nth_error l j = Some (Lit z) -> incl (skipn j (remove_lit z l)) (skipn (S j) l).
Proof.
  induction l as [|x l IH]; intros [|j] H; try discriminate.
  - inv H. simpl. rewrite Z.eqb_refl. apply incl_refl.
  - simpl in H.
    assert (HC : (exists y, x = Lit y /\ y = z) \/ remove_lit z (x :: l) = x :: remove_lit z l).
    { destruct x as [y|o lv b|o lv xs]; auto. simpl. destruct (Z.eqb_spec y z); eauto. }
    destruct HC as [(y & -> & ->)|HC].
    + simpl. rewrite Z.eqb_refl. apply incl_refl.
    + rewrite HC. simpl. apply IH; auto.
Qed.

Lemma remove_at_skipn {A} (l : list A) j : skipn j (remove_at j l) = skipn (S j) l.
Proof. revert j; induction l as [|x l IH]; intros [|j]; simpl; auto. apply IH. Qed.

Lemma nth_skipn {A} (l : list A) j x : nth_error l j = Some x -> skipn j l = x :: skipn (S j) l.
Proof.
  revert j; induction l as [|y l IH]; intros [|j] H; try discriminate.
  - inv H. reflexivity.
  - simpl in *. auto.
Qed.

(** The grouping loop: total when no constant of level 0 is an element; what
    remains are old non-int elements, heights do not grow. *)
Definition cst0_free (n : node) : Prop :=
  match n with Cst _ lev _ => lev <> 0 | _ => True end.

Lemma gs_loop_spec i : forall l g,
  (i <= length l)%nat -> Forall cst0_free l ->
  Forall grouped_elt (skipn i l) ->
  exists l' g', gs_loop i l g = Ok (l', g') /\
    (forall x, In x l' -> In x l) /\ Forall grouped_elt l' /\
    (forall x, In x g' -> In x g \/ is_lit x \/ exists o lv, In (Seq o lv [x]) l).
Proof.
  induction i as [|i IH]; intros l g Hi HC HG; simpl.
  - exists l, g. simpl in HG. auto.
  - destruct (nth_error l i) as [n|] eqn:E.
    2:{ apply nth_error_None in E. lia. }
    pose proof (nth_skipn _ _ _ E) as Hsk.
    assert (Hcn : cst0_free n) by (rewrite Forall_forall in HC; apply HC; eapply nth_error_In; eauto).
    assert (Hkeep : grouped_elt n -> Forall grouped_elt (skipn i l))
      by (intros Hg; rewrite Hsk; constructor; auto).
    destruct n as [z|o lv b|o lv xs].
    + destruct (IH (remove_lit z l) (g ++ [Lit z])) as (l' & g' & Q1 & Q2 & Q3 & Q4).
      * pose proof (Permutation_length (remove_lit_perm z l (nth_error_In _ _ E))) as HL.
        simpl in HL. lia.
      * eapply Forall_incl; [apply remove_lit_incl|]; auto.
      * eapply Forall_incl; [|exact HG]. apply remove_lit_skipn; auto.
      * exists l', g'. split; auto. split; [|split]; auto.
        -- intros x Hx. eapply remove_lit_incl; eauto.
        -- intros x Hx. destruct (Q4 x Hx) as [H|[H|(o & lv & H)]]; auto.
           ++ apply in_app_iff in H. destruct H as [H|[<-|[]]]; simpl; auto.
           ++ right; right. exists o, lv. eapply remove_lit_incl; eauto.
    + simpl in Hcn. destruct (Z.eqb_spec lv 0); [tauto|].
      apply IH; auto; try lia; apply Hkeep; cI.
    + assert (Hd : exists l' g', gs_loop i l g = Ok (l', g') /\
        (forall x, In x l' -> In x l) /\ Forall grouped_elt l' /\
        (forall x, In x g' -> In x g \/ is_lit x \/ exists o lv, In (Seq o lv [x]) l))
        by (apply IH; auto; try lia; apply Hkeep; cI).
      destruct xs as [|x [|y xs]]; auto.
      destruct (Z.eqb_spec lv 0); auto.
      destruct (IH (remove_at i l) (g ++ [x])) as (l' & g' & Q1 & Q2 & Q3 & Q4).
      * pose proof (Permutation_length (remove_at_perm _ _ _ E)) as HL. simpl in HL. lia.
      * eapply Forall_incl; [apply remove_at_incl|]; auto.
      * rewrite remove_at_skipn. auto.
      * exists l', g'. split; auto. split; [|split]; auto.
        -- intros w Hw. eapply remove_at_incl; eauto.
        -- intros w Hw. destruct (Q4 w Hw) as [H|[H|(o' & lv' & H)]]; auto.
           ++ apply in_app_iff in H. destruct H as [H|[<-|[]]]; auto.
              right; right. exists o, lv. eapply nth_error_In; eauto.
           ++ right; right. exists o', lv'. eapply remove_at_incl; eauto.
Qed.

Lemma group_single_total op lev l :
  Forall cst0_free l \/ lev = 0 ->
  exists l', group_single (Seq op lev l) = Ok (Seq op lev l') /\
    (lev = 0 -> l' = l) /\
    (lev <> 0 -> Forall grouped_elt l' /\
       forall x, In x l' -> In x l \/
         exists g, x = Seq op 0 g /\
           forall y, In y g -> is_lit y \/ exists o lv, In (Seq o lv [y]) l).
Proof.
  intros H. simpl. destruct (Z.eqb_spec lev 0) as [->|Hl].
  - exists l. split; auto. split; [auto|tauto].
  - destruct H as [H|H]; [|tauto].
    destruct (gs_loop_spec (length l) l []) as (l' & g' & Q1 & Q2 & Q3 & Q4); auto.
    { rewrite skipn_all. constructor. }
    rewrite Q1. simpl. destruct g' as [|g0 g'].
    + exists l'. split; auto. split; [tauto|]. intros _. split; auto.
    + exists (Seq op 0 (g0 :: g') :: l'). split; auto. split; [tauto|]. intros _. split.
      * constructor; simpl; auto.
      * intros x [<-|Hx]; auto. right. eexists; split; [reflexivity|].
        intros y Hy. destruct (Q4 y Hy) as [[]|[H'|H']]; auto.
Qed.

Lemma group_height op l l' :
  (forall x, In x l' -> In x l \/
         exists g, x = Seq op 0 g /\
           forall y, In y g -> is_lit y \/ exists o lv, In (Seq o lv [y]) l) ->
  forall x, In x l' -> (height x <= Nat.max 1 (hmax l))%nat.
Proof.
  intros H x Hx. destruct (H x Hx) as [Hi|(g & -> & Hg)].
  - apply hmax_In in Hi. lia.
  - rewrite height_seq.
    destruct (Nat.eq_dec (hmax g) 0) as [->|Hn]; [lia|].
    assert (HH : (hmax g <= hmax l - 1)%nat).
    { apply hmax_le. intros y Hy. destruct (Hg y Hy) as [Hl|(o & lv & Hl)].
      - destruct y; simpl in *; tauto || lia.
      - apply hmax_In in Hl. rewrite height_seq in Hl. simpl in Hl. lia. }
    lia.
Qed.

(* ------------------------------------------------------------------ *)
(** * check *)

Lemma check_list_total f op l :
  (forall e, In e l -> exists e', f e = Ok e') -> exists r, check_list f op l = Ok r.
Proof.
  induction l as [|e l IH]; intros H; simpl; eauto.
  destruct IH as (r & Hr); [intros; apply H; simpl; auto|]. rewrite Hr. simpl.
  destruct r as [b|r']; eauto.
  destruct (H e (or_introl eq_refl)) as (e' & He). rewrite He. simpl.
  destruct e' as [z|o lv b|o lv xs]; eauto. destruct (eqb b (absorbing op)); eauto.
Qed.

(** levels of constants are non zero in the whole tree *)
Fixpoint c0 (n : node) : Prop :=
  match n with
  | Lit _ => True
  | Cst _ lev _ => lev <> 0
  | Seq _ _ l => fold_right (fun c p => c0 c /\ p) True l
  end.
Lemma c0_seq op lev l : c0 (Seq op lev l) <-> Forall c0 l.
Proof.
  simpl. induction l as [|x l IH]; simpl; split; intros H; auto.
  - constructor; tauto.
  - inversion H; subst; tauto.
Qed.
Lemma c0_cst0 n : c0 n -> cst0_free n.
Proof. destruct n; simpl; auto. Qed.

Lemma check_f_total k : forall n,
  (height n < k)%nat -> is_seq n -> c0 n -> exists r, check_f k n = Ok r.
Proof.
  induction k as [|k IH]; intros n Hk Hs Hc; [lia|]. simpl.
  destruct n as [z|op lev b|op lev l]; [simpl in Hs; tauto|eauto|].
  destruct (Z.eqb_spec lev 0) as [->|Hl]; eauto.
  apply c0_seq in Hc.
  destruct (group_single_total op lev l) as (l' & Hg & _ & Hg2).
  { left. eapply Forall_impl; [|exact Hc]. apply c0_cst0. }
  rewrite Hg. cbn [bind]. destruct (Hg2 Hl) as (G1 & G2).
  destruct (check_list_total (check_f k) op l') as (r & Hr).
  - intros e He. destruct (G2 e He) as [Hi|(g & -> & Hgg)].
    + apply IH.
      * apply hmax_In in Hi. rewrite height_seq in Hk. lia.
      * rewrite Forall_forall in G1. apply G1 in He. destruct e; simpl in *; auto.
      * rewrite Forall_forall in Hc; auto.
    + destruct k as [|k]; [rewrite height_seq in Hk; lia|]. simpl. eauto.
  - rewrite Hr. simpl. eauto.
Qed.

(* ------------------------------------------------------------------ *)
(** * join_operators *)

Lemma gr_seq op lev l : gr (Seq op lev l) <-> (lev <> 0 -> Forall grouped_elt l) /\ Forall gr l.
Proof.
  simpl. assert (HH : fold_right (fun c p => gr c /\ p) True l <-> Forall gr l); [|tauto].
  induction l as [|x l IH]; simpl; split; intros H; auto.
  - constructor; tauto.
  - inversion H; subst; tauto.
Qed.
Definition gr_top (n : node) : Prop :=
  match n with Seq _ lev l => lev <> 0 -> Forall grouped_elt l | _ => True end.

Lemma mapM_total {A B} (f : A -> res B) l :
  (forall e, In e l -> exists e', f e = Ok e') -> exists l', mapM f l = Ok l'.
Proof.
  induction l as [|e l IH]; intros H; simpl; eauto.
  destruct (H e (or_introl eq_refl)) as (e' & He). rewrite He. simpl.
  destruct IH as (l' & Hl); [intros; apply H; simpl; auto|]. rewrite Hl. simpl. eauto.
Qed.

Lemma op_of_total l : Forall grouped_elt l -> exists o, mapM op_of l = Ok o.
Proof.
  intros H. apply mapM_total. intros e He. rewrite Forall_forall in H. apply H in He.
  destruct e; simpl in *; try tauto; eauto.
Qed.

(** real sub-sequences *)
Definition sub_seq (n : node) : Prop := match n with Seq _ _ _ => True | _ => False end.

Lemma elems_total l : Forall sub_seq l -> exists xs, mapM elems_of l = Ok xs /\
   (forall x, In x (concat xs) -> exists o lv ys, In (Seq o lv ys) l /\ In x ys).
Proof.
  induction 1 as [|x l Hx Hl IH]; simpl; [exists []; split; auto; simpl; tauto|].
  destruct x as [z|o lv b|o lv ys]; simpl in Hx; try tauto. simpl.
  destruct IH as (xs & E & HI). rewrite E. simpl. eexists. split; [reflexivity|].
  intros x Hx'. simpl in Hx'. apply in_app_iff in Hx'. destruct Hx' as [H|H].
  - exists o, lv, ys. auto.
  - destruct (HI _ H) as (o' & lv' & ys' & H1 & H2). exists o', lv', ys'. auto.
Qed.

Lemma merge_same_total op lev l :
  Forall sub_seq l ->
  exists lev' l', merge_same op lev l = Ok (Seq op lev' l') /\ (0 < lev -> 0 < lev') /\
    Forall sub_seq l' /\ (forall x, In x l' -> (height x <= hmax l)%nat).
Proof.
  intros H. unfold merge_same.
  assert (Hg : Forall grouped_elt l)
    by (eapply Forall_impl; [|exact H]; intros []; simpl; tauto).
  destruct (op_of_total _ Hg) as (o & Ho). rewrite Ho. cbn [bind].
  destruct (Nat.ltb_spec 1 (length (filter (has_op op) l))) as [E|E].
  - destruct (elems_total (filter (has_op op) l)) as (xs & E2 & HI); [apply filter_Forall; auto|].
    rewrite E2. cbn [bind].
    destruct (level_update_shape op 0 (concat xs)) as (lv & Elu & Hlv & _). rewrite Elu.
    cbn [append append_loop]. eexists _, _. split; [reflexivity|]. split; [lia|]. split.
    + apply Forall_app. split; [apply filter_Forall; auto|repeat constructor].
    + intros x Hx. apply in_app_iff in Hx. destruct Hx as [Hx|[<-|[]]].
      * apply filter_In in Hx. apply hmax_In, Hx.
      * rewrite <- Elu, level_update_height, height_seq.
        destruct (filter (has_op op) l) as [|y ys] eqn:Ef; [simpl in E; lia|].
        assert (Hy : In y l) by (assert (In y (y :: ys)) by (simpl; auto); rewrite <- Ef in *;
                                 apply filter_In in H0; tauto).
        assert (Hy1 : (1 <= height y)%nat).
        { rewrite Forall_forall in H. apply H in Hy. destruct y; simpl in Hy; try tauto.
          rewrite height_seq. lia. }
        pose proof (hmax_In _ _ Hy) as Hy2.
        assert (HM : (hmax (concat xs) <= hmax l - 1)%nat); [|lia].
        apply hmax_le. intros w Hw. destruct (HI _ Hw) as (o' & lv' & zs & H1 & H2).
        rewrite <- Ef in H1. apply filter_In in H1. destruct H1 as (H1 & _).
        apply hmax_In in H1. apply hmax_In in H2. rewrite height_seq in H1. lia.
  - exists lev, l. split; auto. split; auto. split; auto. intros; apply hmax_In; auto.
Qed.

Lemma check_level0_ok n : level_of n = 0 -> is_seq n ->
  exists r, check n = Ok r /\ is_seq r /\ (height r <= height n)%nat /\ (gr n -> gr r) /\ gr_top r /\ True.
Proof.
  intros Hl Hs. unfold check. destruct n as [z|op lev b|op lev l]; simpl in Hs; try tauto.
  - exists (Cst op lev b). simpl. auto 10.
  - simpl in Hl. subst. exists (check0 op 0 l). split; [reflexivity|].
    unfold check0. destruct (Nat.eqb _ _); simpl; auto 10.
    + split; auto. split; auto. split; auto. split; auto. tauto.
    + split; auto. split; [lia|]. auto.
Qed.

Lemma join_f_total k : forall sl n,
  (height n < k)%nat -> is_seq n ->
  exists r, join_f k sl n = Ok r /\ is_seq r /\ (height r <= height n)%nat /\ gr_top r /\
    (sl = false -> gr r).
Proof.
  induction k as [|k IH]; intros sl n Hk Hs; [lia|]. simpl join_f.
  destruct n as [z|op lev b|op lev l]; simpl in Hs; try tauto.
  { exists (Cst op lev b). simpl. auto 10. }
  destruct (clean_self_shape op lev l) as [(b & Ec)|(l1 & Ec & Hne & Hnc & Hin)].
  { rewrite Ec. cbn [level_update level_of]. rewrite Z.eqb_refl.
    exists (Cst op 0 b). split; auto. split; [cI|]. simpl height. split; [lia|]. simpl; auto. }
  rewrite Ec. destruct (level_update_shape op lev l1) as (lev1 & Elu & Hl0 & Hll).
  rewrite Elu. cbn [level_of].
  assert (Hh1 : (hmax (map level_update l1) <= hmax l)%nat).
  { apply hmax_le. intros x Hx. apply in_map_iff in Hx. destruct Hx as (y & <- & Hy).
    rewrite level_update_height. apply hmax_In; auto. }
  destruct (Z.eqb_spec lev1 0) as [->|Hl1].
  { eexists. split; [reflexivity|]. split; [cI|]. split.
    - rewrite !height_seq. lia.
    - split; [simpl; tauto|]. intros _. apply gr_seq. split; [tauto|].
      specialize (Hll eq_refl). apply Forall_map. eapply Forall_impl; [|exact Hll].
      intros []; simpl; tauto. }
  set (m := map level_update l1) in *.
  assert (Hnm : Forall not_cst m).
  { apply Forall_map. eapply Forall_impl; [|exact Hnc]. intros []; simpl; tauto. }
  destruct (group_single_total op lev1 m) as (l2 & Eg & _ & Hg).
  { left. eapply Forall_impl; [|exact Hnm]. intros []; simpl; tauto. }
  rewrite Eg. cbn [bind]. destruct (Hg Hl1) as (G1 & G2).
  assert (Hsub : Forall sub_seq l2).
  { apply Forall_forall. intros x Hx. rewrite Forall_forall in G1. pose proof (G1 _ Hx) as Gx.
    destruct (G2 x Hx) as [Hi|(g & -> & _)]; [|cI].
    rewrite Forall_forall in Hnm. apply Hnm in Hi. destruct x; simpl in *; tauto. }
  assert (Hm1 : (1 <= hmax m)%nat).
  { assert (HE : Exists (fun x => ~ is_lit x) l1).
    { apply neg_Forall_Exists_neg.
      - intros []; simpl; auto.
      - intros HF. apply Hl1.
        assert (fold_left lstep (map level_update l1) 0 = 0) as Hz.
        { clear -HF. induction HF as [|x l Hx Hl IH]; simpl; auto.
          destruct x; simpl in *; tauto. }
        simpl in Elu. fold lstep in Elu. inv Elu. exact Hz. }
    apply Exists_exists in HE. destruct HE as (x & Hx & Hxl).
    rewrite Forall_forall in Hnc. pose proof (Hnc _ Hx) as Hxc.
    pose proof (hmax_In m (level_update x) (in_map _ _ _ Hx)) as Q.
    rewrite level_update_height in Q. destruct x; simpl in *; try tauto. lia. }
  pose proof (group_height op m l2 G2) as Hh2.
  destruct (merge_same_total op lev1 l2 Hsub) as (lev3 & l3 & Em & Hlev3 & Hsub3 & Hh3).
  rewrite Em. cbn [bind]. assert (Hl3 : 0 < lev3) by lia.
  assert (Hh2' : (hmax l2 <= hmax m)%nat) by (apply hmax_le; intros x Hx; specialize (Hh2 x Hx); lia).
  assert (Hh3' : (hmax l3 <= hmax l)%nat)
    by (apply hmax_le; intros x Hx; specialize (Hh3 x Hx); lia).
  rewrite height_seq in Hk.
  set (n4 := match l3 with [c] => _ | _ => _ end).
  assert (H4 : exists r, n4 = Ok r /\ is_seq r /\ (height r <= S (hmax l))%nat /\
             (gr r \/ exists o lv ls, r = Seq o lv ls /\ lv <> 0) /\ gr_top r).
  { assert (Hdef : exists r, Ok (Seq op lev3 l3) = Ok r /\ is_seq r /\ (height r <= S (hmax l))%nat /\
             (gr r \/ exists o lv ls, r = Seq o lv ls /\ lv <> 0) /\ gr_top r).
    { eexists. split; [reflexivity|]. split; [cI|]. split; [rewrite height_seq; lia|]. split.
      - right. exists op, lev3, l3. split; [auto|lia].
      - simpl. intros _. eapply Forall_impl; [|exact Hsub3]. intros []; simpl; tauto. }
    unfold n4. destruct l3 as [|c [|c' l3]]; auto.
    destruct (Z.ltb_spec 0 lev3); [|lia].
    apply Forall_cons_iff in Hsub3; destruct Hsub3 as [Hc _].
    destruct c as [zc|oc lc bc|oc lc xs]; simpl in Hc; try tauto. cbn [op_of elems_of bind].
    simpl in Hh3'. fold (hmax xs) in Hh3'.
    destruct (IH false (Seq oc (lev3 - 1) xs)) as (r & E & R1 & R2 & R3 & R4).
    { rewrite height_seq. lia. } { cI. }
    exists r. split; auto. split; auto. split; [rewrite height_seq in R2; lia|]. split; auto. }
  destruct H4 as (r4 & -> & Hs4 & Hh4 & Hg4 & Ht4). cbn [bind].
  destruct (Z.eqb_spec (level_of r4) 0) as [E0|E0].
  { destruct (check_level0_ok _ E0 Hs4) as (r & Er & R1 & R2 & R3 & R4 & _).
    exists r. split; auto. split; auto. split; [rewrite height_seq; lia|]. split; auto.
    intros _. apply R3. destruct Hg4 as [Hg4|(o & lv & ls & -> & Hlv)]; auto. simpl in E0. tauto. }
  destruct sl.
  { exists r4. split; auto. split; auto. split; [rewrite height_seq; lia|]. split; auto. discriminate. }
  destruct r4 as [z4|op4 lev4 b4|op4 lev4 l4]; simpl in Hs4; try tauto.
  { eexists. split; [reflexivity|]. split; [cI|]. split; [simpl; lia|]. simpl; auto. }
  rewrite height_seq in Hh4. simpl in E0. simpl in Ht4. specialize (Ht4 E0).
  assert (HJ : forall e, In e l4 -> exists r, join_f k false e = Ok r /\ is_seq r /\
                (height r <= height e)%nat /\ gr_top r /\ (false = false -> gr r)).
  { intros e He. apply IH.
    - apply hmax_In in He. lia.
    - rewrite Forall_forall in Ht4. apply Ht4 in He. destruct e; simpl in *; auto. }
  destruct (mapM_total (join_f k false) l4) as (l5 & E5).
  { intros e He. destruct (HJ e He) as (r & ? & _). eauto. }
  rewrite E5. simpl bind. eexists. split; [reflexivity|]. split; [cI|].
  assert (HP : forall y, In y l5 -> is_seq y /\ (height y <= hmax l4)%nat /\ gr y).
  { intros y Hy. destruct (mapM_In _ _ _ E5 _ Hy) as (e & He & Hj).
    destruct (HJ e He) as (r & Hr & R1 & R2 & R3 & R4). rewrite Hr in Hj. inv Hj.
    split; auto. split; auto. apply hmax_In in He. lia. }
  assert (HG5 : Forall grouped_elt l5).
  { apply Forall_forall. intros y Hy. destruct (HP y Hy) as (Hy' & _). destruct y; simpl in *; auto. }
  split; [|split].
  - rewrite !height_seq. assert (hmax l5 <= hmax l4)%nat by (apply hmax_le; intros; apply HP; auto). lia.
  - simpl. auto.
  - intros _. apply gr_seq. split; auto. apply Forall_forall. intros y Hy. apply HP; auto.
Qed.

Lemma join_total sl n : is_seq n ->
  exists r, join sl n = Ok r /\ is_seq r /\ (height r <= height n)%nat /\ gr_top r /\ (sl = false -> gr r).
Proof. intros H. apply join_f_total; auto. Qed.
