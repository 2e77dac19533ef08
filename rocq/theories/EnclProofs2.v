(** set_enclosure_levels on accepted sets, the geometric tests, and the
    assignment of solids. *)
From Coq Require Import Permutation Sorted.
From Verif Require Import Prelude Enclosures EnclSpec EnclProofs.

Lemma insert_perm e l : Permutation (insert_pid e l) (e :: l).
Proof.
  induction l as [|x l IH]; cbn [insert_pid]; auto. destruct (pid e <=? pid x); auto.
  rewrite IH. apply perm_swap.
Qed.
Lemma sort_perm l : Permutation (sort_level l) l.
Proof. induction l as [|e l IH]; cbn [sort_level fold_right]; auto. rewrite insert_perm. fold (sort_level l). auto. Qed.
Lemma insert_sorted e l : StronglySorted (fun a b => pid a <= pid b) l -> StronglySorted (fun a b => pid a <= pid b) (insert_pid e l).
Proof.
  induction 1 as [|x l S IH F]; cbn [insert_pid]; [repeat constructor|]. destruct (Z.leb_spec (pid e) (pid x)).
  - constructor; [constructor; auto|]. constructor; auto. revert F. apply Forall_impl. intros; lia.
  - constructor; auto. rewrite insert_perm. constructor; auto. lia.
Qed.
Lemma sort_sorted l : StronglySorted (fun a b => pid a <= pid b) (sort_level l).
Proof. induction l; cbn; [constructor|]. apply insert_sorted; auto. Qed.

Section Tree.
  Variable l : list encl.
  Hypothesis T : tree l.

  Lemma id_inj e e' : In e l -> In e' l -> eid e = eid e' -> e = e'.
  Proof.
    destruct T as (N & _). clear T. induction l as [|x r IH]; [intros []|]. cbn [map] in N. inversion N; subst.
    intros [->|I] [->|I'] E; auto.
    - exfalso. apply H1. rewrite E. apply in_map; auto.
    - exfalso. apply H1. rewrite <- E. apply in_map; auto.
  Qed.
  Lemma depth_inj : forall n i, depth l n i -> forall m, depth l m i -> n = m.
  Proof.
    destruct T as (N & Z & _). induction 1 as [|n e Ie D IH]; intros m H.
    - inversion H as [|m' e Ie D E1 E2]; auto. exfalso. apply Z. rewrite <- E2. apply in_map; auto.
    - inversion H as [E1 E2|m' e' Ie' D' E1 E2]; subst.
      + exfalso. apply Z. rewrite E2. apply in_map; auto.
      + apply id_inj in E2; auto. subst. f_equal. apply IH; auto.
  Qed.
  Lemma rooted_depth i : rooted l i -> exists n, depth l n i.
  Proof. induction 1 as [|e Ie R (n & D)]; [exists 0%nat; constructor|exists (S n); constructor; auto]. Qed.
  Definition at_level (n : nat) (e : encl) : Prop := In e l /\ depth l n (pid e).
  Lemma at_level_ex e : In e l -> exists n, at_level n e.
  Proof. intros I. destruct (rooted_depth (pid e)) as (n & D); [apply T; auto|]. exists n. split; auto. Qed.
  Lemma at_level_inj n m e : at_level n e -> at_level m e -> n = m.
  Proof. intros (_ & A) (_ & B). eapply depth_inj; eauto. Qed.
  Lemma parent_ex n e : at_level (S n) e -> exists f, at_level n f /\ eid f = pid e.
  Proof. intros (I & D). inversion D; subst. exists e0. split; auto. split; auto. Qed.
  Lemma son_level n e c : at_level n e -> In c l -> pid c = eid e -> at_level (S n) c.
  Proof. intros (I & D) Ic P. split; auto. rewrite P. constructor; auto. Qed.

  (** the levels *)
  Lemma set_levels_spec : exists levels, set_levels (S (length l)) l = Ok (levels ++ [[]]) /\
    Permutation l (concat levels) /\ Forall (fun lv => lv <> []) levels /\
    (forall n e, at_level n e <-> exists lv, nth_error levels n = Some lv /\ In e lv) /\
    Forall (StronglySorted (fun a b => pid a <= pid b)) levels.
  Proof.
    unfold set_levels. assert (R : forall e, In e l -> rooted l (pid e)) by apply T.
    destruct (level_loop_spec l R (S (length l)) 0 [] [0] l (levels_init l)) as (lv & -> & P & NN & D); [lia|].
    cbn [bind]. rewrite map_app. exists (map sort_level lv). split; [reflexivity|].
    assert (PC : Permutation (concat lv) (concat (map sort_level lv))).
    { clear. induction lv; cbn; auto. apply Permutation_app; auto. symmetry. apply sort_perm. }
    split; [rewrite P; auto|]. split; [|split].
    - rewrite Forall_map. revert NN. apply Forall_impl. intros x NX E. apply NX. apply Permutation_nil. rewrite <- E. symmetry. symmetry. apply sort_perm.
    - assert (INL : forall n x, nth_error (map sort_level lv) n = Some x -> forall e, In e x -> exists x', nth_error lv n = Some x' /\ In e x').
      { intros n x N e I. rewrite nth_error_map in N. destruct (nth_error lv n) as [x'|]; [|discriminate]. injection N as <-.
        exists x'. split; auto. eapply Permutation_in; [apply sort_perm|]; auto. }
      assert (BACK : forall n e, (exists x, nth_error (map sort_level lv) n = Some x /\ In e x) -> at_level n e).
      { intros n e (x & N & I). destruct (INL _ _ N _ I) as (x' & N' & I'). split; [|apply (D n x'); auto].
        eapply Permutation_in; [symmetry; exact P|]. apply in_concat. exists x'. split; auto. eapply nth_error_In; eauto. }
      intros n e. split; [|apply BACK]. intros A. pose proof A as (I & _).
      assert (In e (concat (map sort_level lv))) as C by (eapply Permutation_in; [exact PC|]; eapply Permutation_in; [exact P|auto]).
      apply in_concat in C. destruct C as (x & Ix & Ie). apply In_nth_error in Ix. destruct Ix as (m & Nm).
      assert (at_level m e) as Am by (apply BACK; eauto). assert (m = n) as -> by (eapply at_level_inj; eauto). eauto.
    - rewrite Forall_map. apply Forall_forall. intros x _. apply sort_sorted.
  Qed.
End Tree.

(** ** check_enclosure *)
Lemma rooted_zero l e : In e l -> rooted l (pid e) -> In 0 (map pid l).
Proof.
  intros I R. remember (pid e) as i eqn:E. revert e I E. induction R as [|f If R IH]; intros e I E.
  - rewrite E. apply in_map; auto.
  - apply (IH f); auto.
Qed.
Section Geom.
Variable inter : encl -> encl -> Z.
Lemma same_parent_one lv : forall sp, lv <> [] \/ (exists x, sp = Some [[PInt x]]) -> exists x, same_parent sp lv = Some [[PInt x]].
Proof.
  unfold same_parent. induction lv as [|e lv IH]; intros sp H; cbn [fold_left].
  - destruct H; [congruence|auto].
  - apply IH. right. eauto.
Qed.
Lemma geom_ok : forall levels tree sp over, (exists x, sp = Some [[PInt x]]) ->
  exists tr, geom_levels inter levels tree sp over = Ok (tr, over) /\ (levels <> [] -> last levels [] = [] -> tr = []).
Proof.
  induction levels as [|lv r IH]; intros tree sp over S; [exists tree; split; [reflexivity|congruence]|].
  cbn [geom_levels]. destruct (same_parent_one lv sp (or_intror S)) as (x & Ex). rewrite Ex. cbn [mapM check_overlap overlap_with bind concat app]. rewrite app_nil_r.
  destruct (IH (update_tree tree lv) (Some [[PInt x]]) over) as (tr & E & L); [eauto|]. rewrite E. eexists; split; [reflexivity|].
  intros _ LL. destruct r as [|lv' r].
  - cbn in LL. subst lv. cbn in E. congruence.
  - apply L; [congruence|]. exact LL.
Qed.
Lemma check_enclosure_spec l : check_enclosure inter l = Ok tt <-> l <> [] /\ tree l.
Proof.
  unfold check_enclosure. split.
  - intros H. inv_bind. destruct a, a0. apply (proj1 (check_ids_spec l)) in Ha. pose proof (proj1 (check_loops_spec l) Ha0) as Hr. split; [|split; [|split]]; try tauto.
    intros ->. destruct Ha as (_ & _ & []).
  - intros (NE & T). pose proof T as (N & Z & R).
    assert (I0 : In 0 (map pid l)) by (destruct l as [|e r]; [congruence|]; apply (rooted_zero _ e); simpl; auto; apply R; simpl; auto).
    rewrite (proj2 (check_ids_spec l)) by auto. cbn [bind]. rewrite (proj2 (check_loops_spec l)) by auto. cbn [bind].
    destruct (set_levels_spec l T) as (lv & -> & P & NN & _). cbn [bind].
    destruct lv as [|lv0 lv]; [apply Permutation_sym, Permutation_nil in P; congruence|].
    assert (lv0 <> []) as NE0 by (inversion NN; auto).
    cbn [app geom_levels]. destruct (same_parent_one lv0 None (or_introl NE0)) as (x & ->).
    cbn [mapM check_overlap overlap_with bind concat app].
    destruct (geom_ok (lv ++ [[]]) (update_tree [[PInt 0]] lv0) (Some [[PInt x]]) []) as (tr & -> & L); [eauto|].
    rewrite L; [reflexivity|destruct lv; discriminate|apply last_last].
Qed.
End Geom.

(** ** assignment of solids to enclosures *)
Section Assign.
  Variable l : list encl.
  Hypothesis T : tree l.
  Variable levels : list (list encl).
  Hypothesis HL : forall n e, at_level l n e <-> exists lv, nth_error levels n = Some lv /\ In e lv.
  (** is the place in the enclosure? *)
  Variable inE : encl -> bool.
  Hypothesis Hnest : forall e c, In e l -> In c l -> pid c = eid e -> inE c = true -> inE e = true.
  Hypothesis Hsib : forall e e', In e l -> In e' l -> pid e = pid e' -> inE e = true -> inE e' = true -> e = e'.

  Lemma uniq_level : forall n e e', at_level l n e -> at_level l n e' -> inE e = true -> inE e' = true -> e = e'.
  Proof.
    induction n as [|n IH]; intros e e' A A' I I'.
    - apply Hsib; auto; try apply A; try apply A'.
      destruct A as (_ & D), A' as (_ & D'). inversion D as [E1 E2|]; inversion D' as [E3 E4|]. congruence.
    - destruct (parent_ex _ _ _ A) as (f & Af & Ef), (parent_ex _ _ _ A') as (f' & Af' & Ef').
      assert (f = f') as <-.
      { apply IH; auto; [apply (Hnest f e)|apply (Hnest f' e')]; auto; try apply A; try apply A'; try apply Af; try apply Af'. }
      apply Hsib; auto; try apply A; try apply A'. congruence.
  Qed.
  (** the ancestor at a level *)
  Lemma ancestor : forall k n f, at_level l (n + k) f -> inE f = true -> exists g, at_level l n g /\ inE g = true.
  Proof.
    induction k as [|k IH]; intros n f A I; [rewrite Nat.add_0_r in A; eauto|].
    rewrite <- plus_n_Sm in A. destruct (parent_ex _ _ _ A) as (g & Ag & Eg). apply (IH n g); auto.
    apply (Hnest g f); auto; [apply Ag|apply A].
  Qed.

  (** the place is in the solid; [check]: the solid against the enclosures *)
  Variable check : encl -> Z.
  Hypothesis Hval : forall e, In e l -> check e = 0 \/ check e = 1 \/ check e = -1.
  Hypothesis H1 : forall e, In e l -> check e = 1 -> inE e = false.
  Hypothesis Hm1 : forall e, In e l -> check e = -1 -> inE e = true.

  Lemma assign_level_spec top : forall lv dep, exists more out, assign_level check top lv dep = (dep ++ more, out) /\
    (forall e, In e lv -> check e = 0 -> (forall f, In f lv -> check f <> -1) -> In (eid e) more /\ (top = true -> In (-1) more)) /\
    (out = true <-> forall f, In f lv -> check f <> -1) /\
    ((forall f, In f lv -> check f = 1) -> more = []) /\
    (forall e, In e lv -> (check e = -1 \/ check e = 0) -> (forall f, In f lv -> check f = -1 -> f = e) -> In (eid e) more).
  Proof.
    induction lv as [|e lv IH]; intros dep; cbn [assign_level].
    - exists [], true. rewrite app_nil_r. split; auto. split; [intros ? []|]. split; [split; auto; intros _ ? []|]. split; [auto|]. intros ? [].
    - destruct (Z.eqb_spec (check e) 0) as [E0|N0].
      + destruct (IH (dep ++ eid e :: (if top then [-1] else []))) as (more & out & -> & A & B & C & D).
        exists (eid e :: (if top then [-1] else []) ++ more), out. split; [rewrite <- app_assoc; reflexivity|].
        split; [|split; [|split]].
        * intros x [->|I] X NB; split; simpl; auto.
          { intros ->. simpl. auto. }
          { right. apply in_or_app. right. apply (A x); auto. intros f F. apply NB. simpl; auto. }
          { intros ->. simpl. auto. }
        * rewrite B. split; intros H f; [intros [<-|F]; [lia|auto]|intros F; apply H; simpl; auto].
        * intros H. specialize (H e (or_introl eq_refl)). lia.
        * intros x [->|I] X U; [simpl; auto|]. right. apply in_or_app. right. apply D; auto. intros f F. apply U. simpl; auto.
      + destruct (Z.eqb_spec (check e) (-1)) as [E1|N1].
        * exists [eid e], false. split; auto. split; [|split; [|split]].
          { intros x I X NB. exfalso. apply (NB e); simpl; auto. }
          { split; [discriminate|]. intros H. exfalso. apply (H e); simpl; auto. }
          { intros H. specialize (H e (or_introl eq_refl)). lia. }
          { intros x I X U. rewrite <- (U e); simpl; auto. }
        * destruct (IH dep) as (more & out & -> & A & B & C & D). exists more, out. split; auto. split; [|split; [|split]].
          { intros x [->|I] X NB; [congruence|]. apply A; auto. intros f F. apply NB. simpl; auto. }
          { rewrite B. split; intros H f; [intros [<-|F]; auto|intros F; apply H; simpl; auto]. }
          { intros H. apply C. intros f F. apply H. simpl; auto. }
          { intros x [->|I] X U; [destruct X; congruence|]. apply D; auto. intros f F. apply U. simpl; auto. }
  Qed.

  (** levels deepest first: [ls] are the levels n-1, ..., 0 *)
  Lemma rev_nth {A} (ls : list A) : forall n x r, rev (firstn n ls) = x :: r -> (n <= length ls)%nat ->
    exists m, n = S m /\ nth_error ls m = Some x /\ r = rev (firstn m ls).
  Proof.
    intros n x r H L. destruct n as [|m]; [discriminate|]. exists m. split; auto.
    destruct (nth_error ls m) as [y|] eqn:N; [|apply nth_error_None in N; lia].
    assert (E : firstn (S m) ls = firstn m ls ++ [y]).
    { clear H L. revert ls N. induction m as [|m IH]; intros [|z ls] N; try discriminate; cbn in *; [congruence|]. rewrite <- (IH ls N). reflexivity. }
    rewrite E, rev_app_distr in H. cbn in H. injection H as <- <-. auto.
  Qed.
  Lemma assign_levels_spec e i : at_level l i e -> inE e = true ->
    (forall c, In c l -> pid c = eid e -> inE c = false) ->
    forall n dep, (n <= length levels)%nat -> (i < n)%nat ->
    exists more out, assign_levels check (rev (firstn n levels)) dep = (dep ++ more, out) /\ In (eid e) more.
  Proof.
    intros A I NS. induction n as [|m IH]; intros dep L LT; [lia|].
    destruct (rev (firstn (S m) levels)) as [|lv r] eqn:RV.
    { apply (f_equal (@length _)) in RV. rewrite rev_length, firstn_length_le in RV by lia. discriminate. }
    destruct (rev_nth levels _ _ _ RV L) as (m' & Em & N & ->). injection Em as <-.
    cbn [assign_levels]. set (top := match rev (firstn m levels) with [] => true | _ => false end).
    assert (LV : forall f, In f lv -> at_level l m f) by (intros f F; apply HL; eauto).
    destruct (assign_level_spec top lv dep) as (more & out & -> & P1 & P2 & P3 & P4).
    destruct (Nat.eq_dec i m) as [->|NE].
    - assert (Ie : In e lv) by (apply HL in A; destruct A as (lv' & N' & I'); congruence).
      assert (In (eid e) more) as X.
      { apply P4; auto.
        - destruct (Hval e) as [|[X|]]; auto; [apply A|]. apply H1 in X; [congruence|apply A].
        - intros f F C. apply (uniq_level m); auto. apply Hm1; auto. apply (LV f); auto. }
      destruct out.
      + destruct (rev (firstn m levels)) as [|lv2 r2] eqn:RV2.
        * exists more, true. split; auto.
        * fold (assign_levels check). clear IH.
          assert (MONO : forall ls dep, exists more out, assign_levels check ls dep = (dep ++ more, out)).
          { clear. induction ls as [|lv ls IH]; intros dep; cbn [assign_levels]; [exists [], true; rewrite app_nil_r; auto|].
            assert (M1 : forall top lv dep, exists more out, assign_level check top lv dep = (dep ++ more, out)).
            { clear. induction lv as [|e lv IH]; intros dep; cbn [assign_level]; [exists [], true; rewrite app_nil_r; auto|].
              destruct (check e =? 0); [|destruct (check e =? -1); eauto].
              destruct (IH (dep ++ eid e :: (if top then [-1] else []))) as (more & out & ->). rewrite <- app_assoc. eauto. }
            destruct (M1 (match ls with [] => true | _ => false end) lv dep) as (more & out & ->). destruct out; [|eauto].
            destruct (IH (dep ++ more)) as (m2 & o2 & ->). rewrite <- app_assoc. eauto. }
          destruct (MONO (lv2 :: r2) (dep ++ more)) as (m2 & o2 & E2). rewrite E2. rewrite <- app_assoc.
          exists (more ++ m2), o2. split; auto. apply in_or_app; auto.
      + exists more, false. split; auto.
    - assert (OUT : out = true).
      { apply P2. intros f F C. pose proof (LV f F) as Af. apply Hm1 in C; [|apply Af].
        (* an ancestor of f is a son of e *)
        replace m with (S i + (m - S i))%nat in Af by lia. destruct (ancestor _ _ _ Af C) as (g & Ag & Ig).
        destruct (parent_ex _ _ _ Ag) as (h & Ah & Eh).
        assert (h = e) as ->.
        { apply (uniq_level i); auto. apply (Hnest h g); auto; [apply Ah|apply Ag]. }
        rewrite (NS g) in Ig; [discriminate|apply Ag|auto]. }
      rewrite OUT. destruct (IH (dep ++ more)) as (m2 & o2 & E2 & I2); [lia|lia|]. rewrite E2, <- app_assoc.
      exists (more ++ m2), o2. split; auto. apply in_or_app; auto.
  Qed.

  (** a trailing empty level changes nothing but the position of the top level *)
  Lemma assign_owner e : In e l -> inE e = true -> (forall c, In c l -> pid c = eid e -> inE c = false) ->
    In (eid e) (assign check (levels ++ [[]])).
  Proof.
    intros Ie I NS. destruct (at_level_ex l T e Ie) as (i & A).
    pose proof A as B. apply HL in B. destruct B as (lv & N & _). assert (LT : (i < length levels)%nat) by (apply nth_error_Some; congruence).
    unfold assign. rewrite rev_app_distr. cbn [rev app assign_levels assign_level].
    destruct (assign_levels_spec e i A I NS (length levels) [] ltac:(lia) LT) as (more & out & E & IN).
    rewrite firstn_all in E. rewrite E. cbn [app]. destruct more; [destruct IN|exact IN].
  Qed.

  (** a place outside all enclosures *)
  Hypothesis Hmono : forall e c, In e l -> In c l -> pid c = eid e -> check e = 1 -> check c = 1.
  Lemma all_ones : (forall e, at_level l 0 e -> check e = 1) -> forall n e, at_level l n e -> check e = 1.
  Proof.
    intros H. induction n as [|n IH]; auto. intros e A. destruct (parent_ex _ _ _ A) as (f & Af & Ef).
    apply (Hmono f e); auto; [apply Af|apply A].
  Qed.
  Lemma assign_root : (forall e, In e l -> inE e = false) -> In (-1) (assign check (levels ++ [[]])).
  Proof.
    intros NE. assert (NM : forall e, In e l -> check e <> -1).
    { intros e I C. apply Hm1 in C; auto. rewrite NE in C; [discriminate|auto]. }
    assert (G : forall n dep, (n <= length levels)%nat -> exists more, assign_levels check (rev (firstn n levels)) dep = (dep ++ more, true) /\
      ((forall e, In e l -> check e = 1) -> more = []) /\
      ((1 <= n)%nat -> forall e, at_level l 0 e -> check e = 0 -> In (-1) more)).
    { induction n as [|m IH]; intros dep L.
      - exists []. rewrite app_nil_r. split; auto. split; auto. lia.
      - destruct (rev (firstn (S m) levels)) as [|lv r] eqn:RV.
        { apply (f_equal (@length _)) in RV. rewrite rev_length, firstn_length_le in RV by lia. discriminate. }
        destruct (rev_nth levels _ _ _ RV L) as (m' & Em & N & ->). injection Em as <-. cbn [assign_levels].
        assert (LV : forall f, In f lv -> at_level l m f) by (intros f F; apply HL; eauto).
        destruct (assign_level_spec (match rev (firstn m levels) with [] => true | _ => false end) lv dep) as (more & out & -> & P1 & P2 & P3 & P4).
        assert (NB : forall f, In f lv -> check f <> -1) by (intros f F; apply NM; apply (LV f F)).
        rewrite (proj2 P2) by auto. destruct (IH (dep ++ more)) as (m2 & -> & Q1 & Q2); [lia|]. rewrite <- app_assoc.
        exists (more ++ m2). split; auto. split.
        + intros H. rewrite (P3 (fun f F => H f (proj1 (LV f F)))), Q1; auto.
        + intros _ e A C. destruct m as [|m].
          * apply in_or_app. left. assert (In e lv) as Ie by (apply HL in A; destruct A as (lv' & N' & I'); congruence).
            apply (P1 e Ie C NB). reflexivity.
          * apply in_or_app. right. apply (Q2 ltac:(lia) e); auto. }
    unfold assign. rewrite rev_app_distr. cbn [rev app assign_levels assign_level].
    destruct (G (length levels) [] ltac:(lia)) as (more & E & Q1 & Q2). rewrite firstn_all in E. rewrite E. cbn [app].
    destruct more as [|x0 more0] eqn:EM; [simpl; auto|]. rewrite <- EM in *.
    (* some enclosure of the top level is met *)
    assert (X : exists e, at_level l 0 e /\ check e = 0).
    { assert (Y : forall ls, (exists e, In e ls /\ check e = 0) \/ forall e, In e ls -> check e <> 0).
      { clear. induction ls as [|e ls [(x & I & C)|IH]]; [right; intros ? []|left; exists x; simpl; auto|].
        destruct (Z.eq_dec (check e) 0); [left; exists e; simpl; auto|right; intros x [<-|I]; auto]. }
      destruct (nth_error levels 0) as [lv|] eqn:N0.
      - destruct (Y lv) as [(e & I & C)|H]; [exists e; split; auto; apply HL; eauto|]. exfalso.
        assert (more = []) as Z; [|congruence]. apply Q1. intros e I. destruct (at_level_ex l T e I) as (n & A).
        apply (all_ones) with (n := n); auto. intros f F. pose proof F as F'. apply HL in F'. destruct F' as (lv' & N' & I').
        assert (lv' = lv) as -> by congruence. destruct (Hval f) as [|[|]]; auto; [apply F|exfalso; eapply H; eauto|exfalso; eapply NM; [apply F|auto]].
      - exfalso. assert (levels = []) as Z by (destruct levels; [auto|discriminate]).
        assert (more = []) as ZZ; [|congruence]. apply Q1. intros e I. destruct (at_level_ex l T e I) as (n & A). apply HL in A.
        destruct A as (lv & N & _). rewrite Z in N. destruct n; discriminate. }
    destruct X as (e & A & C). apply (Q2) with (e := e); auto.
    pose proof A as B. apply HL in B. destruct B as (lv & N & _). destruct levels; [discriminate|simpl; lia].
  Qed.
End Assign.
