(** Termination of simplify for every input; no exception without a table. *)
From Verif Require Import Prelude BoolSpec BoolSeq BoolProofs BoolProofs2 BoolTotal.
From Coq Require Import Permutation.

Lemma subst_list_total f op name val l :
  (forall e, In e l -> is_seq e -> exists e', f e = Ok e') ->
  exists r, subst_list f op name val l = Ok r.
Proof.
  induction l as [|e l IH]; intros H; simpl; eauto.
  destruct IH as (r & Hr); [intros; apply H; simpl; auto|]. rewrite Hr. cbn [bind].
  destruct r as [b|r']; eauto.
  destruct e as [z|o lv b|o lv xs].
  - destruct (Z.abs z =? name); eauto. destruct val; eauto.
    destruct (eqb _ (absorbing op)); eauto.
  - destruct (H _ (or_introl eq_refl) I) as (e' & He). rewrite He. simpl; eauto.
  - destruct (H _ (or_introl eq_refl) I) as (e' & He). rewrite He. simpl; eauto.
Qed.

Lemma clean_self_is_seq n : is_seq n -> is_seq (clean_self n).
Proof.
  destruct n; simpl; auto. intros _. destruct (clean_list _ _ _) as [b|[|]]; cI.
Qed.
Lemma check_level0_is_seq n : is_seq n -> is_seq (check_level0 n).
Proof.
  destruct n as [z|op lev b|op lev l]; simpl; auto. intros _. destruct (lev =? 0); [|cI].
  unfold check0. destruct (Nat.eqb _ _); cI.
Qed.

Lemma subst_total var val n : is_seq n -> exists r, subst var val n = Ok r /\ is_seq r.
Proof.
  induction n as [z|op lev b|op lev l IH] using node_ind'; intros Hs; [simpl in Hs; tauto| |].
  - exists (Cst op lev b). destruct val; simpl; auto.
  - assert (HV : val = VNone \/ val <> VNone) by (destruct val; auto; right; discriminate).
    destruct HV as [->|HV]; [eexists; split; [reflexivity|cI]|].
    assert (E : subst var val (Seq op lev l) = (do r0 <- subst_list (subst var val) op (Z.abs var) val l;
          match r0 with
          | inl b => Ok (Cst op (-1) b)
          | inr [] => Ok (Cst op (-1) (neutral op))
          | inr l' => join true (check_level0 (clean_self (Seq op lev l')))
          end)) by (destruct val; try congruence; reflexivity).
    rewrite E. clear E.
    destruct (subst_list_total (subst var val) op (Z.abs var) val l) as (r & Hr).
    { intros e He Hse. rewrite Forall_forall in IH. destruct (IH e He Hse) as (r & ? & _). eauto. }
    rewrite Hr. cbn [bind]. destruct r as [b|[|x l']].
    + eexists; split; [reflexivity|cI].
    + eexists; split; [reflexivity|cI].
    + destruct (join_total true (check_level0 (clean_self (Seq op lev (x :: l'))))) as (r & Er & R1 & _).
      { apply check_level0_is_seq, clean_self_is_seq. cI. }
      eauto.
Qed.

Definition bres_seq (r : bres) : Prop := match r with RB _ => True | RS n => is_seq n end.

Lemma eval_loop_total vs : forall n, is_seq n -> exists r, eval_loop vs n = Ok r /\ bres_seq r.
Proof.
  induction vs as [|[x b] vs IH]; intros n Hs; cbn [eval_loop].
  - destruct n; simpl in Hs; try tauto; eexists; split; try reflexivity; cI.
  - destruct (subst_total x (VB b) n Hs) as (r & -> & Hr). cbn [bind].
    destruct r as [z|op lev b'|op lev l]; simpl in Hr; try tauto.
    + eexists; split; [reflexivity|cI].
    + apply IH. cI.
Qed.

Lemma evaluate_total_gs vs n g : group_single n = Ok g -> is_seq n ->
  exists r g', evaluate vs n = Ok (r, g') /\ bres_seq r /\ (g' = g \/ g' = n) .
Proof.
  intros Hg Hs. unfold evaluate. destruct n as [z|op lev b|op lev l]; simpl in Hs; try tauto.
  - eexists _, _; split; [reflexivity|]. split; [cI|auto].
  - rewrite Hg. cbn [bind]. rewrite copy_id.
    destruct (group_single_shape _ _ _ _ Hg) as (l' & ->).
    destruct (eval_loop_total vs (Seq op lev l') I) as (r & -> & Hr). cbn [bind].
    eexists _, _; split; [reflexivity|]. auto.
Qed.

(* ------------------------------------------------------------------ *)
(** * No step runs out of fuel *)

Lemma bind_fuel {A B} (r : res A) (f : A -> res B) :
  r <> Fuel -> (forall a, r = Ok a -> f a <> Fuel) -> bind r f <> Fuel.
Proof. destruct r; simpl; intros; auto; congruence. Qed.

Lemma gs_loop_fuel i : forall l g, gs_loop i l g <> Fuel.
Proof.
  induction i as [|i IH]; intros l g; simpl; [discriminate|].
  destruct (nth_error l i) as [[z|o lv b|o lv [|x [|y xs]]]|]; auto; try discriminate;
    destruct (lv =? 0); auto; discriminate.
Qed.
Lemma group_single_fuel n : group_single n <> Fuel.
Proof.
  destruct n as [z|op lev b|op lev l]; simpl; try discriminate.
  destruct (lev =? 0); try discriminate. apply bind_fuel; [apply gs_loop_fuel|].
  intros [l' g] _. destruct g; discriminate.
Qed.
Lemma group_single_is_seq n g : group_single n = Ok g -> is_seq n -> is_seq g.
Proof.
  destruct n as [z|op lev b|op lev l]; intros H Hs; simpl in Hs; try tauto.
  - simpl in H; inv H; cI.
  - destruct (group_single_shape _ _ _ _ H) as (l' & ->). cI.
Qed.
Lemma evaluate_fuel vs n : evaluate vs n <> Fuel.
Proof.
  unfold evaluate. destruct n as [z|op lev b|op lev l]; try discriminate.
  apply bind_fuel; [apply group_single_fuel|]. intros g Hg. apply bind_fuel; [|discriminate].
  rewrite copy_id. destruct (eval_loop_total vs g) as (r & -> & _); [|discriminate].
  eapply group_single_is_seq; eauto; cI.
Qed.
Lemma evaluate_bres_seq vs n r g : evaluate vs n = Ok (r, g) -> bres_seq r /\ is_seq g.
Proof.
  intros H. unfold evaluate in H. destruct n as [z|op lev b|op lev l]; try discriminate.
  - inv H. split; cI.
  - inv_bind. inv H. rewrite copy_id in Ha0.
    assert (Hg : is_seq g) by (eapply group_single_is_seq; eauto; cI).
    destruct (eval_loop_total vs g Hg) as (r' & E & Hr). rewrite E in Ha0. inv Ha0. auto.
Qed.

Lemma touching_fuel vals l : forall i, touching vals i l <> Fuel.
Proof.
  induction l as [|e l IH]; intros i; simpl; [discriminate|].
  destruct e; try discriminate; (apply bind_fuel; [apply IH|]); intros a _;
    destruct (existsb _ _); discriminate.
Qed.

Lemma get_sub_fuel vals k : forall n, (height n < k)%nat -> get_sub_f k vals n <> Fuel.
Proof.
  induction k as [|k IH]; intros n Hk; [lia|]. simpl.
  destruct n as [z|op lev b|op lev l]; try discriminate.
  - destruct (lev =? 0); discriminate.
  - destruct (lev =? 0); [discriminate|]. apply bind_fuel; [apply touching_fuel|].
    intros ts Hts. cbn [bind].
    destruct ts as [|[i c] [|t ts]]; try discriminate.
    destruct (0 <? level_of c); [|discriminate]. apply bind_fuel.
    + apply IH. pose proof (touching_spec _ _ _ _ Hts) as HS. inv HS.
      destruct H1 as (Hin & _). simpl in Hin. apply hmax_In in Hin. rewrite height_seq in Hk. lia.
    + intros [[[path idx]|] s] _; discriminate.
Qed.

Lemma append_is_seq op lev l args n : append (Seq op lev l) args = Ok n -> is_seq n.
Proof.
  simpl. intros H. inv H. revert lev l. induction args as [|a args IH]; intros lev l; simpl; auto.
  destruct a as [[s|o lv b|o lv l']|b]; auto.
  - destruct (in_lits s l); auto. destruct (in_lits (- s) l); auto; cI.
  - destruct (eqb b (absorbing op)); auto; cI.
  - destruct (eqb b (neutral op)); auto; cI.
Qed.

Lemma update_base_fuel strict nseq idx base : update_base strict nseq idx base <> Fuel.
Proof.
  destruct base as [z|op lev b|op lev l]; try discriminate. unfold update_base.
  assert (H : (do b1 <- append (Seq op lev (del_idx 0 idx l)) [AN nseq]; join false b1) <> Fuel).
  { apply bind_fuel; [discriminate|]. intros a Ha. apply append_is_seq in Ha.
    destruct (join_total false a Ha) as (r & -> & _). discriminate. }
  destruct nseq as [zn|on ln bn|on ln xn]; auto.
  destruct (strict && eqb bn (neutral op) && negb (Nat.eqb (length (del_idx 0 idx l)) 0)); discriminate.
Qed.

Lemma upd_at_fuel f path : (forall b, f b <> Fuel) -> forall n, upd_at path f n <> Fuel.
Proof.
  intros Hf. induction path as [|i p IH]; intros n; simpl; auto.
  destruct n as [z|op lev b|op lev l]; try discriminate.
  destruct (nth_error l i) as [c|]; [|discriminate]. apply bind_fuel; [auto|discriminate].
Qed.

Lemma shannon_fuel x t f : bres_seq t -> bres_seq f -> shannon x t f <> Fuel.
Proof.
  intros Ht Hf.
  assert (HJ : forall op z g, (do n <- append (Seq op 0 []) [AN (Lit z); AN g];
                      do n' <- join true n; Ok (Some n')) <> Fuel).
  { intros op z g. apply bind_fuel; [discriminate|]. intros a Ha. apply append_is_seq in Ha.
    destruct (join_total true a Ha) as (r & -> & _). discriminate. }
  destruct t as [[|]|g], f as [[|]|h]; try discriminate; apply HJ.
Qed.
Lemma shannon_is_seq x t f n : shannon x t f = Ok (Some n) -> is_seq n.
Proof.
  assert (HJ : forall op z g n, (do n <- append (Seq op 0 []) [AN (Lit z); AN g];
                      do n' <- join true n; Ok (Some n')) = Ok (Some n) -> is_seq n).
  { intros op z g m H. inv_bind. inv H. apply append_is_seq in Ha.
    destruct (join_total true a Ha) as (r & E & Hr & _). rewrite E in Ha0. inv Ha0. auto. }
  destruct t as [[|]|g], f as [[|]|h]; intros H; try (eapply HJ; exact H); simpl in H; inv H; cI.
Qed.

Lemma factorize_fuel strict x ts fs n : factorize strict x ts fs n <> Fuel.
Proof.
  unfold factorize. destruct ts as [t|], fs as [f|]; try discriminate.
  - apply bind_fuel; [apply get_sub_fuel; lia|]. intros [pos sub] _.
    apply bind_fuel; [apply evaluate_fuel|]. intros [tr s1] H1.
    apply bind_fuel; [apply evaluate_fuel|]. intros [fr s2] H2.
    apply bind_fuel.
    + apply shannon_fuel; [apply (evaluate_bres_seq _ _ _ _ H1)|apply (evaluate_bres_seq _ _ _ _ H2)].
    + intros [nseq|] _; [|discriminate]. destruct pos as [[path idx]|]; [|discriminate].
      unfold update. apply bind_fuel; [|discriminate]. apply upd_at_fuel. apply update_base_fuel.
  - apply bind_fuel; [apply evaluate_fuel|]. intros [r g] _. discriminate.
  - apply bind_fuel; [apply evaluate_fuel|]. intros [r g] _. discriminate.
Qed.

Lemma do_factorize_fuel x ts fs n : do_factorize x ts fs n <> Fuel.
Proof.
  unfold do_factorize. destruct (0 <? level_of n); [discriminate|].
  destruct ts as [t|], fs as [f|]; try discriminate.
  destruct (_ && _); [discriminate|].
  destruct n as [z|op lev b|op lev l]; try discriminate. apply bind_fuel.
  - induction l as [|e l IH]; [discriminate|]. destruct e; try discriminate.
    destruct (Z.abs z =? x); [discriminate|auto].
  - intros [z|] _; [|discriminate]. destruct (Nat.eqb _ 1); [destruct op; discriminate|].
    destruct (Nat.eqb _ 1); [destruct op; discriminate|discriminate].
Qed.

(** get_constraint_set returns or raises. *)
Definition ct_total (ct : ctable) : Prop :=
  match ct with None => True | Some f => forall x, f x <> Fuel end.

Lemma ss_loop_fuel strict ct names : ct_total ct -> forall nn n, ss_loop strict ct names nn n <> Fuel.
Proof.
  intros HC. induction names as [|x names IH]; intros nn n; simpl; [discriminate|].
  destruct (existsb (Z.eqb x) nn); auto. apply bind_fuel.
  - destruct ct as [f|]; simpl in *; [auto|discriminate].
  - intros [ts fs] _. apply bind_fuel; [apply do_factorize_fuel|]. intros [|] _; auto.
    apply bind_fuel; [apply factorize_fuel|]. intros s' _. destruct s'; auto; discriminate.
Qed.
Lemma simplify_sequence_fuel strict ord ct n : ct_total ct -> simplify_sequence strict ord ct n <> Fuel.
Proof.
  intros HC. unfold simplify_sequence.
  assert (H : match surfs n with [] => Ok n | names => ss_loop strict ct (ord n) names n end <> Fuel)
    by (destruct (surfs n); [discriminate|apply ss_loop_fuel; auto]).
  destruct ct; auto. destruct (level_of n <? 1); auto. discriminate.
Qed.

(* ------------------------------------------------------------------ *)
(** * simplify terminates *)

Lemma mapM_mono {A B} (f g : A -> res B) l :
  (forall e, In e l -> f e <> Fuel -> g e = f e) -> mapM f l <> Fuel -> mapM g l = mapM f l.
Proof.
  induction l as [|e l IH]; intros H HF; simpl in *; auto.
  assert (f e <> Fuel) by (intros E; rewrite E in HF; simpl in HF; congruence).
  rewrite (H e) by auto. destruct (f e) as [y| |]; simpl in *; auto.
  rewrite IH; auto. intros E. rewrite E in HF. simpl in HF. congruence.
Qed.

Lemma bind_mono {A B} (r r' : res A) (f g : A -> res B) :
  bind r f <> Fuel -> (r <> Fuel -> r' = r) -> (forall a, r = Ok a -> f a <> Fuel -> g a = f a) ->
  bind r' g = bind r f.
Proof.
  intros H H1 H2. assert (r <> Fuel) by (intros ->; simpl in H; congruence).
  rewrite H1 by auto. destruct r; simpl in *; auto.
Qed.

Definition simp_body (rec : Z -> node -> res node) strict ord ct (d : Z) (self : node) : res node :=
  match self with
  | Lit _ => Err AttributeError
  | _ =>
      do s1 <-
        (if 0 <? level_of self then
           match self with
           | Seq op lev l =>
               do l' <- mapM (rec (d + 1)) l;
               do j <- join false (clean (Seq op lev l'));
               Ok (level_update j)
           | _ => Err TypeError
           end
         else Ok self);
      match s1 with
      | Seq op lev l =>
          if (0 <? lev) || Nat.ltb 1 (length l) then
            do s2 <- simplify_sequence strict ord ct s1;
            if (lev <? level_of s2) && (d <? 10)
            then rec (d + 1) s2
            else Ok s2
          else Ok s1
      | _ => Ok s1
      end
  end.
Lemma simplify_unfold strict ord ct k d n :
  simplify_f (S k) strict ord ct d n = simp_body (simplify_f k strict ord ct) strict ord ct d n.
Proof. reflexivity. Qed.

Lemma simp_body_mono r r' strict ord ct d n :
  (forall d n, r d n <> Fuel -> r' d n = r d n) ->
  simp_body r strict ord ct d n <> Fuel ->
  simp_body r' strict ord ct d n = simp_body r strict ord ct d n.
Proof.
  intros IH H. unfold simp_body in *.
  destruct n as [z|op lev b|op lev l]; auto.
  - apply bind_mono; auto. intros s1 _ H1.
    destruct s1 as [z|op1 lev1 b1|op1 lev1 l1]; auto.
    destruct (_ || _); auto. apply bind_mono; auto. intros s2 _ H2.
    destruct (_ && _); auto.
  - apply bind_mono; auto.
    + intros H1. destruct (0 <? level_of (Seq op lev l)); auto.
      apply bind_mono; auto. intros HM. apply mapM_mono; auto.
    + intros s1 _ H1.
      destruct s1 as [z|op1 lev1 b1|op1 lev1 l1]; auto.
      destruct (_ || _); auto. apply bind_mono; auto. intros s2 _ H2.
      destruct (_ && _); auto.
Qed.

Lemma simplify_mono strict ord ct k : forall d n,
  simplify_f k strict ord ct d n <> Fuel ->
  simplify_f (S k) strict ord ct d n = simplify_f k strict ord ct d n.
Proof.
  induction k as [|k IH]; intros d n H; [simpl in H; congruence|].
  rewrite (simplify_unfold strict ord ct (S k)), (simplify_unfold strict ord ct k) in *.
  apply simp_body_mono; auto.
Qed.

Lemma simplify_mono_le strict ord ct k k' d n :
  (k <= k')%nat -> simplify_f k strict ord ct d n <> Fuel ->
  simplify_f k' strict ord ct d n = simplify_f k strict ord ct d n.
Proof.
  induction 1 as [|k' Hk IH]; intros H; auto.
  rewrite simplify_mono; [auto|]. rewrite IH; auto.
Qed.

Lemma mapM_fuel_ex strict ord ct d l :
  (forall e, In e l -> exists k, simplify_f k strict ord ct d e <> Fuel) ->
  exists k, mapM (simplify_f k strict ord ct d) l <> Fuel.
Proof.
  induction l as [|e l IH]; intros H; [exists O; discriminate|].
  destruct (H e (or_introl eq_refl)) as (k1 & H1).
  destruct IH as (k2 & H2); [intros; apply H; simpl; auto|].
  exists (Nat.max k1 k2). simpl.
  rewrite (simplify_mono_le strict ord ct k1 (Nat.max k1 k2)) by (auto; lia).
  apply bind_fuel; auto. intros y _. apply bind_fuel; [|discriminate].
  rewrite (mapM_mono (simplify_f k2 strict ord ct d)); auto.
  intros e' _ He. apply simplify_mono_le; auto; lia.
Qed.

Lemma mapM_le strict ord ct d l k k' :
  (k <= k')%nat -> mapM (simplify_f k strict ord ct d) l <> Fuel ->
  mapM (simplify_f k' strict ord ct d) l = mapM (simplify_f k strict ord ct d) l.
Proof.
  intros Hk H. apply mapM_mono; auto. intros e _ He. apply simplify_mono_le; auto.
Qed.

(** One unfolding: children and the re-simplification have enough fuel. *)
Lemma simplify_step strict ord ct d n :
  ct_total ct -> is_seq n ->
  (forall op lev l, n = Seq op lev l ->
     forall e, In e l -> exists k, simplify_f k strict ord ct (d + 1) e <> Fuel) ->
  ((d <? 10) = true -> forall m, exists k, simplify_f k strict ord ct (d + 1) m <> Fuel) ->
  exists k, simplify_f k strict ord ct d n <> Fuel.
Proof.
  intros HC Hs Hch Hre.
  set (first k := (if 0 <? level_of n then
               match n with
               | Seq op lev l =>
                   do l' <- mapM (simplify_f k strict ord ct (d + 1)) l;
                   do j <- join false (clean (Seq op lev l'));
                   Ok (level_update j)
               | _ => Err TypeError
               end
             else Ok n)).
  set (second k s1 := match s1 with
          | Seq op lev l =>
              if (0 <? lev) || Nat.ltb 1 (length l) then
                do s2 <- simplify_sequence strict ord ct s1;
                if (lev <? level_of s2) && (d <? 10)
                then simplify_f k strict ord ct (d + 1) s2
                else Ok s2
              else Ok s1
          | _ => Ok s1
          end).
  assert (Heq : forall k, simplify_f (S k) strict ord ct d n = bind (first k) (second k)).
  { intros k. simpl. destruct n; simpl in Hs; try tauto; reflexivity. }
  assert (H1 : exists k1, first k1 <> Fuel /\ forall k', (k1 <= k')%nat -> first k' = first k1).
  { unfold first. destruct (0 <? level_of n); [|exists O; split; [discriminate|auto]].
    destruct n as [z|op lev b|op lev l]; try (exists O; split; [discriminate|auto]; fail).
    destruct (mapM_fuel_ex strict ord ct (d + 1) l) as (k1 & Hk1).
    { intros e He. eapply Hch; eauto. }
    exists k1. split.
    - apply bind_fuel; auto. intros l' _. destruct (join_total false (clean (Seq op lev l'))) as (r & -> & _).
      { simpl. destruct (clean_list clean op l') as [|[|]]; cI. }
      discriminate.
    - intros k' Hk. rewrite (mapM_le _ _ _ _ _ _ _ Hk Hk1). reflexivity. }
  destruct H1 as (k1 & F1 & F2).
  destruct (first k1) as [s1|e|] eqn:Ef; [| |congruence].
  2:{ exists (S k1). rewrite Heq, Ef. discriminate. }
  assert (H2 : exists k2, forall k', (k2 <= k')%nat -> second k' s1 <> Fuel).
  { unfold second. destruct s1 as [z|op1 lev1 b1|op1 lev1 l1]; try (exists O; discriminate).
    destruct ((0 <? lev1) || Nat.ltb 1 (length l1)); [|exists O; discriminate].
    destruct (simplify_sequence strict ord ct (Seq op1 lev1 l1)) as [s2|e|] eqn:Ess.
    - cbn [bind]. destruct ((lev1 <? level_of s2) && (d <? 10)) eqn:Ec; [|exists O; discriminate].
      apply andb_prop in Ec. destruct Ec as (_ & Ec).
      destruct (Hre Ec s2) as (k2 & Hk2). exists k2. intros k' Hk.
      rewrite (simplify_mono_le _ _ _ _ _ _ _ Hk Hk2). auto.
    - exists O. discriminate.
    - exfalso. eapply simplify_sequence_fuel; eauto. }
  destruct H2 as (k2 & H2).
  exists (S (Nat.max k1 k2)). rewrite Heq, F2 by lia. cbn [bind]. apply H2. lia.
Qed.

Lemma lit_simplify strict ord ct d z : simplify_f 1 strict ord ct d (Lit z) <> Fuel.
Proof. discriminate. Qed.

Lemma simplify_terminates_deep strict ord ct (HC : ct_total ct) n : forall d, 10 <= d ->
  exists k, simplify_f k strict ord ct d n <> Fuel.
Proof.
  induction n as [z|op lev b|op lev l IH] using node_ind'; intros d Hd.
  - exists 1%nat. discriminate.
  - apply simplify_step; auto; [cI|discriminate|]. intros H. lia.
  - apply simplify_step; auto; [cI| |intros H; lia].
    intros op' lev' l' E e He. inv E. rewrite Forall_forall in IH. apply IH; auto. lia.
Qed.

Lemma simplify_terminates strict ord ct (HC : ct_total ct) d n :
  exists k, simplify_f k strict ord ct d n <> Fuel.
Proof.
  assert (H : forall D d n, 10 - d <= Z.of_nat D -> exists k, simplify_f k strict ord ct d n <> Fuel).
  { induction D as [|D IH]; intros d' n' Hd.
    - apply simplify_terminates_deep; auto. lia.
    - destruct n' as [z|op lev b|op lev l].
      + exists 1%nat. discriminate.
      + apply simplify_step; auto; [cI|discriminate|]. intros _ m. apply IH. lia.
      + apply simplify_step; auto; [cI| |].
        * intros. apply IH. lia.
        * intros _ m. apply IH. lia. }
  apply (H (Z.to_nat (10 - d))). lia.
Qed.
