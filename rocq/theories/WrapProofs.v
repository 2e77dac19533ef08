(** wrap_line keeps tokens and the line size. *)
From Coq Require Import Ascii String.
From Verif Require Import Prelude BoolSpec CellText LexSpec Writers ParenModel Wrap WritersProofs LexProofs.

(** * Characters of the normalised text *)
Section Chars.
  Variable P : ascii -> Prop.
  Hypothesis PB : P " "%char.
  Lemma blanks_P k : Forall P (blanks k).
  Proof. induction k; constructor; auto. Qed.
  Lemma collapse_P s : forall b, Forall P s -> Forall P (collapse b s).
  Proof.
    induction s as [|c s IH]; intros b H; auto. inversion H; subst. cbn [collapse].
    destruct (Ascii.eqb c " "), b; auto.
  Qed.
  Lemma tight_P x s : forall a k, Forall P s -> Forall P (tight x a k s).
  Proof.
    induction s as [|c s IH]; intros a k H; [apply blanks_P|]. inversion H; subst. cbn [tight].
    destruct (Ascii.eqb c " "); [destruct a; auto|]. destruct (Ascii.eqb_spec c x).
    - subst. constructor; auto.
    - apply Forall_app. split; [apply blanks_P|]. constructor; auto.
  Qed.
  Lemma spread_P p q s : Forall P s -> Forall P (spread p q s).
  Proof.
    induction 1 as [|c s Hc Hs IH]; [constructor|].
    change (spread p q (c :: s)) with (c :: (if p c && match s with d :: _ => q d | [] => false end
                    then " "%char :: spread p q s else spread p q s)).
    constructor; [exact Hc|]. destruct (p c && match s with d :: _ => q d | [] => false end); auto.
  Qed.
  Lemma drop_while_P f s : Forall P s -> Forall P (drop_while f s).
  Proof. induction 1; simpl; auto. destruct (f x); auto. Qed.
  Lemma strip_P f s : Forall P s -> Forall P (strip f s).
  Proof. intros H. unfold strip. apply Forall_rev, drop_while_P, Forall_rev, drop_while_P, H. Qed.
  Lemma normal_P s : Forall P s -> Forall P (normal s).
  Proof.
    intros H. unfold normal. do 4 apply spread_P. do 3 apply tight_P. apply collapse_P, strip_P, H.
  Qed.
End Chars.

(** * The inner loop *)
Lemma py_index_nth s i : 0 <= i < Z.of_nat (length s) ->
  exists c, py_index s i = Ok c /\ nth_error s (Z.to_nat i) = Some c.
Proof.
  intros H. unfold py_index. replace (i <? 0) with false by lia.
  replace ((i <? 0) || (Z.of_nat (length s) <=? i)) with false by lia.
  destruct (nth_error s (Z.to_nat i)) eqn:E; eauto. apply nth_error_None in E. lia.
Qed.

Lemma back_spec s init : 0 <= init -> forall fuel i, (Z.to_nat (i - init) < fuel)%nat ->
  init <= i < Z.of_nat (length s) ->
  (exists j c, init <= j <= i /\ nth_error s (Z.to_nat j) = Some c /\ brk c = true) ->
  exists j c, back fuel s i = Ok j /\ init <= j <= i /\ nth_error s (Z.to_nat j) = Some c /\ brk c = true.
Proof.
  intros HI. induction fuel as [|fuel IH]; intros i HF Hi HE; [lia|]. cbn [back].
  destruct (py_index_nth s i) as (c & -> & Hc); [lia|]. cbn [bind].
  destruct (brk c) eqn:E.
  - exists i, c. repeat split; auto; lia.
  - destruct HE as (j & d & Hj & Hd & Hb).
    assert (j <> i). { intros ->. congruence. }
    destruct (IH (i - 1)) as (j' & c' & E1 & H1 & H2); try lia.
    + exists j, d. repeat split; auto; lia.
    + exists j', c'. split; auto. split; [lia|auto].
Qed.

Lemma py_slice_mid pre rest k : (k <= length rest)%nat ->
  py_slice (pre ++ rest) (Z.of_nat (length pre)) (Z.of_nat (length pre + k)) = firstn k rest.
Proof.
  intros H. unfold py_slice. rewrite app_length.
  replace (Z.of_nat (length pre) <? 0) with false by lia.
  replace (Z.of_nat (length pre + k) <? 0) with false by lia.
  replace (Z.max 0 (Z.min (Z.of_nat (length pre + length rest)) (Z.of_nat (length pre)))) with (Z.of_nat (length pre)) by lia.
  replace (Z.max 0 (Z.min (Z.of_nat (length pre + length rest)) (Z.of_nat (length pre + k)))) with (Z.of_nat (length pre + k)) by lia.
  replace (Z.to_nat (Z.of_nat (length pre + k) - Z.of_nat (length pre))) with k by lia.
  rewrite Nat2Z.id, skipn_app, skipn_all, Nat.sub_diag. reflexivity.
Qed.

(** * The outer loop *)
Definition ends_brk (s : chars) : Prop := exists a c, s = a ++ [c] /\ brk c = true.

Lemma ends_brk_firstn rest j c : nth_error rest j = Some c -> brk c = true -> ends_brk (firstn (S j) rest).
Proof.
  intros H1 H2. exists (firstn j rest), c. split; auto.
  revert rest H1. induction j as [|j IH]; intros [|x rest] H; simpl in *; try discriminate.
  - congruence.
  - f_equal. apply IH; auto.
Qed.

Lemma nth_firstn {A} n : forall j (s : list A), (j < n)%nat -> nth_error (firstn n s) j = nth_error s j.
Proof. induction n; intros [|j] [|x s] H; simpl; auto; try lia. apply IHn. lia. Qed.
Lemma has_break_nth s n : has_break (firstn n s) -> exists j c, (j < n)%nat /\ nth_error s j = Some c /\ brk c = true.
Proof.
  intros (c & H1 & H2). apply In_nth_error in H1. destruct H1 as (j & H1).
  exists j, c. assert (j < n)%nat.
  { assert (nth_error (firstn n s) j <> None) by congruence. apply nth_error_Some in H. rewrite firstn_length in H. lia. }
  split; auto. split; auto. rewrite <- H1. symmetry. apply nth_firstn; auto.
Qed.

Definition W (tab : Z) : chars := newline :: blanks (Z.to_nat tab).

Definition pieces_ok (first width : nat) (rest : chars) (ps : list chars) : Prop :=
  concat ps = rest /\ Forall ends_brk (removelast ps) /\
  exists p l, ps = p :: l /\ (length p <= first)%nat /\ Forall (fun p => (length p <= width)%nat) l.

Lemma breaks_spec size tab s : 0 <= tab < size ->
  (forall a b c, s = a ++ b ++ c -> length b = Z.to_nat (size - tab) -> has_break b) ->
  forall fuel rest pre out first,
  s = pre ++ rest -> (length rest < fuel)%nat -> (0 < first <= length rest)%nat ->
  has_break (firstn first rest) ->
  exists ps, breaks fuel size tab s out (Z.of_nat (length pre)) (Z.of_nat (length pre + first) - 1) (Z.of_nat (length rest))
     = Ok (out ++ join_str (W tab) ps) /\ pieces_ok first (Z.to_nat (size - tab)) rest ps.
Proof.
  intros HT HW. induction fuel as [|fuel IH]; intros rest pre out first Hs HF Hf HB; [lia|]. cbn [breaks].
  assert (HL : length s = (length pre + length rest)%nat) by (subst s; apply app_length).
  destruct (back_spec s (Z.of_nat (length pre)) ltac:(lia) (S (length s + length s)) (Z.of_nat (length pre + first) - 1))
    as (j & c & -> & Hj & Hc & Hb); try lia.
  { apply has_break_nth in HB. destruct HB as (k & c & H1 & H2 & H3).
    exists (Z.of_nat (length pre + k)), c. split; [lia|]. split; auto.
    rewrite Nat2Z.id, Hs, nth_error_app2 by lia. replace (length pre + k - length pre)%nat with k by lia. auto. }
  cbn [bind]. cbv zeta.
  set (k := (Z.to_nat j - length pre)%nat).
  assert (Ej : j = Z.of_nat (length pre + k)) by (unfold k; lia).
  assert (Hck : nth_error rest k = Some c).
  { rewrite <- Hc, Hs, nth_error_app2 by (unfold k; lia). reflexivity. }
  assert (HkL : (k < length rest)%nat) by (apply nth_error_Some; congruence).
  replace (j + 1) with (Z.of_nat (length pre + S k)) by lia.
  replace (py_slice s (Z.of_nat (length pre)) (Z.of_nat (length pre + S k))) with (firstn (S k) rest)
    by (rewrite Hs, py_slice_mid by lia; reflexivity).
  set (p := firstn (S k) rest). set (rest' := skipn (S k) rest).
  assert (Hr : rest = p ++ rest') by (symmetry; apply firstn_skipn).
  assert (Hp : length p = S k) by (unfold p; rewrite firstn_length; lia).
  assert (Hlr : length rest = (S k + length rest')%nat) by (rewrite Hr at 1; rewrite app_length; lia).
  assert (Hpb : ends_brk p) by (eapply ends_brk_firstn; eauto).
  replace (Z.of_nat (length rest) - (j - Z.of_nat (length pre) + 1)) with (Z.of_nat (length rest')) by lia.
  assert (Hpk : (length p <= first)%nat) by lia.
  destruct (Z.eqb_spec (Z.of_nat (length rest')) 0) as [E0|E0].
  - exists [p]. split; [reflexivity|]. split; [|split].
    + simpl. rewrite app_nil_r. rewrite Hr. destruct rest'; [rewrite app_nil_r; auto|simpl in E0; lia].
    + constructor.
    + exists p, []. auto.
  - assert (Hs' : s = (pre ++ p) ++ rest') by (rewrite <- app_assoc, <- Hr; exact Hs).
    assert (Hpp : length (pre ++ p) = (length pre + S k)%nat) by (rewrite app_length; lia).
    destruct (j + (size - tab) <? Z.of_nat (length s)) eqn:EL.
    + destruct (IH rest' (pre ++ p) ((out ++ p) ++ newline :: blanks (Z.to_nat tab)) (Z.to_nat (size - tab))) as (ps & E & C1 & C2 & C3); auto; try lia.
      { apply (HW (pre ++ p) (firstn (Z.to_nat (size - tab)) rest') (skipn (Z.to_nat (size - tab)) rest')).
        - rewrite firstn_skipn. exact Hs'.
        - rewrite firstn_length. lia. }
      rewrite Hpp in E.
      replace (Z.of_nat (length pre + S k + Z.to_nat (size - tab)) - 1) with (j + (size - tab)) in E by lia.
      rewrite E. destruct C3 as (q & l & -> & Q1 & Q2).
      exists (p :: q :: l). split; [|split; [|split]].
      * cbn [join_str]. unfold W. rewrite <- !app_assoc. reflexivity.
      * simpl in *. rewrite C1. auto.
      * change (removelast (p :: q :: l)) with (p :: removelast (q :: l)). constructor; auto.
      * exists p, (q :: l). split; auto.
    + exists [p; rest']. split; [|split; [|split]].
      * replace (Z.of_nat (length pre + S k)) with (Z.of_nat (length (pre ++ p))) by lia.
        replace (Z.of_nat (length s)) with (Z.of_nat (length (pre ++ p) + length rest')) by (rewrite Hpp; lia).
        rewrite Hs', py_slice_mid by lia. rewrite firstn_all. cbn [join_str]. unfold W.
        rewrite <- !app_assoc. reflexivity.
      * simpl. rewrite app_nil_r. auto.
      * simpl. constructor; auto.
      * exists p, [rest']. split; auto. split; auto. constructor; auto. lia.
Qed.

(** * From pieces to lines and tokens *)
Definition no_nl (s : chars) : Prop := Forall (fun c => c <> newline) s.

Lemma unwrap_id s : no_nl s -> unwrap s = s.
Proof.
  induction 1; simpl; auto. destruct (Ascii.eqb_spec x newline); [congruence|]. f_equal. exact IHForall.
Qed.
Lemma unwrap_app a b : unwrap (a ++ b) = unwrap a ++ unwrap b.
Proof. apply map_app. Qed.
Lemma blanks_no_nl k : no_nl (blanks k).
Proof. induction k; constructor; auto. discriminate. Qed.
Lemma unwrap_W tab : unwrap (W tab) = blanks (S (Z.to_nat tab)).
Proof.
  unfold W. change (unwrap (newline :: ?x)) with (" "%char :: unwrap x).
  rewrite unwrap_id by apply blanks_no_nl. reflexivity.
Qed.

Lemma ends_brk_word s : ends_brk s -> ends_word s = false.
Proof.
  intros (a & c & -> & H). apply ends_noword. unfold brk in H.
  destruct (Ascii.eqb_spec c ")"); [subst; reflexivity|].
  destruct (Ascii.eqb_spec c ":"); [subst; reflexivity|].
  destruct (Ascii.eqb_spec c " "); [subst; reflexivity|discriminate].
Qed.

Lemma pieces_tokens tab ps : Forall no_nl ps -> Forall ends_brk (removelast ps) ->
  tokens (unwrap (join_str (W tab) ps)) = tokens (concat ps).
Proof.
  induction ps as [|p [|q l] IH]; intros H1 H2; auto.
  - inversion H1; subst. simpl. rewrite app_nil_r, unwrap_id; auto.
  - change (removelast (p :: q :: l)) with (p :: removelast (q :: l)) in H2.
    inversion H1; subst. inversion H2; subst.
    change (join_str (W tab) (p :: q :: l)) with (p ++ W tab ++ join_str (W tab) (q :: l)).
    change (concat (p :: q :: l)) with (p ++ concat (q :: l)).
    rewrite !unwrap_app, unwrap_W, (unwrap_id p) by auto.
    rewrite (tokens_app p (blanks _ ++ _)) by (rewrite ends_brk_word; auto).
    rewrite (tokens_app p (concat _)) by (rewrite ends_brk_word; auto).
    rewrite tokens_blanks_l, IH; auto.
Qed.

Lemma lines_nonnil s : lines s <> [].
Proof. destruct s as [|c s]; simpl; [discriminate|]. destruct (Ascii.eqb c newline); [discriminate|]. destruct (lines s); discriminate. Qed.
Lemma lines_app a b : no_nl a -> lines (a ++ newline :: b) = a :: lines b.
Proof.
  induction 1 as [|c a Hc Ha IH]; [reflexivity|]. cbn [app lines].
  destruct (Ascii.eqb_spec c newline); [congruence|]. rewrite IH. reflexivity.
Qed.
Lemma lines_one a : no_nl a -> lines a = [a].
Proof.
  induction 1 as [|c a Hc Ha IH]; [reflexivity|]. cbn [lines].
  destruct (Ascii.eqb_spec c newline); [congruence|]. rewrite IH. reflexivity.
Qed.
Lemma lines_pieces tab ps p : Forall no_nl (p :: ps) ->
  forall b, no_nl b -> lines (b ++ join_str (W tab) (p :: ps)) = (b ++ p) :: map (fun q => blanks (Z.to_nat tab) ++ q) ps.
Proof.
  revert p. induction ps as [|q ps IH]; intros p H b Hb.
  - inversion H; subst. simpl. apply lines_one. apply Forall_app; auto.
  - inversion H; subst. change (join_str (W tab) (p :: q :: ps)) with (p ++ newline :: blanks (Z.to_nat tab) ++ join_str (W tab) (q :: ps)).
    rewrite app_assoc, lines_app by (apply Forall_app; auto). cbn [map]. f_equal.
    apply IH; auto. apply blanks_no_nl.
Qed.

Lemma concat_Forall {A} (P : A -> Prop) ps : Forall P (concat ps) -> Forall (Forall P) ps.
Proof. induction ps as [|p ps IH]; simpl; intros H; constructor; apply Forall_app in H; tauto. Qed.

(** Result of wrap_line. *)
Lemma wrap_line_spec size tab offset str fuel :
  0 <= tab < size -> 0 <= offset < size -> blank_only str ->
  breakable (Z.to_nat (size - offset)) (Z.to_nat (size - tab)) (normal str) ->
  (length (normal str) < fuel)%nat ->
  exists out, wrap_line fuel size tab offset str = Ok out /\
    tokens (unwrap out) = tokens str /\
    (exists l ls, lines out = l :: ls /\ Z.of_nat (length l) + offset <= size /\
       Forall (fun l => Z.of_nat (length l) <= size) ls) /\
    filter (fun c => negb (Ascii.eqb c " " || Ascii.eqb c newline)) out =
    filter (fun c => negb (Ascii.eqb c " ")) (normal str).
Proof.
  intros HT HO HB (B1 & B2) HF. unfold wrap_line. set (s := normal str) in *.
  assert (HN : no_nl s).
  { apply normal_P; [discriminate|]. eapply Forall_impl; [|exact HB]. intros c Hc ->. specialize (Hc eq_refl). discriminate. }
  assert (HTk : tokens s = tokens str) by (apply normal_tokens; auto).
  assert (HFi : forall x, no_nl x -> filter (fun c => negb (Ascii.eqb c " " || Ascii.eqb c newline)) x = filter (fun c => negb (Ascii.eqb c " ")) x).
  { induction 1 as [|c x Hc Hx IH]; simpl; auto. destruct (Ascii.eqb_spec c newline); [congruence|].
    rewrite orb_false_r, IH. reflexivity. }
  destruct (Z.leb_spec (Z.of_nat (length s) + offset) size) as [HL|HL].
  - exists s. split; auto. rewrite unwrap_id by auto. split; auto. split; [|auto].
    exists s, []. rewrite lines_one by auto. repeat split; auto.
  - destruct (breaks_spec size tab s HT B2 fuel s [] [] (Z.to_nat (size - offset)))
      as (ps & E & C1 & C2 & p & l & -> & Q1 & Q2); auto; [lia|].
    simpl length in E. replace (Z.of_nat (0 + Z.to_nat (size - offset)) - 1) with (size - 1 - offset) in E by lia.
    change (Z.of_nat 0) with 0 in E. rewrite E. cbn [app].
    exists (join_str (W tab) (p :: l)). split; auto.
    assert (HP : Forall no_nl (p :: l)). { apply concat_Forall. rewrite C1. exact HN. }
    split; [rewrite pieces_tokens, C1; auto|]. split.
    + pose proof (lines_pieces tab l p HP [] ltac:(constructor)) as EL. cbn [app] in EL. rewrite EL.
      eexists _, _. split; [reflexivity|]. split; [lia|]. apply Forall_map. eapply Forall_impl; [|exact Q2].
      intros q Hq. cbv beta in Hq. rewrite app_length. unfold blanks. rewrite repeat_length. lia.
    + rewrite <- C1. clear - HP HFi. revert HP. generalize (p :: l). induction l0 as [|q [|r l0] IH]; intros HP; auto.
      * inversion HP; subst. simpl. rewrite app_nil_r. auto.
      * inversion HP; subst. change (join_str (W tab) (q :: r :: l0)) with (q ++ W tab ++ join_str (W tab) (r :: l0)).
        change (concat (q :: r :: l0)) with (q ++ concat (r :: l0)).
        rewrite !filter_app, HFi by auto. f_equal. rewrite IH by auto.
        replace (filter _ (W tab)) with (@nil ascii); auto. unfold W. simpl.
        induction (Z.to_nat tab); simpl; auto.
Qed.

(** A decidable sufficient condition for [breakable]: no run of [S k0] characters
    without break position. *)
Fixpoint run_ok (k0 k : nat) (s : chars) : bool :=
  match s with
  | [] => true
  | c :: r => if brk c then run_ok k0 k0 r
              else match k with O => false | S k' => run_ok k0 k' r end
  end.
Lemma run_ok_mono k0 s : forall k k', (k <= k')%nat -> run_ok k0 k s = true -> run_ok k0 k' s = true.
Proof.
  induction s as [|c s IH]; intros k k' Hk H; auto. cbn [run_ok] in *. destruct (brk c); auto.
  destruct k as [|k]; [discriminate|]. destruct k' as [|k']; [lia|]. apply (IH k); auto. lia.
Qed.
Lemma run_ok_drop k0 a : forall k s, (k <= k0)%nat -> run_ok k0 k (a ++ s) = true -> run_ok k0 k0 s = true.
Proof.
  induction a as [|c a IH]; intros k s Hk H.
  - apply (run_ok_mono k0 s k); auto.
  - cbn [app run_ok] in H. destruct (brk c); [apply (IH k0); auto|].
    destruct k as [|k]; [discriminate|]. apply (IH k); auto. lia.
Qed.
Lemma run_ok_window k0 b : forall k s, (k < length b)%nat -> run_ok k0 k (b ++ s) = true -> has_break b.
Proof.
  induction b as [|c b IH]; intros k s Hk H; simpl in Hk; [lia|]. cbn [app run_ok] in H.
  destruct (brk c) eqn:E; [exists c; simpl; auto|]. destruct k as [|k]; [discriminate|].
  destruct (IH k s) as (d & D1 & D2); auto; [lia|]. exists d. simpl; auto.
Qed.
Lemma run_ok_breakable k0 first s : run_ok k0 k0 s = true -> existsb brk (firstn first s) = true ->
  breakable first (S k0) s.
Proof.
  intros H1 H2. split.
  - apply existsb_exists in H2. exact H2.
  - intros a b c -> HL. apply (run_ok_window k0 b k0 c); [lia|]. apply (run_ok_drop k0 a k0); auto.
Qed.
