(** Configuration files. *)
From Coq Require Import String QArith.
From Verif Require Import Prelude Config ConfigSpec ConfigProofs ConfigProofs2.
Open Scope Z_scope.

(** ** values known before the call *)
Definition closed (h : list obj) (v : val) : Prop := forall a, v = VRef a -> (a < List.length h)%nat.
Lemma closed_nth h r v a o : closed h v -> v = VRef a -> (nth_error (h ++ r) a = Some o <-> nth_error h a = Some o).
Proof. intros C E. rewrite nth_error_app1 by (apply C; auto). tauto. Qed.
Lemma closed_type h r t v : closed h v -> has_type (h ++ r) t v <-> has_type h t v.
Proof.
  intros C. split; intros H; destruct H; try (constructor; auto; fail); rewrite (closed_nth h r (VRef a)) in H || rewrite <- (closed_nth h r (VRef a)) in H; auto; [apply tNoMat|eapply tMat|eapply tStrs|apply tNoMat|eapply tMat|eapply tStrs]; eauto.
Qed.
Lemma closed_seq h r v l : closed h v -> seq_of (h ++ r) v l <-> seq_of h v l.
Proof. intros C. unfold seq_of. split; (intros [H|(a & E & H)]; [left; auto|right; exists a; split; auto]); eapply closed_nth; eauto. Qed.
Lemma given_closed h kw n v : no_dangling h kw -> closed h v -> closed h (given kw n v).
Proof. intros D C. unfold given. destruct (lookup n kw) as [w|] eqn:L; auto. intros a ->. apply lookup_in in L. eauto. Qed.

(** ** one section *)
Definition defaults_ok (h : list obj) : Prop := nth_error h 0 = Some (OList []) /\ nth_error h 1 = Some (OList []) /\ nth_error h 2 = Some (OList []).
Lemma doc_fun c n t u : In (n, t) (documented c) -> In (n, u) (documented c) -> t = u.
Proof. intros D Du. destruct c; cbn [documented In] in D, Du; repeat destruct D as [[= <- <-]|D]; try contradiction; repeat destruct Du as [[= <-]|Du]; try contradiction; try discriminate; reflexivity. Qed.
Lemma default_type h c n t v : defaults_ok h -> In (n, v) (params c) -> In (n, t) (documented c) -> has_type h t v /\ closed h v.
Proof.
  intros (D0 & D1 & _) P D. assert (L1 : (1 < List.length h)%nat) by (eapply nth_lt; eauto).
  destruct c; cbn [params In] in P; repeat destruct P as [[= <- <-]|P]; try contradiction;
  (match goal with |- has_type _ ?t _ /\ _ => idtac end);
  cbn [documented In] in D; repeat destruct D as [[= <-]|D]; try contradiction; try discriminate;
  (split; [try constructor; auto; try (constructor; fail); try lia|intros a E; try discriminate; injection E as <-; lia]);
  try (cbn; unfold Qlt; cbn; lia); try (cbn; intros K; unfold Qlt in K; cbn in K; lia).
  apply tStrs with (l := []). exact D1.
Qed.
Lemma section_spec h r c kw ev : defaults_ok h -> NoDup (map fst kw) -> no_dangling h kw ->
  (valid_section h c (JDict kw) /\ new_conf c kw (ST (h ++ r) ev) = (ST (h ++ r ++ [OConf c (conf_dict c kw)]) ev, Ok (VRef (List.length (h ++ r))))) \/
  (~ valid_section h c (JDict kw) /\ exists e, new_conf c kw (ST (h ++ r) ev) = (ST (h ++ r) ev, Err e)).
Proof.
  intros DO ND CL. destruct (params_names c) as (_ & NP & P1 & P2).
  assert (EQ : (forall n v t, In (n, v) (args_of (params c) kw) -> In (n, t) (documented c) -> has_type (h ++ r) t v) <->
               forall n t x, In (n, t) (documented c) -> lookup n kw = Some x -> has_type h t x).
  { split.
    - intros H n t x D L. destruct (P2 n t D) as [v I]. apply (closed_type h r); [intros a ->; apply lookup_in in L; eauto|]. apply (H n x t); auto.
      unfold args_of. apply in_map_iff. exists (n, v). split; auto. cbn [fst snd]. unfold given. rewrite L. reflexivity.
    - intros H n v t I D. unfold args_of in I. apply in_map_iff in I. destruct I as [[k w] [E I]]. cbn [fst snd] in E. injection E as <- <-.
      destruct (default_type h c k t w DO I D) as [T C]. apply closed_type; [apply given_closed; auto|]. unfold given. destruct (lookup k kw) eqn:L; eauto. }
  destruct (new_conf_spec c kw (ST (h ++ r) ev)) as [(N & T & E)|[N [e [E _]]]]; cbn [heap events] in *; [left|right].
  - split; [|rewrite E, <- app_assoc; reflexivity]. exists kw. split; auto. split; auto. apply EQ. auto.
  - split; [|eauto]. intros (kw' & [= <-] & A & B). apply N. split; auto. apply EQ. auto.
Qed.

(** ** the loop over the keys *)
Definition section_of (k : string) : option (string * cls) :=
  if String.eqb k "Tolerances" then Some ("tolerances", CTolerances)%string else if String.eqb k "Options" then Some ("options", COptions)%string
  else if String.eqb k "NumericFormat" then Some ("numeric_format", CNumericFormat)%string else if String.eqb k "Settings" then Some ("settings", CSettings)%string else None.
Lemma section_in k n c : section_of k = Some (n, c) <-> In (k, (n, c)) sections.
Proof.
  unfold section_of. split.
  - intros H. repeat match type of H with context [String.eqb k ?s] => destruct (String.eqb k s) eqn:?E; [apply String.eqb_eq in E; subst k; injection H as <- <-; cbn; tauto|clear E] end. discriminate H.
  - cbn [sections In]. intros H. repeat destruct H as [[= <- <- <-]|H]; try contradiction; reflexivity.
Qed.
Lemma section_docs k n c : section_of k = Some (n, c) -> In (n, c) cad_docs.
Proof. intros H. apply section_in in H. cbn [sections In] in H. repeat destruct H as [[= <- <- <-]|H]; try contradiction; cbn; tauto. Qed.
Lemma section_inj k k' n c c' : section_of k = Some (n, c) -> section_of k' = Some (n, c') -> k = k'.
Proof. intros H H'. apply section_in in H, H'. cbn [sections In] in H, H'. repeat destruct H as [[= <- <- <-]|H]; try contradiction; repeat destruct H' as [[= <- <-]|H']; try contradiction; try discriminate; reflexivity. Qed.
Definition plain (k : string) : bool := existsb (String.eqb k) ["load_step_file"; "export_csg"]%string.
Lemma known_cases k : known_key k <-> plain k = true \/ exists n c, section_of k = Some (n, c).
Proof.
  unfold known_key, plain. split.
  - cbn [In]. intros H. repeat destruct H as [<- |H]; try contradiction; auto; right; eexists _, _; reflexivity.
  - intros [H|(n & c & H)].
    + cbn [existsb] in H. rewrite orb_false_r in H. apply orb_true_iff in H. destruct H as [H|H]; apply String.eqb_eq in H; subst; cbn; tauto.
    + apply section_in in H. cbn [sections In] in H. repeat destruct H as [[= <- <- <-]|H]; try contradiction; cbn; tauto.
Qed.
Lemma plain_section k : plain k = true -> section_of k = None.
Proof. unfold plain. cbn [existsb]. rewrite orb_false_r. intros H. apply orb_true_iff in H. destruct H as [H|H]; apply String.eqb_eq in H; subst; reflexivity. Qed.
Lemma body_eq self k v : 
  (if plain k then ret tt
   else if String.eqb k "Tolerances" then let! o := splat v (new_conf CTolerances) in setattr self "tolerances" o
   else if String.eqb k "Options" then let! o := splat v (new_conf COptions) in setattr self "options" o
   else if String.eqb k "NumericFormat" then let! o := splat v (new_conf CNumericFormat) in setattr self "numeric_format" o
   else if String.eqb k "Settings" then let! o := splat v (new_conf CSettings) in setattr self "settings" o
   else raise ValueError) =
  if plain k then ret tt else match section_of k with
  | Some (n, c) => let! o := splat v (new_conf c) in setattr self n o
  | None => raise ValueError
  end.
Proof. unfold section_of. destruct (plain k); auto. repeat (destruct (String.eqb k _); auto). Qed.
Lemma conf_set h d r n c dd ev v : In (n, c) cad_docs -> nth_error (h ++ OCad d :: r) v = Some (OConf c dd) ->
  setattr (List.length h) n (VRef v) (ST (h ++ OCad d :: r) ev) = (ST (h ++ OCad (put (priv n) (VRef v) d) :: r) ev, Ok tt).
Proof.
  intros D H. destruct (setattr_cad (ST (h ++ OCad d :: r) ev) (List.length h) d n c (VRef v) (nth_mid h _ _) D) as [[C E]|[C E]].
  - rewrite E. cbn [heap events]. rewrite upd_mid. reflexivity.
  - destruct C. exists v, dd. auto.
Qed.
(** what the keys of a configuration give *)
Definition sections_ok (h : list obj) (c : config) : Prop :=
  (forall k v, In (k, v) c -> known_key k) /\ (forall k a cl v, In (k, (a, cl)) sections -> In (k, v) c -> valid_section h cl v).
Lemma loop_spec h c : defaults_ok h -> json_dict h c -> forall d r ev,
  (sections_ok h c /\ exists d' r', config_loop (List.length h) c (ST (h ++ OCad d :: r) ev) = (ST (h ++ OCad d' :: r ++ r') ev, Ok tt) /\
     (forall m, ~ (exists n cl, In (n, cl) cad_docs /\ m = priv n) -> lookup m d' = lookup m d) /\
     forall k n cl, In (k, (n, cl)) sections ->
       (forall kw, In (k, JDict kw) c -> exists b, lookup (priv n) d' = Some (VRef b) /\ nth_error (h ++ OCad d' :: r ++ r') b = Some (OConf cl (conf_dict cl kw))) /\
       (~ In k (map fst c) -> lookup (priv n) d' = lookup (priv n) d)) \/
  (~ sections_ok h c /\ exists d' r' e, config_loop (List.length h) c (ST (h ++ OCad d :: r) ev) = (ST (h ++ OCad d' :: r ++ r') ev, Err e)).
Proof.
  intros DO. induction c as [|[k v] c IH]; intros [ND JD] d r ev.
  { left. split; [split; intros; contradiction|]. exists d, []. rewrite app_nil_r. split; [reflexivity|]. split; auto. intros k n cl S. split; [intros kw []|auto]. }
  cbn [map fst] in ND. inversion ND as [|? ? NI ND']; subst.
  assert (J' : json_dict h c) by (split; auto; intros k' d' I; apply (JD k' d'); right; auto).
  remember (config_loop (List.length h) ((k, v) :: c) (ST (h ++ OCad d :: r) ev)) as res0 eqn:Q.
  cbn [config_loop] in Q. fold (plain k) in Q. rewrite body_eq in Q. unfold seq_ at 1 in Q.
  destruct (plain k) eqn:PK.
  { unfold ret at 1 in Q. pose proof (plain_section k PK) as SN. destruct (IH J' d r ev) as [[[S1 S2] (d' & r' & E & O & K)]|[S (d' & r' & e & E)]]; rewrite E in Q; [left|right].
    - split.
      + split; [intros k' v' [[= <- <-]|I]; [apply known_cases; auto|eauto]|]. intros k' a cl v' IS [[= <- <-]|I]; [apply section_in in IS; congruence|eauto].
      + exists d', r'. split; auto. split; auto. intros k' n cl IS. destruct (K k' n cl IS) as [K1 K2]. split; [intros kw [EQ|I]; [injection EQ; intros; subst; apply section_in in IS; congruence|auto]|]. intros NI'. apply K2. intros X. apply NI'. right. exact X.
    - split; [|eauto]. intros [A B]. apply S. split; [intros k' v' I; apply (A k' v'); right; auto|intros k' a cl v' IS I; apply (B k' a cl v' IS); right; auto]. }
  destruct (section_of k) as [[n cl]|] eqn:SK.
  2:{ right. split; [|exists d, [], ValueError; rewrite app_nil_r; exact Q]. intros [A _]. specialize (A k v (or_introl eq_refl)). apply known_cases in A. destruct A as [A|(n & cl & A)]; congruence. }
  pose proof (section_docs k n cl SK) as DC. pose proof (proj1 (section_in k n cl) SK) as IS.
  unfold seq_ at 1 in Q. destruct v as [kw|v].
  2:{ right. split; [|exists d, [], TypeError; rewrite app_nil_r; exact Q]. intros [_ B]. destruct (B k n cl (JVal v) IS (or_introl eq_refl)) as (kw & E & _). discriminate. }
  cbn [splat] in Q. destruct (JD k kw (or_introl eq_refl)) as [NK CK].
  destruct (section_spec h (OCad d :: r) cl kw ev DO NK CK) as [[V E]|[V [e E]]]; rewrite E in Q; clear E.
  2:{ right. split; [|exists d, [], e; rewrite app_nil_r; exact Q]. intros [_ B]. apply V. apply (B k n cl (JDict kw) IS (or_introl eq_refl)). }
  cbn [app] in Q. set (b := List.length (h ++ OCad d :: r)) in *.
  assert (NB : nth_error (h ++ OCad d :: r ++ [OConf cl (conf_dict cl kw)]) b = Some (OConf cl (conf_dict cl kw))).
  { change (h ++ OCad d :: r ++ [OConf cl (conf_dict cl kw)]) with (h ++ (OCad d :: r) ++ [OConf cl (conf_dict cl kw)]). rewrite app_assoc. apply nth_mid. }
  rewrite (conf_set h d _ n cl (conf_dict cl kw) ev b DC NB) in Q.
  set (d1 := put (priv n) (VRef b) d) in *.
  assert (NB1 : forall d2 r2, nth_error (h ++ OCad d2 :: (r ++ [OConf cl (conf_dict cl kw)]) ++ r2) b = Some (OConf cl (conf_dict cl kw))).
  { intros d2 r2. replace (h ++ OCad d2 :: (r ++ [OConf cl (conf_dict cl kw)]) ++ r2) with ((h ++ OCad d2 :: r) ++ OConf cl (conf_dict cl kw) :: r2) by (rewrite <- !app_assoc; cbn [app]; rewrite <- ?app_assoc; reflexivity).
    replace b with (List.length (h ++ OCad d2 :: r)) by (unfold b; rewrite !app_length; reflexivity). apply nth_mid. }
  destruct (IH J' d1 (r ++ [OConf cl (conf_dict cl kw)]) ev) as [[[S1 S2] (d' & r' & E & O & K)]|[S (d' & r' & e & E)]]; rewrite E in Q; [left|right].
  - split.
    + split; [intros k' v' [[= <- <-]|I]; [apply known_cases; eauto|eauto]|]. intros k' a cl' v' IS' [[= <- <-]|I]; [|eauto].
      apply section_in in IS'. rewrite SK in IS'. injection IS' as <- <-. auto.
    + exists d', ([OConf cl (conf_dict cl kw)] ++ r'). rewrite Q. rewrite <- app_assoc. split; auto.
      split. { intros m M. rewrite O by auto. unfold d1. apply lookup_put_other. intros ->. apply M. eauto. }
      intros k' n' cl' IS'. destruct (K k' n' cl' IS') as [K1 K2]. split.
      * intros kw' [[= <- <-]|I].
        -- apply section_in in IS'. rewrite SK in IS'. injection IS' as <- <-. exists b. split; [|rewrite app_assoc; apply NB1].
           rewrite K2 by auto. unfold d1. apply lookup_put_same.
        -- destruct (K1 kw' I) as [b' [L N']]. exists b'. split; auto. rewrite <- app_assoc in N'. exact N'.
      * intros NI'. cbn [map fst In] in NI'. rewrite K2 by tauto. unfold d1. apply lookup_put_other. intros EQ. apply priv_inj in EQ. subst n'.
        apply section_in in IS'. pose proof (section_inj _ _ _ _ _ SK IS'). subst k'. tauto.
  - split.
    + intros [A B]. apply S. split; [intros k' v' I; apply (A k' v'); right; auto|intros k' a cl' v' IS' I; apply (B k' a cl' v' IS'); right; auto].
    + exists d', ([OConf cl (conf_dict cl kw)] ++ r'), e. rewrite Q, <- app_assoc. reflexivity.
Qed.

(** ** load_step_file and export_csg *)
Lemma seq_cases h v : 
  (exists l, seq_of h v l /\ isinstance h v TyList || isinstance h v TyTuple = true /\ isinstance h v TyStr = false /\
     forall ev, elements v (ST h ev) = (ST h ev, Ok l)) \/
  ((forall l, ~ seq_of h v l) /\ isinstance h v TyList || isinstance h v TyTuple = false).
Proof.
  destruct v as [|bb|nn|xx|ss|l|a|]; try (right; split; [intros l0 [E|(b0 & E & _)]; discriminate|reflexivity]).
  - left. exists l. repeat split. left. reflexivity.
  - cbn [isinstance]. destruct (nth_error h a) as [[l|c d|d]|] eqn:E.
    + left. exists l. split; [right; eauto|]. repeat split. intros ev. cbn. rewrite E. reflexivity.
    + right. split; auto. intros l [K|(b & K & N)]; [discriminate|]. injection K as <-. congruence.
    + right. split; auto. intros l [K|(b & K & N)]; [discriminate|]. injection K as <-. congruence.
    + right. split; auto. intros l [K|(b & K & N)]; [discriminate|]. injection K as <-. congruence.
Qed.
Lemma seq_fun h v l l' : seq_of h v l -> seq_of h v l' -> l = l'.
Proof. intros [-> |(a & -> & H)] [E|(b & E & H')]; congruence. Qed.
Lemma ints_forall h l : forallb (fun v => isinstance h v TyInt) l = true <-> Forall int_like l.
Proof. rewrite forallb_forall, Forall_forall. split; intros H x I; specialize (H x I); [eapply is_int; eauto|apply is_int; auto]. Qed.
Lemma found_spec is_file fs st : all_found is_file (map VStr fs) st = (st, if forallb is_file fs then Ok tt else Err FileNotFound).
Proof. induction fs as [|f fs IH]; cbn [map all_found forallb]; auto. destruct (is_file f); cbn [andb]; auto. Qed.
Definition load_conds (is_file : string -> bool) (h : list obj) (f sk p : val) (fs : list string) : Prop :=
  file_names h f fs /\ Forall (fun f => is_file f = true) fs /\ (exists l, seq_of h sk l /\ Forall int_like l) /\
  exists s, p = VStr s /\ In (lower s) ["stop"; "remove"; "ignore"]%string.
Lemma existsb_in s l : existsb (String.eqb s) l = true <-> In s l.
Proof. rewrite existsb_exists. split; [intros (x & I & E); apply String.eqb_eq in E; subst; auto|intros I; exists s; rewrite String.eqb_refl; auto]. Qed.
Lemma load_spec is_file h d r ev f sk p : closed h f -> closed h sk ->
  (exists fs, load_conds is_file h f sk p fs /\ exists d', (forall n, lookup (priv n) d' = lookup (priv n) d) /\
     load_step_file is_file (List.length h) f sk p (ST (h ++ OCad d :: r) ev) = (ST (h ++ OCad d' :: r) (ev ++ [ELoad (List.length h) (map VStr fs)]), Ok tt)) \/
  ((forall fs, ~ load_conds is_file h f sk p fs) /\ exists d' e,
     load_step_file is_file (List.length h) f sk p (ST (h ++ OCad d :: r) ev) = (ST (h ++ OCad d' :: r) ev, Err e)).
Proof.
  intros CF CS. remember (load_step_file is_file (List.length h) f sk p (ST (h ++ OCad d :: r) ev)) as res0 eqn:Q.
  unfold load_step_file in Q. unfold seq_ at 1 2 in Q. unfold is_a at 1 2 in Q. cbn [heap] in Q.
  destruct (seq_cases (h ++ OCad d :: r) sk) as [(l & SK & I & _ & E)|[NS I]]; rewrite I in Q; cbn [negb] in Q.
  2:{ right. split; [|exists d, TypeError; exact Q]. intros fs (_ & _ & (l & S & _) & _). apply (NS l). apply closed_seq; auto. }
  unfold seq_ at 1 in Q. rewrite E in Q. clear E I. apply closed_seq in SK; auto.
  unfold seq_ at 1 in Q. rewrite all_are_spec in Q. cbn [heap] in Q. pose proof (ints_forall (h ++ OCad d :: r) l) as IF. destruct (forallb _ l).
  2:{ right. split; [|exists d, TypeError; exact Q]. intros fs (_ & _ & (l' & S & F) & _). rewrite (seq_fun _ _ _ _ SK S) in IF. apply IF in F. discriminate. }
  assert (FI : Forall int_like l) by (apply IF; auto). clear IF.
  unfold seq_ at 1 2 3 in Q. unfold is_a at 1 2 3 in Q. cbn [heap] in Q.
  destruct (match f with VStr _ => true | _ => false end) eqn:FS.
  - destruct f; try discriminate. cbn [isinstance orb negb] in Q. unfold seq_ at 1 in Q. unfold ret at 1 in Q. unfold seq_ at 1 in Q. unfold ret at 1 in Q.
    assert (FN : forall fs, file_names h (VStr s) fs -> fs = [s]). { intros fs [(f & [= <-] & ->)|[K|(a & K & _)]]; auto; discriminate. }
    destruct p; try (right; split; [intros fs (_ & _ & _ & (s' & K & _)); discriminate K|exists d, TypeError; exact Q]).
    destruct (existsb (String.eqb (lower s0)) _) eqn:EX.
    2:{ right. split; [|exists d, TypeError; exact Q]. intros fs (_ & _ & _ & (s' & [= <-] & K)). apply existsb_in in K. congruence. }
    apply existsb_in in EX. unfold seq_ at 1 in Q. rewrite cad_set_other in Q by reflexivity. unfold seq_ at 1 in Q. rewrite cad_set_other in Q by reflexivity.
    unfold seq_ at 1 in Q. pose proof (found_spec is_file [s]) as FO. cbn [map] in FO. rewrite FO in Q. cbn [forallb] in Q. rewrite andb_true_r in Q.
    destruct (is_file s) eqn:IFS.
    + left. exists [s]. split; [split; [left; eauto|]; split; [constructor; auto|]; split; eauto|].
      eexists. split; [|exact Q]. intros n. rewrite !lookup_put_other; auto; unfold priv; cbn; discriminate.
    + right. split; [|eexists _, _; exact Q]. intros fs (F1 & F2 & _). apply FN in F1. subst fs. inversion F2; subst. congruence.
  - assert (NS : isinstance (h ++ OCad d :: r) f TyStr = false) by (destruct f; auto; discriminate). rewrite NS in Q. cbn [orb] in Q.
    destruct (seq_cases (h ++ OCad d :: r) f) as [(lf & SF & I & _ & E)|[NF I]]; rewrite I in Q; cbn [negb] in Q.
    2:{ right. split; [|exists d, TypeError; exact Q]. intros fs ([(g & -> & _)|S] & _); [discriminate|]. apply (NF (map VStr fs)). apply closed_seq; auto. }
    unfold seq_ at 1 in Q. rewrite E in Q. clear E I. apply closed_seq in SF; auto.
    unfold seq_ at 1 in Q. rewrite all_are_spec in Q. cbn [heap] in Q. pose proof (strs_map (h ++ OCad d :: r) lf) as SM. destruct (forallb _ lf).
    2:{ right. split; [|exists d, TypeError; exact Q]. intros fs ([(g & -> & _)|S] & _); [discriminate|]. rewrite (seq_fun _ _ _ _ SF S) in SM. assert (false = true); [|discriminate]. apply SM. eauto. }
    destruct (proj1 SM eq_refl) as [fs ->]. clear SM.
    assert (FN : forall fs', file_names h f fs' -> fs' = fs).
    { intros fs' [(g & -> & _)|S]; [discriminate|]. pose proof (seq_fun _ _ _ _ SF S) as EQ. clear -EQ. revert fs' EQ. induction fs as [|x fs IH]; intros [|y fs'] EQ; cbn in EQ; try discriminate; auto. injection EQ as -> EQ. f_equal. auto. }
    destruct p; try (right; split; [intros fs' (_ & _ & _ & (s' & K & _)); discriminate K|exists d, TypeError; exact Q]).
    destruct (existsb (String.eqb (lower s)) _) eqn:EX.
    2:{ right. split; [|exists d, TypeError; exact Q]. intros fs' (_ & _ & _ & (s' & [= <-] & K)). apply existsb_in in K. congruence. }
    apply existsb_in in EX. unfold seq_ at 1 in Q. rewrite cad_set_other in Q by reflexivity. unfold seq_ at 1 in Q. rewrite cad_set_other in Q by reflexivity.
    unfold seq_ at 1 in Q. rewrite found_spec in Q.
    destruct (forallb is_file fs) eqn:IFS.
    + left. exists fs. rewrite forallb_forall, <- Forall_forall in IFS. split; [split; [right; auto|]; split; auto; split; eauto|].
      eexists. split; [|exact Q]. intros n. rewrite !lookup_put_other; auto; unfold priv; cbn; discriminate.
    + right. split; [|eexists _, _; exact Q]. intros fs' (F1 & F2 & _). apply FN in F1. subst fs'. rewrite Forall_forall, <- forallb_forall in F2. congruence.
Qed.
Lemma load_kw_spec is_file h d r ev kw : defaults_ok h -> NoDup (map fst kw) -> no_dangling h kw ->
  (valid_load is_file h (JDict kw) /\ exists fs f, lookup "filename" kw = Some f /\ file_names h f fs /\ exists d', (forall n, lookup (priv n) d' = lookup (priv n) d) /\
     load_kw is_file (List.length h) kw (ST (h ++ OCad d :: r) ev) = (ST (h ++ OCad d' :: r) (ev ++ [ELoad (List.length h) (map VStr fs)]), Ok tt)) \/
  (~ valid_load is_file h (JDict kw) /\ exists d' e, load_kw is_file (List.length h) kw (ST (h ++ OCad d :: r) ev) = (ST (h ++ OCad d' :: r) ev, Err e)).
Proof.
  intros DO ND CL. unfold load_kw. destruct (lookup "filename" kw) as [f|] eqn:LF.
  2:{ right. split; [|exists d, TypeError; reflexivity]. intros (kw' & g & fs & [= <-] & _ & K & _). congruence. }
  unfold seq_. unfold lift. destruct (bind_args_spec load_params kw) as [[B ->]|[(n & v & I & B) ->]].
  2:{ right. split; [|exists d, TypeError; reflexivity]. intros (kw' & g & fs & [= <-] & K & _). apply B. exact (K n v I). }
  cbn [args_of load_params map fst snd]. assert (GF : given kw "filename" VOther = f) by (unfold given; rewrite LF; auto). rewrite GF.
  assert (CF : closed h f) by (intros a ->; apply lookup_in in LF; eauto).
  assert (CS : closed h (given kw "skip_solids" (VRef 2))). { apply given_closed; auto. intros a [= <-]. destruct DO as (_ & _ & D2). eapply nth_lt; eauto. }
  assert (EQ : forall fs, load_conds is_file h f (given kw "skip_solids" (VRef 2)) (given kw "spline_surfaces" (VStr "stop")) fs <->
     (file_names h f fs /\ Forall (fun f => is_file f = true) fs /\
    (forall s, lookup "skip_solids" kw = Some s -> exists l, seq_of h s l /\ Forall int_like l) /\
    (forall p, lookup "spline_surfaces" kw = Some p -> exists s, p = VStr s /\ In (lower s) ["stop"; "remove"; "ignore"]%string))).
  { intros fs. unfold load_conds, given. split.
    - intros (A & A2 & A3 & A4). split; auto. split; auto. split; intros x L; rewrite L in *; auto.
    - intros (A & A2 & A3 & A4). split; auto. split; auto. split.
      + destruct (lookup "skip_solids" kw) as [s|]; [apply A3; auto|]. exists []. split; [right; exists 2%nat; split; auto; apply DO|constructor].
      + destruct (lookup "spline_surfaces" kw) as [s|]; [apply A4; auto|]. eexists. split; [reflexivity|]. cbn. auto. }
  destruct (load_spec is_file h d r ev f _ (given kw "spline_surfaces" (VStr "stop")) CF CS) as [(fs & L & d' & P & E)|[L (d' & e & E)]]; rewrite E; [left|right].
  - apply EQ in L. destruct L as (A & A2 & A3 & A4). split; [exists kw, f, fs; repeat (split; [auto|]); auto|]. exists fs, f. split; auto. split; auto. exists d'. auto.
  - split; [|eauto]. intros (kw' & g & fs & [= <-] & K & LG & A). rewrite LF in LG. injection LG as <-. apply (L fs). apply EQ. tauto.
Qed.
Lemma args_are_spec ns args t st : (forall n, In n ns -> exists v, lookup n args = Some v) ->
  args_are ns args t st = (st, if forallb (fun n => match lookup n args with Some v => isinstance (heap st) v t | None => false end) ns then Ok tt else Err TypeError).
Proof.
  induction ns as [|n ns IH]; intros L; cbn [args_are forallb]; auto. destruct (L n (or_introl eq_refl)) as [v E]. rewrite E. unfold seq_. rewrite is_a_eq.
  destruct (isinstance (heap st) v t); cbn [negb andb]; auto. apply IH. intros m I. apply L. right. auto.
Qed.
Lemma lookup_args ps kw n v : lookup n ps = Some v -> lookup n (args_of ps kw) = Some (given kw n v).
Proof.
  induction ps as [|[k w] ps IH]; cbn [lookup args_of map fst snd]; [discriminate|]. destruct (String.eqb k n) eqn:E; auto. intros [= ->]. apply String.eqb_eq in E. subst. auto.
Qed.
Lemma export_spec h d r ev kw : NoDup (map fst kw) -> no_dangling h kw ->
  (valid_export h (JDict kw) /\ export_csg (List.length h) kw (ST (h ++ OCad d :: r) ev) = (ST (h ++ OCad d :: r) (ev ++ [EExport (List.length h) (args_of export_params kw)]), Ok tt)) \/
  (~ valid_export h (JDict kw) /\ exists e, export_csg (List.length h) kw (ST (h ++ OCad d :: r) ev) = (ST (h ++ OCad d :: r) ev, Err e)).
Proof.
  intros ND CL. remember (export_csg (List.length h) kw (ST (h ++ OCad d :: r) ev)) as res0 eqn:Q. unfold export_csg in Q. unfold seq_ at 1 in Q. unfold lift in Q.
  destruct (bind_args_spec export_params kw) as [[B E]|[(n & v & I & B) E]]; rewrite E in Q; clear E.
  2:{ right. split; [|exists TypeError; exact Q]. intros (kw' & [= <-] & K & _). apply B. exact (K n v I). }
  set (H := h ++ OCad d :: r) in *.
  rewrite (lookup_args export_params kw "UCARD" VNone eq_refl) in Q. set (u := given kw "UCARD" VNone) in *.
  unfold seq_ at 1 2 in Q. unfold is_a at 1 2 in Q. cbn [heap] in Q.
  assert (UC : (forall x, lookup "UCARD" kw = Some x -> x = VNone \/ int_like x /\ forall n, x = VInt n -> 0 <= n) <-> (u = VNone \/ int_like u /\ forall n, u = VInt n -> 0 <= n)).
  { unfold u, given. destruct (lookup "UCARD" kw) as [w|]; split; intros K; auto; try (intros x [= <-]; auto). }
  destruct (negb (isinstance H u TyInt) && negb (isinstance H u TyNone)) eqn:E1.
  { right. split; [|exists TypeError; exact Q]. intros (kw' & [= <-] & _ & _ & _ & K). apply UC in K. apply andb_true_iff in E1. destruct E1 as [A1 A2]. apply negb_true_iff in A1, A2.
    destruct K as [-> |[K _]]; [discriminate|]. apply (is_int H) in K. congruence. }
  destruct (isinstance H u TyInt && lt0 u) eqn:E2.
  { right. split; [|exists ValueError; exact Q]. intros (kw' & [= <-] & _ & _ & _ & K). apply UC in K. apply andb_true_iff in E2. destruct E2 as [A1 A2].
    destruct u as [|b|n|x|s|l|a|]; cbn in A1, A2; try discriminate. destruct K as [K|[_ K]]; [discriminate|]. specialize (K n eq_refl). lia. }
  assert (UK : u = VNone \/ int_like u /\ forall n, u = VInt n -> 0 <= n).
  { apply andb_false_iff in E1. destruct E1 as [A|A]; apply negb_false_iff in A.
    - right. split; [eapply is_int; eauto|]. intros n ->. cbn in E2. lia.
    - left. destruct u; try discriminate; auto. }
  assert (EQ : forall ns t ty, (forall v, isinstance H v ty = true <-> has_type h t v) -> (forall n, In n ns -> exists v, lookup n export_params = Some v /\ has_type h t v) ->
    forallb (fun n => match lookup n (args_of export_params kw) with Some v => isinstance H v ty | None => false end) ns = true <->
    forall n x, In n ns -> lookup n kw = Some x -> has_type h t x).
  { intros ns t ty TT DD. rewrite forallb_forall. split.
    - intros K n x I L. specialize (K n I). destruct (DD n I) as (w & LW & _). rewrite (lookup_args _ kw _ _ LW) in K. unfold given in K. rewrite L in K. apply TT. auto.
    - intros K n I. destruct (DD n I) as (w & LW & TW). rewrite (lookup_args _ kw _ _ LW). apply TT. unfold given. destruct (lookup n kw) eqn:L; eauto. }
  assert (TB : forall v, isinstance H v TyBool = true <-> has_type h DBool v). { intros v. split; [destruct v; cbn; try discriminate; constructor|intros K; inversion K; reflexivity]. }
  assert (TS : forall v, isinstance H v TyStr = true <-> has_type h DStr v). { intros v. split; [destruct v; cbn; try discriminate; constructor|intros K; inversion K; reflexivity]. }
  unfold seq_ at 1 in Q. rewrite args_are_spec in Q.
  2:{ intros n I. repeat destruct I as [<- |I]; try contradiction; eexists; apply lookup_args; reflexivity. }
  cbn [heap] in Q. pose proof (EQ ["volSDEF"; "volCARD"; "dummyMat"; "cellCommentFile"; "cellSummaryFile"]%string DBool TyBool TB) as EB.
  match type of EB with ?A -> _ => assert (DB : A) end. { intros n I. repeat destruct I as [<- |I]; try contradiction; eexists; (split; [reflexivity|constructor]). } specialize (EB DB). clear DB.
  destruct (forallb _ ["volSDEF"; "volCARD"; "dummyMat"; "cellCommentFile"; "cellSummaryFile"]%string).
  2:{ right. split; [|exists TypeError; exact Q]. intros (kw' & [= <-] & _ & _ & K & _). apply EB in K. discriminate. }
  unfold seq_ at 1 in Q. rewrite args_are_spec in Q.
  2:{ intros n I. repeat destruct I as [<- |I]; try contradiction; eexists; apply lookup_args; reflexivity. }
  cbn [heap] in Q. pose proof (EQ ["title"; "geometryName"]%string DStr TyStr TS) as ES.
  match type of ES with ?A -> _ => assert (DB : A) end. { intros n I. repeat destruct I as [<- |I]; try contradiction; eexists; (split; [reflexivity|constructor]). } specialize (ES DB). clear DB.
  destruct (forallb _ ["title"; "geometryName"]%string).
  2:{ right. split; [|exists TypeError; exact Q]. intros (kw' & [= <-] & _ & K & _). apply ES in K. discriminate. }
  left. split; [|exact Q]. exists kw. split; auto. split; [exact B|]. split; [apply ES; auto|]. split; [apply EB; auto|]. apply UC. auto.
Qed.
