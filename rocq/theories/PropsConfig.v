(** C42: validation of the configuration; configuration files.
    Specification in ConfigSpec; model in Config. *)
From Coq Require Import String QArith.
From Verif Require Import Prelude Config ConfigSpec ConfigProofs ConfigProofs2 ConfigProofs3 ConfigProofs4.
Open Scope Z_scope.

(** *** Assignments *)
(** A documented attribute of a configuration object accepts exactly the values of its
    type; then it has that value, and nothing else has changed.  A rejected assignment
    changes nothing. *)

Lemma get_doc st a c d n t : nth_error (heap st) a = Some (OConf c d) -> In (n, t) (documented c) ->
  getattr a n st = match lookup (priv n) d with Some v => (st, Ok v) | None => (st, Err AttributeError) end.
Proof. intros N D. unfold getattr. rewrite N. destruct (documented_setter c n t D) as [-> _]. reflexivity. Qed.

Theorem C42_assignment st a c d n t v :
  nth_error (heap st) a = Some (OConf c d) -> In (n, t) (documented c) ->
  let r := setattr a n v st in
  (snd r = Ok tt <-> has_type (heap st) t v) /\
  (snd r = Ok tt ->
     reads (fst r) a n v /\
     (forall m u, m <> n -> In (m, u) (documented c) -> forall w, reads st a m w <-> reads (fst r) a m w) /\
     (forall b, b <> a -> nth_error (heap (fst r)) b = nth_error (heap st) b) /\
     events (fst r) = events st) /\
  (snd r <> Ok tt -> fst r = st /\ (snd r = Err TypeError \/ snd r = Err ValueError /\ t = DNonNeg)).
Proof.
  intros N D. destruct (setattr_doc st a c d n t v N D) as [[T E]|[T [e [E K]]]]; cbv zeta; rewrite E; cbn [fst snd].
  - assert (L : (a < List.length (heap st))%nat) by (eapply nth_lt; eauto).
    assert (N' : nth_error (upd a (OConf c (put (priv n) v d)) (heap st)) a = Some (OConf c (put (priv n) v d))) by (apply upd_same; auto).
    split; [tauto|]. split; [|intros H; destruct H; auto]. intros _. split.
    + unfold reads. rewrite (get_doc (ST (upd a (OConf c (put (priv n) v d)) (heap st)) (events st)) a c _ n t N' D), lookup_put_same. reflexivity.
    + split; [|split; [intros b NE; apply upd_other; auto|reflexivity]]. intros m u NE Du w. unfold reads.
      rewrite (get_doc (ST (upd a (OConf c (put (priv n) v d)) (heap st)) (events st)) a c _ m u N' Du), (get_doc st a c d m u N Du), lookup_put_other by (intros E1; apply priv_inj in E1; auto).
      destruct (lookup (priv m) d); split; intros [= ->]; reflexivity.
  - split; [split; [discriminate|tauto]|]. split; [discriminate|]. intros _. split; auto. destruct K as [-> |[-> ->]]; auto.
Qed.
Example C42_assignment_ex : let st := init_state in
  (exists d, nth_error (heap st) 3 = Some (OConf COptions d)) /\ In ("splitTolerance", DNonNeg)%string (documented COptions) /\
  snd (setattr 3 "splitTolerance" (VFloat (FFin (1#4))) st) = Ok tt /\
  snd (setattr 3 "splitTolerance" (VFloat (FFin (-1#4))) st) = Err ValueError /\
  snd (setattr 3 "splitTolerance" (VStr "0.25") st) = Err TypeError /\
  snd (setattr 6 "voidMat" (VTuple [VInt 100; VFloat (FFin (1#1000)); VStr "Air"]) st) = Err TypeError.
Proof. split; [eexists; vm_compute; reflexivity|]. split; [cbn; tauto|]. vm_compute. auto. Qed.

(** The four configuration objects of a CadToCsg object. *)
Theorem C42_parts st a d n c v :
  nth_error (heap st) a = Some (OCad d) ->
  In (n, c) [("options", COptions); ("tolerances", CTolerances); ("numeric_format", CNumericFormat); ("settings", CSettings)]%string ->
  let r := setattr a n v st in
  (snd r = Ok tt <-> exists b e, v = VRef b /\ nth_error (heap st) b = Some (OConf c e)) /\
  (snd r = Ok tt -> reads (fst r) a n v) /\
  (snd r <> Ok tt -> r = (st, Err TypeError)).
Proof.
  intros N D. destruct (setattr_cad st a d n c v N D) as [[T E]|[T E]]; cbv zeta; rewrite E; cbn [fst snd].
  - assert (L : (a < List.length (heap st))%nat) by (eapply nth_lt; eauto).
    split; [split; auto|]. split; [|intros K; destruct K; auto]. intros _. unfold reads, getattr. cbn [heap]. rewrite upd_same by auto. rewrite (cad_documented n c D), lookup_put_same. reflexivity.
  - split; [split; [discriminate|intros K; destruct T; exact K]|]. split; [discriminate|auto].
Qed.

(** The constructor accepts exactly documented names with values of their types; each
    attribute then has the value given, or the default; otherwise nothing changes. *)
Theorem C42_constructor is_file l c kw :
  Forall (fair true) l ->
  let st := history is_file l init_state in
  NoDup (map fst kw) -> no_dangling (heap st) kw ->
  let r := new_conf c kw st in
  ((exists a, snd r = Ok (VRef a)) <-> valid_section (heap st) c (JDict kw)) /\
  (forall a, snd r = Ok (VRef a) ->
     nth_error (heap st) a = None /\
     (forall b o, nth_error (heap st) b = Some o -> nth_error (heap (fst r)) b = Some o) /\
     forall n v0, In (n, v0) (params c) -> reads (fst r) a n (match lookup n kw with Some v => v | None => v0 end)) /\
  ((forall a, snd r <> Ok (VRef a)) -> fst r = st /\ (snd r = Err TypeError \/ snd r = Err ValueError)).
Proof.
  intros F st ND CL r. destruct (wf_history is_file true l F init_state (init_wf true)) as [W K]. fold st in W, K.
  destruct (keeps_defaults _ K) as [DO _]. destruct (params_names c) as (_ & NP & P1 & P2).
  destruct (new_conf_spec c kw st) as [(N & T & E)|[N [e [E EK]]]].
  - destruct (section_spec (heap st) [] c kw (events st) DO ND CL) as [[V E']|[V [e E']]].
    2:{ exfalso. rewrite app_nil_r in E'. destruct st as [h ev]. cbn [heap events] in *. rewrite E in E'. discriminate. }
    unfold r. rewrite E. cbn [fst snd]. split; [split; eauto|]. split; [|intros H; exfalso; eapply H; eauto].
    intros a [= <-]. split; [apply nth_error_None; auto|]. split; [intros b o Nb; cbn [heap]; rewrite nth_error_app1 by (eapply nth_lt; eauto); auto|].
    intros n v0 I. destruct (P1 n v0 I) as [t D]. unfold reads. erewrite get_doc; [|cbn [heap]; apply nth_mid|exact D].
    destruct (lookup_conf c kw n t D) as (v & L & I2). rewrite L. unfold args_of in I2. apply in_map_iff in I2. destruct I2 as [[m w] [[= <- <-] I2]]. cbn [fst snd].
    assert (w = v0). { apply lookup_nodup in I; auto. apply lookup_nodup in I2; auto. cbn [fst] in I2. congruence. } subst w. reflexivity.
  - destruct (section_spec (heap st) [] c kw (events st) DO ND CL) as [[V E']|[V [e' E']]].
    { exfalso. rewrite !app_nil_r in E'. destruct st as [h ev]. cbn [heap events] in *. rewrite E in E'. discriminate. }
    unfold r. rewrite E. cbn [fst snd]. split; [split; [intros [a K2]; discriminate K2|tauto]|]. split; [discriminate|]. intros _. split; auto. destruct EK as [-> | ->]; auto.
Qed.
Example C42_constructor_ex : let st := history (fun _ => true) [OpList [VStr "a"; VStr "b"]] init_state in
  valid_section (heap st) CSettings (JDict [("voidExclude", VRef 7); ("maxSurf", VInt 60)]%string) /\
  exists a, snd (new_conf CSettings [("voidExclude", VRef 7); ("maxSurf", VInt 60)]%string st) = Ok (VRef a).
Proof.
  split; [|exists 8%nat; vm_compute; reflexivity]. eexists. split; [reflexivity|]. split.
  - intros n x [[= <- <-]|[[= <- <-]|[]]]; eexists; cbn [documented In]; tauto.
  - intros n t x D L. cbn [lookup] in L. destruct (String.eqb "voidExclude" n) eqn:E1.
    + apply String.eqb_eq in E1. subst n. injection L as <-. cbn [documented In] in D. repeat destruct D as [[= <-]|D]; try contradiction; try discriminate. apply tStrs with (l := ["a"; "b"]%string). vm_compute. reflexivity.
    + destruct (String.eqb "maxSurf" n) eqn:E2; [|discriminate]. apply String.eqb_eq in E2. subst n. injection L as <-. cbn [documented In] in D. repeat destruct D as [[= <-]|D]; try contradiction; try discriminate. constructor. constructor.
Qed.

(** *** Every history *)
(** After any sequence of constructions, assignments (of attributes without a leading
    underscore), loads, exports and configuration files, with exceptions caught: every
    attribute of every configuration object has a value of its type, and every CadToCsg
    object has configuration objects of the right classes, provided lists are not changed
    in place; without that, lists are still lists. *)
Theorem C42_history is_file (strict : bool) l :
  Forall (fun o => match o with OpSet _ n _ => public n | OpAppend _ _ => strict = false | _ => True end) l ->
  let st := history is_file l init_state in
  (forall a c d n t, nth_error (heap st) a = Some (OConf c d) -> In (n, t) (documented c) ->
     exists v, reads st a n v /\ (if strict then has_type (heap st) t v else has_shape (heap st) t v)) /\
  (forall a d n c, nth_error (heap st) a = Some (OCad d) ->
     In (n, c) [("options", COptions); ("tolerances", CTolerances); ("numeric_format", CNumericFormat); ("settings", CSettings)]%string ->
     exists b e, reads st a n (VRef b) /\ nth_error (heap st) b = Some (OConf c e)).
Proof.
  intros F st. destruct (wf_history is_file strict l F init_state (init_wf strict)) as [W _]. fold st in W. split.
  - intros a c d n t N D. destruct (W a _ N n t D) as (v & L & G). exists v. split; [|exact G]. unfold reads. rewrite (get_doc st a c d n t N D), L. reflexivity.
  - intros a d n c N D. destruct (W a _ N n c D) as (v & L & b & e & -> & G). exists b, e. split; auto. unfold reads, getattr. rewrite N, (cad_documented n c D), L. reflexivity.
Qed.
Definition tour : list op :=
  [OpList [VInt 1; VFloat (FFin 1); VStr "air"]; OpNew CSettings [("voidMat", VRef 7); ("maxSurf", VInt 60)]%string; OpCad [("settings", VRef 8)]%string;
   OpSet 8 "maxSurf" (VStr "many"); OpSet 8 "voidMat" (VTuple []); OpLoad 9 (VStr "a.stp") (VTuple []) (VStr "Stop"); OpStart 9; OpExport 9 []].
Example C42_history_ex : Forall (fair true) tour /\ 
  let st := history (fun _ => true) tour init_state in
  reads st 9 "settings" (VRef 8) /\ reads st 8 "maxSurf" (VInt 60) /\ reads st 8 "voidMat" (VRef 7) /\ List.length (events st) = 4%nat.
Proof. split; [repeat constructor; cbn; intros r; discriminate|]. vm_compute. auto. Qed.

(** Lists are not copied: a list changed after it was accepted makes a wrong attribute ... *)
Theorem C42_list_changed_later_refuted :
  ~ forall l, Forall (fair false) l -> let st := history (fun _ => true) l init_state in
    forall a d v, nth_error (heap st) a = Some (OConf CSettings d) -> reads st a "voidMat" v -> has_type (heap st) DVoidMat v.
Proof.
  intros H. specialize (H [OpList []; OpNew CSettings [("voidMat", VRef 7)]%string; OpAppend 7 (VInt 3)]).
  assert (F : Forall (fair false) [OpList []; OpNew CSettings [("voidMat", VRef 7)]%string; OpAppend 7 (VInt 3)]) by (repeat constructor).
  specialize (H F 8%nat). cbv zeta in H. set (st := history _ _ _) in H.
  assert (E : nth_error (heap st) 8 = Some (OConf CSettings (conf_dict CSettings [("voidMat", VRef 7)]%string))) by (vm_compute; reflexivity).
  specialize (H _ (VRef 7) E ltac:(vm_compute; reflexivity)).
  assert (E7 : nth_error (heap st) 7 = Some (OList [VInt 3])) by (vm_compute; reflexivity). clearbody st. inversion H; subst; congruence.
Qed.
(** ... and the default lists are shared: after an append to one Settings' voidExclude,
    every later Settings() has it too, and after one to voidMat none can be made. *)
Theorem C42_default_lists_shared_refuted :
  let st := history (fun _ => true) [OpNew CSettings []; OpAppend 1 (VStr "x"); OpNew CSettings []] init_state in
  reads st 7 "voidExclude" (VRef 1) /\ reads st 8 "voidExclude" (VRef 1) /\ nth_error (heap st) 1 = Some (OList [VStr "x"]) /\
  let st' := history (fun _ => true) [OpNew CSettings []; OpAppend 0 (VStr "x")] init_state in
  step (fun _ => true) (OpNew CSettings []) st' = (st', Err TypeError) /\
  forall c, snd (step (fun _ => true) (OpJson (("Settings"%string, JDict []) :: c)) st') = Err TypeError.
Proof.
  split; [vm_compute; reflexivity|]. split; [vm_compute; reflexivity|]. split; [vm_compute; reflexivity|]. cbv zeta. split; [vm_compute; reflexivity|].
  intros c. vm_compute. reflexivity.
Qed.
(** The default configuration objects are shared by all CadToCsg objects. *)
Theorem C42_defaults_shared_refuted :
  let st := history (fun _ => true) [OpCad []; OpCad []; OpSet 6 "startCell" (VInt 500)] init_state in
  reads st 7 "settings" (VRef 6) /\ reads st 9 "settings" (VRef 6) /\ reads st 6 "startCell" (VInt 500) /\
  forall f, reads (history (fun _ => true) [OpJson [("load_step_file"%string, JDict [("filename"%string, VStr f)])]] st) 11 "settings" (VRef 6).
Proof. split; [vm_compute; reflexivity|]. split; [vm_compute; reflexivity|]. split; [vm_compute; reflexivity|]. intros f. vm_compute. reflexivity. Qed.
(** A misspelt attribute is accepted in silence and changes nothing that is used. *)
Theorem C42_misspelt st a c d n v :
  nth_error (heap st) a = Some (OConf c d) -> public n -> (forall t, ~ In (n, t) (documented c)) ->
  let r := setattr a n v st in
  snd r = Ok tt /\ forall m t, In (m, t) (documented c) -> forall w, reads st a m w <-> reads (fst r) a m w.
Proof.
  intros N P U. cbv zeta. assert (FN : find_setter n (setters c) = None). { destruct (find_setter n (setters c)) eqn:E; auto. destruct (setter_documented c n _ E) as [t D]. destruct (U t D). }
  unfold setattr. rewrite N, FN, (store_conf a n v st c d N). cbn [fst snd]. split; auto. intros m t D w. unfold reads.
  assert (N' : nth_error (upd a (OConf c (put n v d)) (heap st)) a = Some (OConf c (put n v d))) by (apply upd_same; eapply nth_lt; eauto).
  rewrite (get_doc (ST (upd a (OConf c (put n v d)) (heap st)) (events st)) a c _ m t N' D), (get_doc st a c d m t N D), lookup_put_other by (intros E; apply (public_priv m); rewrite E; exact P).
  destruct (lookup (priv m) d); split; intros [= ->]; reflexivity.
Qed.
(** Types are all that is checked: a negative or not-a-number tolerance, a bool as a
    number, any string as "simplify" or as a number format are accepted; and enlargeBox,
    which must be non-negative, may be not-a-number. *)
Theorem C42_range_refuted : let st := init_state in
  snd (setattr 4 "distance" (VFloat (FFin (-1))) st) = Ok tt /\ snd (setattr 4 "distance" (VFloat FNan) st) = Ok tt /\
  snd (setattr 3 "enlargeBox" (VFloat FNan) st) = Ok tt /\ snd (setattr 6 "startCell" (VBool true) st) = Ok tt /\
  snd (setattr 6 "startCell" (VInt (-5)) st) = Ok tt /\ snd (setattr 6 "simplify" (VStr "Full") st) = Ok tt /\
  snd (setattr 5 "P_d" (VStr "no format") st) = Ok tt /\ snd (setattr 4 "distance" (VInt 1) st) = Err TypeError.
Proof. vm_compute. repeat split; reflexivity. Qed.

(** *** simplify *)
(** With the four documented values, solids are simplified for "full" only and voids as
    documented.  "Full" is accepted but simplifies the voids only. *)
Theorem C42_simplify s : In s ["no"; "void"; "voidfull"; "full"]%string ->
  (simplifies_solids s = true <-> s = "full"%string) /\
  (simplify_void s = "full"%string <-> s = "voidfull"%string \/ s = "full"%string) /\
  (simplify_void s = "diag"%string <-> s = "void"%string) /\ (simplify_void s = "no"%string <-> s = "no"%string).
Proof. cbn [In]. intros [<- |[<- |[<- |[<- |[]]]]]; vm_compute; repeat split; intros K; auto; try discriminate; destruct K; discriminate. Qed.
Theorem C42_simplify_case_refuted : simplify_void "Full" = "full"%string /\ simplifies_solids "Full" = false /\ simplify_void "avoid" = "diag"%string.
Proof. vm_compute. auto. Qed.

(** *** Configuration files *)
(** From every state a history reaches (lists not changed in place), reading a
    configuration file returns an object iff the file is valid; the solids are loaded,
    converted and exported once each, in this order; when the conversion runs, its
    configuration has the values of the file, and the default objects for the sections
    that are not in the file. *)
Theorem C42_file is_file l c :
  Forall (fair true) l ->
  let st := history is_file l init_state in
  json_dict (heap st) c ->
  let r := from_json is_file c st in
  ((exists v, snd r = Ok v) <-> valid_config is_file (heap st) c) /\
  (forall v, snd r = Ok v -> exists self kw f fs h p x,
     v = VRef self /\ nth_error (heap st) self = None /\
     In ("load_step_file"%string, JDict kw) c /\ lookup "filename" kw = Some f /\ file_names (heap st) f fs /\
     events (fst r) = events st ++ [EDir p; ELoad self (map VStr fs); EStart self h; EExport self x] /\ heap (fst r) = h /\
     (forall k n cl, In (k, (n, cl)) sections ->
        (forall kw', In (k, JDict kw') c -> exists b, reads (ST h []) self n (VRef b) /\
           forall m v0, In (m, v0) (params cl) -> reads (ST h []) b m (match lookup m kw' with Some v => v | None => v0 end)) /\
        (~ In k (map fst c) -> forall v0, In (n, v0) cad_params -> reads (ST h []) self n v0)) /\
     (forall kx, In ("export_csg"%string, JDict kx) c \/ ~ In "export_csg"%string (map fst c) /\ kx = [] ->
        x = map (fun p => (fst p, match lookup (fst p) kx with Some v => v | None => snd p end)) export_params)).
Proof.
  intros F st J r. destruct (wf_history is_file true l F init_state (init_wf true)) as [W K]. fold st in W, K.
  destruct (from_json_spec is_file (heap st) (events st) c W K J) as (d6 & p & N6 & LP & [[VB (fs & kw & f & d1 & d2 & r0 & I & LF & FN & P2 & S & [[VX (kx & IX & E)]|[[v [IX VX]] [e E]]])]|[VB (h' & e & E)]]).
  - assert (E' : from_json is_file c st = from_json is_file c (ST (heap st) (events st))) by (destruct st; reflexivity). rewrite E in E'. subst r. rewrite E'. cbn [fst snd].
    split; [split; [intros _; split; auto|eauto]|]. intros v [= <-]. set (H := heap st ++ OCad d2 :: r0) in *.
    exists (List.length (heap st)), kw, f, fs, H, p, (args_of export_params kx).
    split; auto. split; [apply nth_error_None; auto|]. split; auto. split; auto. split; auto. split; [cbn [events]; rewrite <- app_assoc; reflexivity|]. split; auto. split.
    + intros k n cl IS. destruct (S k n cl IS) as [S1 S2].
      assert (GS : forall v, lookup (priv n) d1 = Some v -> reads (ST H []) (List.length (heap st)) n v).
      { intros v L. unfold reads, getattr. cbn [heap]. unfold H. rewrite nth_mid.
        assert (D : In (n, cl) cad_docs) by (destruct IS as [[= <- <- <-]|[[= <- <- <-]|[[= <- <- <-]|[[= <- <- <-]|[]]]]]; cbn; tauto).
        rewrite (cad_documented n cl D), P2, L. reflexivity. }
      split.
      * intros kw' I'. destruct (S1 kw' I') as (b & L & N). exists b. split; auto. intros m v0 IP.
        destruct (params_names cl) as (_ & NP & Q1 & _). destruct (Q1 m v0 IP) as [t D]. unfold reads. erewrite get_doc; [|cbn [heap]; exact N|exact D].
        destruct (lookup_conf cl kw' m t D) as (v & L2 & I2). rewrite L2. unfold args_of in I2. apply in_map_iff in I2. destruct I2 as [[m' w] [[= <- <-] I2]]. cbn [fst snd].
        assert (w = v0). { apply lookup_nodup in IP; auto. apply lookup_nodup in I2; auto. cbn [fst] in I2. congruence. } subst w. reflexivity.
      * intros NI v0 IP. apply GS. rewrite (S2 NI). apply lookup_nodup; auto. repeat constructor; cbn; intuition discriminate.
    + intros kx' IX'. assert (kx' = kx). 2:{ subst. reflexivity. } destruct J as [ND _].
      destruct IX as [IX|[NX ->]], IX' as [IX'|[NX' ->]].
      * apply jlookup_in in IX, IX'; auto. congruence.
      * exfalso. apply NX'. apply in_map_iff. exists ("export_csg"%string, JDict kx). auto.
      * exfalso. apply NX. apply in_map_iff. exists ("export_csg"%string, JDict kx'). auto.
      * reflexivity.
  - assert (E' : from_json is_file c st = from_json is_file c (ST (heap st) (events st))) by (destruct st; reflexivity). rewrite E in E'. subst r. rewrite E'. cbn [fst snd].
    split; [split; [intros [w X]; discriminate X|intros [_ X]; destruct VX; auto]|discriminate].
  - assert (E' : from_json is_file c st = from_json is_file c (ST (heap st) (events st))) by (destruct st; reflexivity). rewrite E in E'. subst r. rewrite E'. cbn [fst snd].
    split; [split; [intros [w X]; discriminate X|intros [X _]; destruct VB; auto]|discriminate].
Qed.
Definition conf_ex : config :=
  [("load_step_file", JDict [("filename", VStr "a.stp"); ("spline_surfaces", VStr "Ignore")]);
   ("Settings", JDict [("maxSurf", VInt 60)]); ("Options", JDict []); ("export_csg", JDict [("volSDEF", VBool true)])]%string.
Example C42_file_ex : json_dict (heap init_state) conf_ex /\ exists v, snd (from_json (fun _ => true) conf_ex init_state) = Ok v.
Proof.
  split; [|eexists; vm_compute; reflexivity]. split; [repeat constructor; cbn; intuition discriminate|].
  intros k d I. cbn [conf_ex In] in I. repeat destruct I as [[= <- <-]|I]; try contradiction; (split; [repeat constructor; cbn; intuition discriminate|intros n a I']; cbn [In] in I'; repeat destruct I' as [I'|I']; try discriminate; contradiction).
Qed.
(** If anything before the export section is wrong, nothing is loaded, converted or
    exported. *)
Theorem C42_file_early is_file l c :
  Forall (fair true) l ->
  let st := history is_file l init_state in
  json_dict (heap st) c -> ~ valid_before is_file (heap st) c ->
  exists e p, snd (from_json is_file c st) = Err e /\ events (fst (from_json is_file c st)) = events st ++ [EDir p].
Proof.
  intros F st J NV. destruct (wf_history is_file true l F init_state (init_wf true)) as [W K]. fold st in W, K.
  destruct (from_json_spec is_file (heap st) (events st) c W K J) as (d6 & p & N6 & LP & [[VB _]|[VB (h' & e & E)]]); [contradiction|].
  assert (E' : from_json is_file c st = from_json is_file c (ST (heap st) (events st))) by (destruct st; reflexivity). rewrite E in E'. rewrite E'. exists e, p. auto.
Qed.
(** But an error in the export section is found only after the whole conversion. *)
Theorem C42_file_export_late is_file l c :
  Forall (fair true) l ->
  let st := history is_file l init_state in
  json_dict (heap st) c -> valid_before is_file (heap st) c -> ~ valid_config is_file (heap st) c ->
  exists e p self fs h, snd (from_json is_file c st) = Err e /\
    events (fst (from_json is_file c st)) = events st ++ [EDir p; ELoad self (map VStr fs); EStart self h].
Proof.
  intros F st J VB NC. destruct (wf_history is_file true l F init_state (init_wf true)) as [W K]. fold st in W, K.
  assert (E' : from_json is_file c st = from_json is_file c (ST (heap st) (events st))) by (destruct st; reflexivity). rewrite E'.
  destruct (from_json_spec is_file (heap st) (events st) c W K J) as (d6 & p & N6 & LP & [[_ (fs & kw & f & d1 & d2 & r0 & I & LF & FN & P2 & S & [[VX _]|[_ [e E]]])]|[NB _]]).
  - destruct NC. split; auto.
  - rewrite E. exists e, p, (List.length (heap st)), fs, (heap st ++ OCad d2 :: r0). auto.
  - contradiction.
Qed.
Theorem C42_file_export_early_refuted :
  ~ forall c, json_dict (heap init_state) c -> ~ valid_config (fun _ => true) (heap init_state) c ->
      forall self h, ~ In (EStart self h) (events (fst (from_json (fun _ => true) c init_state))).
Proof.
  intros H. set (c := [("load_step_file", JDict [("filename", VStr "a.stp")]); ("export_csg", JDict [("title", VInt 3)])]%string).
  assert (J : json_dict (heap init_state) c).
  { split; [repeat constructor; cbn; intuition discriminate|]. intros k d I. cbn [c In] in I. repeat destruct I as [[= <- <-]|I]; try contradiction; (split; [repeat constructor; cbn; intuition discriminate|intros n a I']; cbn [In] in I'; repeat destruct I' as [I'|I']; try discriminate; contradiction). }
  assert (NV : ~ valid_config (fun _ => true) (heap init_state) c).
  { intros [_ X]. destruct (X (JDict [("title", VInt 3)]%string) ltac:(cbn; auto)) as (kw & [= <-] & _ & T & _). specialize (T "title"%string (VInt 3) ltac:(cbn; auto) eq_refl). inversion T. }
  destruct (C42_file_export_late (fun _ => true) [] c (Forall_nil _) J) as (e & p & self & fs & h & _ & E); auto.
  - split.
    + intros k v I. cbn [c In] in I. destruct I as [[= <- <-]|[[= <- <-]|[]]]; cbn; tauto.
    + split; [intros k a cl v IS I; cbn [c In] in I; destruct I as [[= <- <-]|[[= <- <-]|[]]]; repeat destruct IS as [IS|IS]; try discriminate; contradiction|].
      eexists. split; [left; reflexivity|]. exists [("filename", VStr "a.stp")]%string, (VStr "a.stp"), ["a.stp"%string]. split; auto. split; [intros n x [[= <- <-]|[]]; cbn; auto|]. split; auto. split; [left; eauto|]. split; [repeat constructor|]. split; discriminate.
  - apply (H c J NV self h). cbn [history] in E. rewrite E. apply in_or_app. right. cbn. auto.
Qed.
(** The log directory is made in the output path of the default settings, whatever
    outPath the file gives. *)
Theorem C42_log_dir_refuted : exists c v h self,
  let r := from_json (fun _ => true) c init_state in
  snd r = Ok v /\ In (EStart self h) (events (fst r)) /\
  (exists b, reads (ST h []) self "settings" (VRef b) /\ reads (ST h []) b "outPath" (VStr "results")) /\
  (forall p, In (EDir p) (events (fst r)) -> p = VStr ".").
Proof.
  set (c := [("Settings", JDict [("outPath", VStr "results")]); ("load_step_file", JDict [("filename", VStr "a.stp")])]%string).
  exists c, (VRef 7), (heap (fst (from_json (fun _ => true) c init_state))), 7%nat. cbv zeta.
  split; [vm_compute; reflexivity|]. split; [vm_compute; tauto|]. split; [exists 9%nat; split; vm_compute; reflexivity|].
  intros p. vm_compute. intros [[= <-]|[H|[H|[H|[]]]]]; auto; discriminate.
Qed.
(** load_step_file changes the object before it finds that a file is missing. *)
Theorem C42_load_rejected_refuted :
  let st := history (fun _ => false) [OpCad []] init_state in
  let r := step (fun _ => false) (OpLoad 7 (VStr "b.stp") (VTuple [VInt 1]) (VStr "stop")) st in
  snd r = Err FileNotFound /\ reads st 7 "filename" VNone /\ reads (fst r) 7 "filename" (VStr "b.stp") /\ reads (fst r) 7 "skip_solids" (VTuple [VInt 1]).
Proof. vm_compute. auto. Qed.
(** The other failures of the constructors, assignments and exports change nothing. *)
Theorem C42_rejection_no_effect is_file st o e :
  match o with OpLoad _ _ _ _ | OpJson _ | OpCad _ => False | _ => True end ->
  snd (step is_file o st) = Err e -> heap (fst (step is_file o st)) = heap st /\ events (fst (step is_file o st)) = events st.
Proof.
  destruct o as [c kw|kw|a n v|l|a v|a f sk p|a|a kw|c]; cbn [step]; intros T E; try contradiction.
  - destruct (new_conf_spec c kw st) as [(_ & _ & E')|[_ [e' [E' _]]]]; rewrite E' in *; [discriminate|auto].
  - unfold unit_op, seq_ in *. destruct (setattr_cases st a n v) as [[e' E']|[(c & d & m & _ & E' & _)|(d & m & _ & E' & _)]]; rewrite E' in *; try discriminate E. auto.
  - discriminate.
  - unfold unit_op, seq_, list_append in *. destruct (nth_error (heap st) a) as [[l| |]|]; cbn in *; try discriminate; auto.
  - discriminate.
  - split; [unfold unit_op, seq_; pose proof (export_heap a kw st); destruct (export_csg a kw st) as [s' [x|x|]]; auto|].
    revert E. unfold unit_op, export_csg, seq_, lift. destruct (bind_args export_params kw) as [args|x|]; cbn [fst snd]; auto. destruct (lookup "UCARD" args) as [u|]; cbn [raise fst snd]; auto.
    unfold is_a. cbn [fst]. repeat match goal with |- context [if ?b then _ else _] => destruct b; cbn [raise fst snd]; auto end.
    assert (G : forall ns t s, events (fst (args_are ns args t s)) = events s /\ heap (fst (args_are ns args t s)) = heap s).
    { induction ns as [|n ns IH]; intros t s; cbn [args_are]; auto. destruct (lookup n args); cbn [raise fst]; auto. unfold seq_, is_a. destruct (negb _); cbn [raise fst]; auto. }
    match goal with |- context [args_are ?ns args ?t st] => pose proof (G ns t st) as [G1 G2]; destruct (args_are ns args t st) as [s1 [x|x|]] end; cbn [fst snd heap events] in *; auto.
    match goal with |- context [args_are ?ns args ?t s1] => pose proof (G ns t s1) as [G3 G4]; destruct (args_are ns args t s1) as [s2 [y|y|]] end; cbn [fst snd heap events emit ret] in *; try congruence; try discriminate; split; congruence.
Qed.
Example C42_rejection_no_effect_ex : snd (step (fun _ => true) (OpExport 3 [("title", VInt 3)]%string) init_state) = Err TypeError.
Proof. vm_compute. reflexivity. Qed.
