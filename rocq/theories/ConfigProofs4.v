(** Configuration files, continued: the whole of from_json. *)
From Coq Require Import String QArith.
From Verif Require Import Prelude Config ConfigSpec ConfigProofs ConfigProofs2 ConfigProofs3.
Open Scope Z_scope.

Lemma jlookup_in n c v : NoDup (map fst c) -> jlookup n c = Some v <-> In (n, v) c.
Proof.
  induction c as [|[k w] c IH]; cbn [map fst jlookup In]; intros ND; [split; [discriminate|tauto]|]. inversion ND as [|? ? N1 N2]; subst.
  destruct (String.eqb k n) eqn:E.
  - apply String.eqb_eq in E. subst k. split; [intros [= ->]; auto|]. intros [[= ->]|I]; auto. exfalso. apply N1. apply in_map_iff. exists (n, v). auto.
  - rewrite IH by auto. split; auto. intros [[= -> ->]|I]; auto. rewrite String.eqb_refl in E. discriminate.
Qed.
Lemma jlookup_none n c : jlookup n c = None -> ~ In n (map fst c).
Proof.
  induction c as [|[k w] c IH]; cbn [map fst jlookup In]; [tauto|]. destruct (String.eqb k n) eqn:E; [discriminate|]. intros L [-> |I]; [rewrite String.eqb_refl in E; discriminate|]. tauto.
Qed.
Lemma init_objects : exists d3 d4 d5 d6, heap init_state = [OList []; OList []; OList []; OConf COptions d3; OConf CTolerances d4; OConf CNumericFormat d5; OConf CSettings d6].
Proof. let x := eval vm_compute in (heap init_state) in match x with [_;_;_;OConf _ ?a;OConf _ ?b;OConf _ ?c;OConf _ ?d] => exists a, b, c, d end. vm_compute. reflexivity. Qed.
(** the objects made at the import, at any later moment *)
Lemma keeps_defaults h : keeps true (heap init_state) h -> defaults_ok h /\
  (exists d, nth_error h 3 = Some (OConf COptions d)) /\ (exists d, nth_error h 4 = Some (OConf CTolerances d)) /\
  (exists d, nth_error h 5 = Some (OConf CNumericFormat d)) /\ (exists d, nth_error h 6 = Some (OConf CSettings d)).
Proof.
  intros K. unfold defaults_ok. destruct init_objects as (d3 & d4 & d5 & d6 & I). rewrite I in K. clear I.
  assert (L : forall a, nth_error [OList []; OList []; OList []; OConf COptions d3; OConf CTolerances d4; OConf CNumericFormat d5; OConf CSettings d6] a = Some (OList []) -> nth_error h a = Some (OList [])).
  { intros a N. destruct (K a _ N) as [l' [N' E]]. rewrite <- (E eq_refl). auto. }
  repeat split; try (apply L; reflexivity).
  - exact (K 3%nat _ eq_refl). - exact (K 4%nat _ eq_refl). - exact (K 5%nat _ eq_refl). - exact (K 6%nat _ eq_refl).
Qed.
Definition default_refs (n : string) : val := given [] n (match lookup n cad_params with Some v => v | None => VNone end).

Lemma from_json_spec is_file h ev c : wf true h -> keeps true (heap init_state) h -> json_dict h c ->
  let self := List.length h in
  exists d6 p, nth_error h 6 = Some (OConf CSettings d6) /\ lookup (priv "outPath") d6 = Some p /\
  ((valid_before is_file h c /\ exists fs kw f d1 d2 r, In ("load_step_file"%string, JDict kw) c /\ lookup "filename" kw = Some f /\ file_names h f fs /\
     (forall n, lookup (priv n) d2 = lookup (priv n) d1) /\
     (forall k n cl, In (k, (n, cl)) sections ->
        (forall kw, In (k, JDict kw) c -> exists b, lookup (priv n) d1 = Some (VRef b) /\ nth_error (h ++ OCad d2 :: r) b = Some (OConf cl (conf_dict cl kw))) /\
        (~ In k (map fst c) -> lookup (priv n) d1 = lookup n cad_params)) /\
     let H := h ++ OCad d2 :: r in
     let ev' := ev ++ [EDir p; ELoad self (map VStr fs); EStart self H] in
     (((forall v, In ("export_csg"%string, v) c -> valid_export h v) /\
         exists kx, (In ("export_csg"%string, JDict kx) c \/ ~ In "export_csg"%string (map fst c) /\ kx = []) /\
         from_json is_file c (ST h ev) = (ST H (ev' ++ [EExport self (args_of export_params kx)]), Ok (VRef self))) \/
      ((exists v, In ("export_csg"%string, v) c /\ ~ valid_export h v) /\ exists e, from_json is_file c (ST h ev) = (ST H ev', Err e)))) \/
   (~ valid_before is_file h c /\ exists h' e, from_json is_file c (ST h ev) = (ST h' (ev ++ [EDir p]), Err e))).
Proof.
  intros W K J self. destruct (keeps_defaults h K) as (DO & D3 & D4 & D5 & D6).
  assert (CA : cad_args_ok h []).
  { split; [intros n v []|]. intros n cl v I A. cbn [cad_docs In] in I. cbn [args_of cad_params map fst snd In given lookup] in A.
    destruct D3 as [d3 D3], D4 as [d4 D4], D5 as [d5 D5], D6 as [d6 D6].
    destruct I as [[= <- <-]|[[= <- <-]|[[= <- <-]|[[= <- <-]|[]]]]]; repeat destruct A as [[= <-]|A]; try contradiction; try discriminate; unfold conf_at; eauto. }
  destruct (new_cad_spec [] (ST h ev)) as [(_ & b & d6 & p & G & N6 & P & E)|[NC _]]; cbn [heap events] in *.
  { apply (wf_out_path true h W). } 2: contradiction.
  cbn [given lookup] in G. injection G as <-. exists d6, p. split; auto. split; auto.
  remember (from_json is_file c (ST h ev)) as res0 eqn:Q. unfold from_json in Q. unfold seq_ at 1 in Q. rewrite E in Q. clear E.
  set (d0 := cad_dict [] (List.length h)) in *. unfold seq_ at 1 in Q. fold self in Q.
  assert (JL := J). destruct JL as [ND JD].
  destruct (loop_spec h c DO J d0 [OList []] (ev ++ [EDir p])) as [[SO (d1 & r & E & _ & S)]|[NS (d1 & r & e & E)]]; fold self in E; rewrite E in Q; clear E.
  2:{ right. split; [intros (A & B & _); apply NS; split; auto|]. eexists _, _. exact Q. }
  unfold seq_ at 1 in Q. destruct (jlookup "load_step_file" c) as [v|] eqn:JL.
  2:{ right. split; [|eexists _, _; exact Q]. intros (_ & _ & v & I & _). apply jlookup_none in JL. apply JL. apply in_map_iff. exists ("load_step_file"%string, v). auto. }
  assert (JI := JL). apply jlookup_in in JI; auto.
  destruct v as [kw|w]; cbn [splat] in Q.
  2:{ right. split; [|eexists _, _; exact Q]. intros (_ & _ & v & I & VL). apply jlookup_in in I; auto. rewrite JL in I. injection I as <-. destruct VL as (? & ? & ? & X & _). discriminate. }
  destruct (JD _ _ JI) as [NK CK].
  destruct (load_kw_spec is_file h d1 ([OList []] ++ r) (ev ++ [EDir p]) kw DO NK CK) as [(VL & fs & f & LF & FN & d2 & P2 & E)|[NV (d2 & e & E)]]; fold self in E; cbn [app] in E, Q; rewrite E in Q; clear E.
  2:{ right. split; [|eexists _, _; exact Q]. intros (_ & _ & v & I & VL). apply jlookup_in in I; auto. rewrite JL in I. injection I as <-. auto. }
  left. split; [split; [apply SO|split; [apply SO|eauto]]|].
  exists fs, kw, f, d1, d2, (OList [] :: r). split; auto. split; auto. split; auto. split; auto. split.
  { intros k n cl IS. destruct (S k n cl IS) as [S1 S2]. split.
    - intros kw' I. destruct (S1 kw' I) as (b & L & N). exists b. split; auto. cbn [app] in N. revert N.
      destruct (Nat.eq_dec b (List.length h)) as [-> |NE]; [rewrite nth_mid; discriminate|].
      destruct (Nat.lt_ge_cases b (List.length h)); [rewrite !nth_error_app1 by auto; auto|]. rewrite !nth_error_app2 by auto. destruct (b - List.length h)%nat eqn:EB; [lia|]. auto.
    - intros NI. rewrite (S2 NI). destruct IS as [[= <- <- <-]|[[= <- <- <-]|[[= <- <- <-]|[[= <- <- <-]|[]]]]]; reflexivity. }
  set (H := h ++ OCad d2 :: OList [] :: r) in *. set (ev' := ev ++ [EDir p; ELoad self (map VStr fs); EStart self H]) in *. unfold seq_ at 1 in Q. unfold start, emit in Q. cbn [heap events] in Q. rewrite <- !app_assoc in Q. cbn [app] in Q. fold H in Q. fold ev' in Q.
  unfold seq_ at 1 in Q. destruct (jlookup "export_csg" c) as [x|] eqn:JX.
  - assert (JXI := JX). apply jlookup_in in JXI; auto. destruct x as [kx|w]; cbn [splat] in Q.
    2:{ right. split; [|eexists; exact Q]. exists (JVal w). split; auto. intros (? & X & _). discriminate. }
    destruct (JD _ _ JXI) as [NX CX]. destruct (export_spec h d2 (OList [] :: r) ev' kx NX CX) as [[VX E]|[VX [e E]]]; fold self H in E; rewrite E in Q; clear E; [left|right].
    + split; [|exists kx; split; auto]. intros v I. apply jlookup_in in I; auto. congruence.
    + split; [eauto|eexists; exact Q].
  - left. assert (JN := jlookup_none _ _ JX). split; [intros v I; exfalso; apply JN; apply in_map_iff; exists ("export_csg"%string, v); auto|].
    exists []. split; [auto|]. assert (ND0 : no_dangling h []) by (intros n a []).
    destruct (export_spec h d2 (OList [] :: r) ev' [] (NoDup_nil _) ND0) as [[VX E]|[VX _]].
    + fold self H in E. rewrite E in Q. exact Q.
    + exfalso. apply VX. exists []. split; auto. repeat split; cbn; try tauto; intros; discriminate.
Qed.
