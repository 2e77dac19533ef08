(** The surface numbers of a parsed text are numbers of the text. *)
From Coq Require Import Ascii String Permutation.
From Verif Require Import Prelude BoolSpec BoolSeq BoolProofs CellText ParenModel ParenProofs ParenRemove ParseTerms ParseInts ParseProofs
  Writers WritersProofs LexSpec LexProofs Wrap WrapProofs PropsText OnProofs.

Lemma sem_numbers v v' t : (forall z, In z (numbers t) -> v (Z.abs z) = v' (Z.abs z)) -> sem v t = sem v' t.
Proof.
  induction t as [pre sg ds post|pre t IH post|a IHa b IHb|a IHa b IHb]; intros H; cbn [sem numbers] in *; auto.
  - unfold lit_val. specialize (H _ (or_introl eq_refl)). destruct (Z.ltb_spec (num_val sg ds) 0); [replace (- num_val sg ds) with (Z.abs (num_val sg ds)) by lia; rewrite H; auto|].
    replace (num_val sg ds) with (Z.abs (num_val sg ds)) by lia. auto.
  - rewrite IHa, IHb; auto; intros z I; apply H, in_or_app; auto.
  - rewrite IHa, IHb; auto; intros z I; apply H, in_or_app; auto.
Qed.
Lemma sem_lit (Q : Z -> Prop) t z : z <> 0 -> (forall v, sem v t = lit_val v z) -> (forall y, In y (numbers t) -> Q (Z.abs y)) -> Q (Z.abs z).
Proof.
  intros Z0 H HQ. destruct (in_dec Z.eq_dec (Z.abs z) (map Z.abs (numbers t))) as [I|I].
  - apply in_map_iff in I. destruct I as (y & <- & I). auto.
  - exfalso. pose proof (sem_numbers (fun _ => true) (fun i => negb (i =? Z.abs z)) t) as E. rewrite !H in E.
    assert (T : forall y, In y (numbers t) -> true = negb (Z.abs y =? Z.abs z)).
    { intros y J. destruct (Z.eqb_spec (Z.abs y) (Z.abs z)); auto. exfalso. apply I. rewrite <- e. apply in_map; auto. }
    specialize (E T). unfold lit_val in E. destruct (Z.ltb_spec z 0).
    + replace (- z) with (Z.abs z) in E by lia. rewrite Z.eqb_refl in E. discriminate.
    + replace (z =? Z.abs z) with true in E by (symmetry; apply Z.eqb_eq; lia). discriminate.
Qed.

Section On.
  Variable Q : Z -> Prop.
  Notation on := (OnProofs.on Q).
  Notation onl := (OnProofs.onl Q).
  Definition tq (t : tree) : Prop := forall z, In z (numbers t) -> Q (Z.abs z).

  Lemma set_level_on lev n : on n -> on (set_level lev n).
  Proof. destruct n; intros H; auto. Qed.
  Lemma def_loop_on rec terms : forall self ints self' ints',
    (forall t, In t terms -> (forall z, as_integer t = Some z -> Q (Z.abs z)) /\ (as_integer t = None -> forall n, rec t = Ok n -> on n)) ->
    on self -> (forall z, In z ints -> Q (Z.abs z)) -> def_loop rec terms self ints = Ok (self', ints') ->
    on self' /\ forall z, In z ints' -> Q (Z.abs z).
  Proof.
    induction terms as [|t ts IH]; intros self ints self' ints' HT HS HI H; cbn [def_loop] in H; [inv H; auto|].
    destruct (HT t (or_introl eq_refl)) as (A & B).
    assert (HT' : forall t, In t ts -> (forall z, as_integer t = Some z -> Q (Z.abs z)) /\ (as_integer t = None -> forall n, rec t = Ok n -> on n)) by (intros; apply HT; right; auto).
    destruct (as_integer t) as [z|].
    - eapply IH; [exact HT'|exact HS| |exact H]. intros y I. apply in_app_or in I. destruct I as [I|[<-|[]]]; auto.
    - destruct t as [|c t]; [discriminate|]. destruct (rec (c :: t)) as [x| |] eqn:ER; try discriminate. cbn [bind] in H.
      destruct (append _ [AN x]) as [s'| |] eqn:EA; try discriminate. cbn [bind] in H.
      eapply IH; [exact HT'| |exact HI|exact H]. eapply append1_on; [|exact (B eq_refl x eq_refl)|exact EA]. apply set_level_on; auto.
  Qed.
  Lemma oterms_numbers x : forall L R p, In p (oterms L x R) -> incl (numbers (ptree p)) (numbers (erase x)).
  Proof.
    induction x as [pre sg ds post|pre x IH post|pre x IH post|pre x IH post|a IHa b IHb|a IHa b IHb]; intros L R p I; cbn [oterms erase numbers] in *;
      try (destruct I as [<-|[]]; apply incl_refl).
    - destruct (vis x); [eapply IH; eauto|]. destruct I as [<-|[]]. apply incl_refl.
    - apply in_app_or in I. destruct I as [I|I]; [apply incl_appl|apply incl_appr]; eauto.
  Qed.
  Lemma aterms_numbers x : forall t, In t (aterms x) -> incl (numbers t) (numbers (erase x)).
  Proof.
    induction x as [pre sg ds post|pre x IH post|pre x IH post|pre x IH post|a IHa b IHb|a IHa b IHb]; intros t I; cbn [aterms erase numbers] in *; auto;
      try (destruct I as [<-|[]]; apply incl_refl).
    - apply in_app_or in I. destruct I as [I|I]; [apply incl_appl|apply incl_appr]; eauto.
    - destruct I.
  Qed.

  Lemma set_def_on sord : perm_order sord -> forall fuel p n, pgood p -> tq (ptree p) -> set_def sord fuel (ptext p) = Ok n -> on n.
  Proof.
    intros HP. induction fuel as [|fuel IH]; intros p n HG HQ H; [discriminate|].
    destruct p as [[L t] R]. pose proof HG as (HL & HR & HO & HT). cbn [ptext ptree] in *.
    cbn [set_def] in H. unfold outer_terms in H.
    destruct (passes_text zero_fill zero_open zero_close zero_caret zero_colon L R t HL HR HO HT) as (x & EP & E1 & N & HGx & C).
    rewrite EP in H. cbn [bind] in H.
    assert (EC : existsb (is_c ":") (twice L ++ rd x ++ twice R) = vis x).
    { rewrite !existsb_app, colon_rd by auto. rewrite (nocol_wl L HL), (nocol_wr R HR), orb_false_r. reflexivity. }
    rewrite EC in H.
    assert (FIN : forall op terms, (forall t, In t terms -> (forall z, as_integer t = Some z -> Q (Z.abs z)) /\ (as_integer t = None -> forall n, set_def sord fuel t = Ok n -> on n)) ->
      (do (self, ints) <- def_loop (set_def sord fuel) terms (Seq op 0 []) [];
       let ints' := nodup Z.eq_dec ints in
       do self' <-
        (if Nat.eqb (List.length ints') (List.length (nodup Z.eq_dec (map Z.abs ints)))
         then append self (map (fun z => AN (Lit z)) (sord ints'))
         else Ok (Cst op (-1) (absorbing op)));
       group_single self') = Ok n -> on n).
    { intros op terms HTm E. destruct (def_loop (set_def sord fuel) terms (Seq op 0 []) []) as [[self ints]| |] eqn:ED; try discriminate. cbn [bind] in E. cbv zeta in E.
      assert (OI : forall z, In z (@nil Z) -> Q (Z.abs z)) by (intros z []).
      assert (O0 : on (Seq op 0 [])) by (apply on_seq, onl_nil).
      destruct (def_loop_on _ _ _ _ _ _ HTm O0 OI ED) as (O1 & O2).
      match type of E with (do self' <- ?e; _) = _ => destruct e as [s'| |] eqn:ES; try discriminate end. cbn [bind] in E.
      eapply group_single_on; [|exact E]. destruct (Nat.eqb _ _); [|inv ES; apply on_cst].
      eapply append_on; [exact O1| |exact ES]. apply Forall_forall. intros a I. apply in_map_iff in I. destruct I as (z & <- & I). cbn [onarg]. apply on_lit, O2.
      apply (nodup_In Z.eq_dec). eapply Permutation_in; [apply HP|exact I]. }
    assert (PC : forall p, pgood p -> tq (ptree p) -> (forall z, as_integer (ptext p) = Some z -> Q (Z.abs z)) /\ (as_integer (ptext p) = None -> forall n, set_def sord fuel (ptext p) = Ok n -> on n)).
    { intros p P1 P2. split.
      - intros z EA. destruct (as_integer_piece p z P1 EA) as (Z1 & Z2). eapply sem_lit; [exact Z1|exact Z2|exact P2].
      - intros _ m. apply IH; auto. }
    destruct (vis x) eqn:EV; cbn [bind] in H.
    - apply FIN in H; auto. intros s I. rewrite split_oterms in I by (auto using nocol_wl, nocol_wr). rewrite !fst_twice, map_map in I.
      apply in_map_iff in I. destruct I as (p & <- & I).
      assert (GP : pgood p). { assert (K : Forall (fun p => pgood p /\ tv (ptree p) = false) (oterms L x R)) by (apply oterms_good; auto; rewrite E1; auto).
        rewrite Forall_forall in K. exact (proj1 (K p I)). }
      destruct (strip_piece p GP) as (p' & -> & G' & _ & _ & NM). apply PC; auto. unfold tq. rewrite NM. intros z Iz. apply HQ. rewrite <- E1. eapply oterms_numbers; eauto.
    - assert (ESC : scan_terms (List.length (twice L ++ rd x ++ twice R)) (twice L ++ rd x ++ twice R) = map (text mcnp) (aterms x)).
      { change (sc (twice L ++ rd x ++ twice R) = map (text mcnp) (aterms x)). rewrite sc_nostarts.
        2:{ apply twice_Forall. eapply Forall_impl; [|exact HL]. intros c [->| ->]; reflexivity. }
        rewrite (sc_render x false); auto.
        - rewrite <- (app_nil_r (twice R)), sc_nostarts; [apply app_nil_r|].
          apply twice_Forall. eapply Forall_impl; [|exact HR]. intros c [->| ->]; reflexivity.
        - rewrite E1; auto.
        - intros _. destruct HR as [|c R' HR1 HR2]; simpl; auto. destruct HR1 as [->| ->]; reflexivity. }
      rewrite ESC in H. apply FIN in H; auto. intros s I. apply in_map_iff in I. destruct I as (u & <- & I).
      assert (GU : grammatical mcnp u).
      { pose proof (aterms_good x false C HGx) as K. rewrite E1 in K. specialize (K HT). rewrite Forall_forall in K. specialize (K u I).
        destruct u as [[] sg ds []|[] t2 []|a a'|a a']; tauto. }
      assert (HQu : pgood ([], u, [])) by (repeat split; auto; try constructor; constructor).
      assert (HQt : ptext ([], u, []) = text mcnp u) by (cbn [ptext app]; apply app_nil_r).
      rewrite <- HQt. apply PC; auto. intros z Iz. apply HQ. rewrite <- E1. eapply aterms_numbers; eauto.
  Qed.
  Lemma parse_on sord s n : perm_order sord -> mentions mcnp s Q -> parse sord s = Ok n -> on n.
  Proof.
    intros HP (t & HT & <- & HQ) H. unfold parse in H.
    assert (HG : pgood ([], t, [])) by (repeat split; auto; try constructor; constructor).
    eapply (set_def_on sord HP (S (List.length (text mcnp t))) ([], t, [])); auto. cbn [ptext app]. rewrite app_nil_r. auto.
  Qed.

  (** ** The text that is written *)
  Lemma remove_redundant_mentions s : mentions mcnp s Q -> exists s', remove_redundant s = Ok s' /\ mentions mcnp s' Q.
  Proof.
    intros (t & H1 & <- & H2). destruct (remove_redundant_tree t H1) as (t' & E & H3 & _ & H4).
    exists (text mcnp t'). split; auto. exists t'. split; auto. split; auto. rewrite H4. auto.
  Qed.
End On.
