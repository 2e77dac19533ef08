(** As OnProofs, OnText and OnCell up to the texts, with the signs of the numbers: the numbers of a
    definition are numbers, with the same signs, of the texts it is made from. *)
From Coq Require Import Ascii String Permutation.
From Verif Require Import Prelude BoolSpec BoolSeq BoolProofs BoolProofs2 CellText ParenModel ParenProofs ParenRemove ParseTerms ParseInts ParseProofs
  Writers WritersProofs LexSpec LexProofs Wrap WrapProofs PropsText SurfDict SurfDictProofs CellDef CellDefProofs.

Section On.
  Variable Q : Z -> Prop.
  Definition on (n : node) : Prop := forall z, In z (lits n) -> Q z.
  Definition onl (l : list node) : Prop := forall n, In n l -> on n.

  Lemma on_lit z : on (Lit z) <-> Q z.
  Proof. unfold on. simpl. split; [intros H; apply H; auto|intros H y [<-|[]]; auto]. Qed.
  Lemma on_cst op lev b : on (Cst op lev b).
  Proof. intros z []. Qed.
  Lemma on_seq op lev l : on (Seq op lev l) <-> onl l.
  Proof.
    unfold on, onl, on. cbn [lits]. split.
    - intros H n I z Iz. apply H. apply in_flat_map. eauto.
    - intros H z Iz. apply in_flat_map in Iz. destruct Iz as (n & I & Iz). eauto.
  Qed.
  Lemma onl_nil : onl [].
  Proof. intros n []. Qed.
  Lemma onl_cons a l : onl (a :: l) <-> on a /\ onl l.
  Proof. unfold onl. simpl. split; [intros H; split; auto|intros (A & B) n [<-|I]; auto]. Qed.
  Lemma onl_app a b : onl (a ++ b) <-> onl a /\ onl b.
  Proof. unfold onl. split; [intros H; split; intros; apply H, in_or_app; auto|intros (A & B) n I; apply in_app_iff in I; destruct I; auto]. Qed.
  Lemma onl_incl a b : incl a b -> onl b -> onl a.
  Proof. unfold onl. auto. Qed.
  Hint Resolve on_cst onl_nil : on.

  Lemma remove_lit_incl z l : incl (remove_lit z l) l.
  Proof.
    induction l as [|x l IH]; simpl; [intros ? []|]. destruct x; try (intros y [<-|I]; [left; auto|right; auto]).
    destruct (z0 =? z); [intros y I; right; auto|intros y [<-|I]; [left; auto|right; auto]].
  Qed.
  Lemma remove_at_incl {A} j (l : list A) : incl (remove_at j l) l.
  Proof.
    revert j; induction l as [|x l IH]; intros [|j]; simpl; intros y I; auto; try (right; auto; fail).
    destruct I as [<-|I]; [left; auto|right; apply (IH j); auto].
  Qed.

  Definition onarg (a : arg) : Prop := match a with AN n => on n | AB _ => True end.
  Lemma append_loop_on op args : forall lev l, onl l -> Forall onarg args -> on (append_loop op lev l args).
  Proof.
    induction args as [|a args IH]; intros lev l HL HA; cbn [append_loop]; [apply on_seq; auto|].
    inversion HA; subst. destruct a as [n|b].
    - destruct n as [s|o' lv b|o' lv l']; cbn [onarg] in *.
      + destruct (in_lits s l); auto. destruct (in_lits (- s) l); auto with on. apply IH; auto. apply onl_app. split; auto. apply onl_cons. auto with on.
      + destruct (eqb b (absorbing op)); auto with on.
      + apply IH; auto. apply onl_app. split; auto. apply onl_cons. auto with on.
    - destruct (eqb b (neutral op)); auto with on.
  Qed.
  Lemma append_on self args r : on self -> Forall onarg args -> append self args = Ok r -> on r.
  Proof.
    intros HS HA H. destruct self as [z|op lev b|op lev l]; cbn [append] in H; try discriminate.
    - destruct (eqb b (neutral op)); [|inv H; auto with on]. destruct args as [|a [|]]; try discriminate; destruct a as [n|]; try discriminate.
      + destruct n; try discriminate; cbn [assign_tuple] in H; inv H; inversion HA; auto.
      + destruct n; discriminate.
    - inv H. apply append_loop_on; auto. apply on_seq in HS. auto.
  Qed.
  Lemma append1_on self n r : on self -> on n -> append self [AN n] = Ok r -> on r.
  Proof. intros A B. apply append_on; auto. Qed.

  Lemma gs_loop_on i : forall l g l' g', onl l -> onl g -> gs_loop i l g = Ok (l', g') -> onl l' /\ onl g'.
  Proof.
    induction i as [|j IH]; intros l g l' g' HL HG H; cbn [gs_loop] in H; [inv H; auto|].
    destruct (nth_error l j) as [x|] eqn:E; [|inv H; auto]. assert (OX : on x) by (apply HL; eapply nth_error_In; eauto).
    destruct x as [z|o lev b|o lev xs].
    - apply IH in H; auto; [apply (onl_incl _ l); auto; apply remove_lit_incl|apply onl_app; split; auto; apply onl_cons; auto with on].
    - destruct (lev =? 0); [discriminate|]. apply IH in H; auto.
    - destruct xs as [|x [|]]; try (apply IH in H; auto; fail). destruct (lev =? 0); apply IH in H; auto.
      + apply (onl_incl _ l); auto. apply remove_at_incl.
      + apply onl_app. split; auto. apply on_seq in OX. auto.
  Qed.
  Lemma group_single_on n r : on n -> group_single n = Ok r -> on r.
  Proof.
    intros HN H. destruct n as [z|op lev b|op lev l]; cbn [group_single] in H; [discriminate|inv H; auto|].
    destruct (lev =? 0); [inv H; auto|]. inv_bind. destruct a as [l' g]. apply on_seq in HN.
    destruct (gs_loop_on _ _ _ _ _ HN onl_nil Ha) as (A & B). destruct g; inv H; apply on_seq; auto.
    apply onl_cons. split; auto. apply on_seq. auto.
  Qed.

End On.

(** A text is monotone in its numbers. *)
Lemma sem_mono v v' t : (forall z, In z (numbers t) -> lit_val v z = true -> lit_val v' z = true) -> sem v t = true -> sem v' t = true.
Proof.
  induction t as [pre sg ds post|pre t IH post|a IHa b IHb|a IHa b IHb]; intros H; cbn [sem numbers] in *; auto.
  - apply H. left. auto.
  - rewrite !andb_true_iff. intros (A & B). split; [apply IHa|apply IHb]; auto; intros z J; apply H, in_or_app; auto.
  - rewrite !orb_true_iff. intros [A|B]; [left; apply IHa|right; apply IHb]; auto; intros z J; apply H, in_or_app; auto.
Qed.
Lemma sem_lit (Q : Z -> Prop) t z : z <> 0 -> (forall v, sem v t = lit_val v z) -> (forall y, In y (numbers t) -> Q y) -> Q z.
Proof.
  intros Z0 H HQ. destruct (in_dec Z.eq_dec z (numbers t)) as [J|J]; [auto|]. exfalso.
  pose proof (sem_mono (fun i => if 0 <? z then true else negb (i =? - z)) (fun i => if 0 <? z then negb (i =? z) else true) t) as E. rewrite !H in E.
  assert (T : forall y, In y (numbers t) -> lit_val (fun i => if 0 <? z then true else negb (i =? - z)) y = true -> lit_val (fun i => if 0 <? z then negb (i =? z) else true) y = true).
  { intros y Iy. unfold lit_val. assert (y <> z) by congruence.
    destruct (Z.ltb_spec y 0), (Z.ltb_spec 0 z); cbn [negb]; rewrite ?negb_true_iff, ?negb_false_iff, ?Z.eqb_eq, ?Z.eqb_neq; try congruence; lia. }
  specialize (E T). unfold lit_val in E.
  destruct (Z.ltb_spec z 0), (Z.ltb_spec 0 z); try lia; rewrite ?Z.eqb_refl in E; cbn [negb] in E; specialize (E eq_refl); discriminate.
Qed.

Section OnT.
  Variable Q : Z -> Prop.
  Notation on := (on Q).
  Notation onl := (onl Q).
  Definition tq (t : tree) : Prop := forall z, In z (numbers t) -> Q z.

  Lemma set_level_on lev n : on n -> on (set_level lev n).
  Proof. destruct n; intros H; auto. Qed.
  Lemma def_loop_on rec terms : forall self ints self' ints',
    (forall t, In t terms -> (forall z, as_integer t = Some z -> Q z) /\ (as_integer t = None -> forall n, rec t = Ok n -> on n)) ->
    on self -> (forall z, In z ints -> Q z) -> def_loop rec terms self ints = Ok (self', ints') ->
    on self' /\ forall z, In z ints' -> Q z.
  Proof.
    induction terms as [|t ts IH]; intros self ints self' ints' HT HS HI H; cbn [def_loop] in H; [inv H; auto|].
    destruct (HT t (or_introl eq_refl)) as (A & B).
    assert (HT' : forall t, In t ts -> (forall z, as_integer t = Some z -> Q z) /\ (as_integer t = None -> forall n, rec t = Ok n -> on n)) by (intros; apply HT; right; auto).
    destruct (as_integer t) as [z|].
    - eapply IH; [exact HT'|exact HS| |exact H]. intros y I. apply in_app_or in I. destruct I as [I|[<-|[]]]; auto.
    - destruct t as [|c t]; [discriminate|]. destruct (rec (c :: t)) as [x| |] eqn:ER; try discriminate. cbn [bind] in H.
      destruct (append _ [AN x]) as [s'| |] eqn:EA; try discriminate. cbn [bind] in H.
      eapply IH; [exact HT'| |exact HI|exact H]. eapply append1_on; [|exact (B eq_refl x eq_refl)|exact EA]. apply set_level_on; auto.
  Qed.
  Lemma oterms_numbers x : forall L R p, In p (oterms L x R) -> incl (numbers (ptree p)) (numbers (erase x)).
  Proof.
    induction x as [pre sg ds post|pre x IH post|pre x IH post|pre x IH post|a IHa b IHb|a IHa b IHb]; intros L R p I; cbn [oterms erase numbers] in *;
      try (destruct I as [<-|[]]; apply incl_refl).
    - destruct (vis x); [eapply IH; eauto|]. destruct I as [<-|[]]. apply incl_refl.
    - apply in_app_or in I. destruct I as [I|I]; [apply incl_appl|apply incl_appr]; eauto.
  Qed.
  Lemma aterms_numbers x : forall t, In t (aterms x) -> incl (numbers t) (numbers (erase x)).
  Proof.
    induction x as [pre sg ds post|pre x IH post|pre x IH post|pre x IH post|a IHa b IHb|a IHa b IHb]; intros t I; cbn [aterms erase numbers] in *; auto;
      try (destruct I as [<-|[]]; apply incl_refl).
    - apply in_app_or in I. destruct I as [I|I]; [apply incl_appl|apply incl_appr]; eauto.
    - destruct I.
  Qed.

  Lemma set_def_on sord : perm_order sord -> forall fuel p n, pgood p -> tq (ptree p) -> set_def sord fuel (ptext p) = Ok n -> on n.
  Proof.
    intros HP. induction fuel as [|fuel IH]; intros p n HG HQ H; [discriminate|].
    destruct p as [[L t] R]. pose proof HG as (HL & HR & HO & HT). cbn [ptext ptree] in *.
    cbn [set_def] in H. unfold outer_terms in H.
    destruct (passes_text zero_fill zero_open zero_close zero_caret zero_colon L R t HL HR HO HT) as (x & EP & E1 & N & HGx & C).
    rewrite EP in H. cbn [bind] in H.
    assert (EC : existsb (is_c ":") (twice L ++ rd x ++ twice R) = vis x).
    { rewrite !existsb_app, colon_rd by auto. rewrite (nocol_wl L HL), (nocol_wr R HR), orb_false_r. reflexivity. }
    rewrite EC in H.
    assert (FIN : forall op terms, (forall t, In t terms -> (forall z, as_integer t = Some z -> Q z) /\ (as_integer t = None -> forall n, set_def sord fuel t = Ok n -> on n)) ->
      (do (self, ints) <- def_loop (set_def sord fuel) terms (Seq op 0 []) [];
       let ints' := nodup Z.eq_dec ints in
       do self' <-
        (if Nat.eqb (List.length ints') (List.length (nodup Z.eq_dec (map Z.abs ints)))
         then append self (map (fun z => AN (Lit z)) (sord ints'))
         else Ok (Cst op (-1) (absorbing op)));
       group_single self') = Ok n -> on n).
    { intros op terms HTm E. destruct (def_loop (set_def sord fuel) terms (Seq op 0 []) []) as [[self ints]| |] eqn:ED; try discriminate. cbn [bind] in E. cbv zeta in E.
      assert (OI : forall z, In z (@nil Z) -> Q z) by (intros z []).
      assert (O0 : on (Seq op 0 [])) by (apply on_seq, onl_nil).
      destruct (def_loop_on _ _ _ _ _ _ HTm O0 OI ED) as (O1 & O2).
      match type of E with (do self' <- ?e; _) = _ => destruct e as [s'| |] eqn:ES; try discriminate end. cbn [bind] in E.
      eapply group_single_on; [|exact E]. destruct (Nat.eqb _ _); [|inv ES; apply on_cst].
      eapply append_on; [exact O1| |exact ES]. apply Forall_forall. intros a I. apply in_map_iff in I. destruct I as (z & <- & I). cbn [onarg]. apply on_lit, O2.
      apply (nodup_In Z.eq_dec). eapply Permutation_in; [apply HP|exact I]. }
    assert (PC : forall p, pgood p -> tq (ptree p) -> (forall z, as_integer (ptext p) = Some z -> Q z) /\ (as_integer (ptext p) = None -> forall n, set_def sord fuel (ptext p) = Ok n -> on n)).
    { intros p P1 P2. split.
      - intros z EA. destruct (as_integer_piece p z P1 EA) as (Z1 & Z2). eapply sem_lit; [exact Z1|exact Z2|exact P2].
      - intros _ m. apply IH; auto. }
    destruct (vis x) eqn:EV; cbn [bind] in H.
    - apply FIN in H; auto. intros s I. rewrite split_oterms in I by (auto using nocol_wl, nocol_wr). rewrite !fst_twice, map_map in I.
      apply in_map_iff in I. destruct I as (p & <- & I).
      assert (GP : pgood p). { assert (K : Forall (fun p => pgood p /\ tv (ptree p) = false) (oterms L x R)) by (apply oterms_good; auto; rewrite E1; auto).
        rewrite Forall_forall in K. exact (proj1 (K p I)). }
      destruct (strip_piece p GP) as (p' & -> & G' & _ & _ & NM). apply PC; auto. unfold tq. rewrite NM. intros z Iz. apply HQ. rewrite <- E1. eapply oterms_numbers; eauto.
    - assert (ESC : scan_terms (List.length (twice L ++ rd x ++ twice R)) (twice L ++ rd x ++ twice R) = map (text mcnp) (aterms x)).
      { change (sc (twice L ++ rd x ++ twice R) = map (text mcnp) (aterms x)). rewrite sc_nostarts.
        2:{ apply twice_Forall. eapply Forall_impl; [|exact HL]. intros c [->| ->]; reflexivity. }
        rewrite (sc_render x false); auto.
        - rewrite <- (app_nil_r (twice R)), sc_nostarts; [apply app_nil_r|].
          apply twice_Forall. eapply Forall_impl; [|exact HR]. intros c [->| ->]; reflexivity.
        - rewrite E1; auto.
        - intros _. destruct HR as [|c R' HR1 HR2]; simpl; auto. destruct HR1 as [->| ->]; reflexivity. }
      rewrite ESC in H. apply FIN in H; auto. intros s I. apply in_map_iff in I. destruct I as (u & <- & I).
      assert (GU : grammatical mcnp u).
      { pose proof (aterms_good x false C HGx) as K. rewrite E1 in K. specialize (K HT). rewrite Forall_forall in K. specialize (K u I).
        destruct u as [[] sg ds []|[] t2 []|a a'|a a']; tauto. }
      assert (HQu : pgood ([], u, [])) by (repeat split; auto; try constructor; constructor).
      assert (HQt : ptext ([], u, []) = text mcnp u) by (cbn [ptext app]; apply app_nil_r).
      rewrite <- HQt. apply PC; auto. intros z Iz. apply HQ. rewrite <- E1. eapply aterms_numbers; eauto.
  Qed.
  Lemma parse_on sord s n : perm_order sord -> (exists t, grammatical mcnp t /\ text mcnp t = s /\ forall z, In z (numbers t) -> Q z) -> parse sord s = Ok n -> on n.
  Proof.
    intros HP (t & HT & <- & HQ) H. unfold parse in H.
    assert (HG : pgood ([], t, [])) by (repeat split; auto; try constructor; constructor).
    eapply (set_def_on sord HP (S (List.length (text mcnp t))) ([], t, [])); auto. cbn [ptext app]. rewrite app_nil_r. auto.
  Qed.
End OnT.

(** * Texts *)
Section Uses.
  Variable Q : Z -> Prop.
  Definition uses (s : chars) : Prop := exists t, ok_tree t /\ text mcnp t = s /\ tq Q t.
  Lemma uses_lit z : z <> 0 -> Q z -> uses (str_int z).
  Proof.
    intros H HQ. destruct (lit_tree z H) as (sg & ds & T & E & V). exists (TNum 0 sg ds 0). split; auto. split; auto.
    intros y [<-|[]]. rewrite V. auto.
  Qed.
  Lemma uses_and s s' : uses s -> uses s' -> uses (s ++ cs " " ++ s').
  Proof.
    intros (t & A & <- & B) (u & C & <- & D). exists (TAnd (pad_r 1 t) u). split; [apply and_tree; auto|].
    split; [apply text_and|]. intros z I. cbn [numbers] in I. rewrite numbers_pad_r in I. apply in_app_or in I. destruct I; auto.
  Qed.
  Lemma uses_or k1 k2 s s' : uses s -> uses s' -> uses (cs "(" ++ s ++ blanks k1 ++ cs ":" ++ blanks k2 ++ s' ++ cs ")").
  Proof.
    intros (t & (A & A') & <- & C) (u & (B & B') & <- & D). exists (TPar 0 (TOr (pad_r k1 t) (pad_l k2 u)) 0).
    split; [split; [simpl; auto|]|split].
    - cbn [grammatical]. split; [apply gram_pad_r; auto|apply gram_pad_l; auto].
    - cbn [text or_sign mcnp blanks repeat app]. rewrite text_pad_r, text_pad_l, app_nil_r, <- !app_assoc. reflexivity.
    - intros z I. cbn [numbers] in I. rewrite numbers_pad_r, numbers_pad_l in I. apply in_app_or in I. destruct I; auto.
  Qed.
  Lemma uses_join pc : pc <> [] -> (forall s, In s pc -> uses s) -> uses (join_str (cs " ") pc).
  Proof.
    induction pc as [|s pc IH]; intros NE OK; [congruence|]. destruct pc as [|s2 pc]; [apply OK; left; auto|].
    change (join_str (cs " ") (s :: s2 :: pc)) with (s ++ cs " " ++ join_str (cs " ") (s2 :: pc)).
    apply uses_and; [apply OK; left; auto|]. apply IH; [congruence|intros; apply OK; right; auto].
  Qed.
  Lemma uses_paren es : es <> [] -> (forall s, In s es -> uses s) -> uses (cs "(" ++ join_str (cs ":") es ++ cs ")").
  Proof.
    intros NE OK.
    assert (K : exists t, grammatical mcnp t /\ text mcnp t = join_str (cs ":") es /\ tq Q t).
    { induction es as [|s pc IH]; [congruence|]. destruct (OK s (or_introl eq_refl)) as (t & (T1 & T2) & E & QT).
      destruct pc as [|s2 pc]; [exists t; auto|]. destruct IH as (u & U & EU & QU); [congruence|intros; apply OK; right; auto|].
      exists (TOr t u). split; [split; auto|]. split; [cbn [text or_sign mcnp]; rewrite E, EU; reflexivity|].
      intros z I. cbn [numbers] in I. apply in_app_or in I. destruct I; auto. }
    destruct K as (t & A & B & C). exists (TPar 0 t 0). split; [split; [simpl; auto|auto]|]. split; [|exact C].
    cbn [text blanks repeat app]. rewrite B, app_nil_r. reflexivity.
  Qed.
  Lemma put_extra_uses ex : forall pc, (forall s, In s pc -> uses s) ->
    (forall k es, In (k, es) ex -> es <> [] /\ forall s, In s es -> uses s) ->
    forall s, In s (put_extra ex pc) -> uses s.
  Proof.
    induction ex as [|[k es] ex IH]; intros pc HP HE s I; cbn [put_extra] in I; auto.
    destruct (HE k es (or_introl eq_refl)) as (A & B). assert (HE' : forall k es, In (k, es) ex -> es <> [] /\ forall s, In s es -> uses s) by (intros; eapply HE; right; eauto).
    assert (K : In s (put_extra ex (pc ++ [cs "(" ++ join_str (cs ":") es ++ cs ")"])) -> uses s).
    { intros J. eapply IH; [|exact HE'|exact J]. intros x Ix. apply in_app_or in Ix. destruct Ix as [Ix|[<-|[]]]; auto. apply uses_paren; auto. }
    destruct es as [|e [|e2 es]]; [exact (K I)| |exact (K I)].
    eapply IH; [|exact HE'|exact I]. intros x Ix. apply add_str_In in Ix. destruct Ix as [->|]; auto. apply B. left; auto.
  Qed.
End Uses.
Lemma uses_mono (Q Q' : Z -> Prop) s : (forall z, Q z -> Q' z) -> uses Q s -> uses Q' s.
Proof. intros H (t & A & B & C). exists t. split; auto. split; auto. intros z I. auto. Qed.

