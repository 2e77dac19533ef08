(** Proofs for C51, third part: pieces and cells. *)
From Coq Require Import Ascii String Permutation.
From Verif Require Import Prelude BoolSpec BoolSeq BoolProofs CellText Writers WritersProofs ParenModel LexProofs PropsText
  SurfDict SurfDictProofs CellDef CellDefSpec CellDefProofs CellDefProofs2.

Lemma put_extra_spec ex : forall pc,
  (forall x, In x pc -> ok_str x) -> (forall k es, In (k, es) ex -> es <> [] /\ forall e, In e es -> ok_str e) ->
  (forall x, In x (put_extra ex pc) -> ok_str x) /\
  (forall x, In x pc -> In x (put_extra ex pc)) /\
  (ex = [] -> put_extra ex pc = pc) /\
  (forall v, conj v (put_extra ex pc) <->
     conj v pc /\ forall k es, In (k, es) ex -> exists e, In e es /\ means v e true).
Proof.
  induction ex as [|[k es] ex IH]; intros pc OK OE; cbn [put_extra].
  - split; auto. split; auto. split; auto. intros v. split; [intros H; split; auto; intros ? ? []|tauto].
  - destruct (OE k es (or_introl eq_refl)) as (NE & OES).
    assert (OE' : forall k es, In (k, es) ex -> es <> [] /\ forall e, In e es -> ok_str e) by (intros; eapply OE; right; eauto).
    assert (K : exists x, (match es with [e] => put_extra ex (add_str e pc)
        | _ => put_extra ex (pc ++ [cs "(" ++ join_str (cs ":") es ++ cs ")"]) end = put_extra ex (add_str x pc) \/
        match es with [e] => put_extra ex (add_str e pc)
        | _ => put_extra ex (pc ++ [cs "(" ++ join_str (cs ":") es ++ cs ")"]) end = put_extra ex (pc ++ [x])) /\ ok_str x /\
        forall v, means v x true <-> exists e, In e es /\ means v e true).
    { destruct es as [|e [|e2 es]]; [congruence| |].
      - exists e. split; auto. split; [apply OES; left; auto|]. intros v. split; [intros; exists e; simpl; auto|]. intros (y & [<-|[]] & H); auto.
      - destruct (paren_or (e :: e2 :: es)) as (t & T & E & V); [congruence|auto|].
        exists (cs "(" ++ join_str (cs ":") (e :: e2 :: es) ++ cs ")"). split; auto. split; [exists t; auto|].
        intros v. rewrite <- V. apply means_true. exists t. auto. }
    destruct K as (x & EQ & OX & MX).
    assert (KK : forall pc', (forall y, In y pc' <-> y = x \/ In y pc) ->
      (forall y, In y (put_extra ex pc') -> ok_str y) /\ (forall y, In y pc -> In y (put_extra ex pc')) /\
      (forall v, conj v (put_extra ex pc') <->
        conj v pc /\ forall k' es', In (k', es') ((k, es) :: ex) -> exists e, In e es' /\ means v e true)).
    { intros pc' H. destruct (IH pc') as (A & B & _ & D).
      - intros y I. apply H in I. destruct I as [->|]; auto.
      - auto.
      - split; auto. split; [intros; apply B, H; auto|]. intros v. rewrite D. split.
        + intros (C1 & C2). split; [intros y I; apply C1, H; auto|]. intros k' es' [[= <- <-]|I]; [|eauto]. apply MX, C1, H. auto.
        + intros (C1 & C2). split; [|intros; eapply C2; right; eauto]. intros y I. apply H in I. destruct I as [->|]; auto.
          apply MX. apply (C2 k es). left; auto. }
    destruct EQ as [EQ|EQ].
    + destruct (KK (add_str x pc)) as (A & B & D); [intros; apply add_str_In|].
      rewrite <- EQ in *. destruct es as [|e [|e2 es]]; (split; [exact A|split; [exact B|split; [discriminate|exact D]]]).
    + destruct (KK (pc ++ [x])) as (A & B & D); [intros; rewrite in_app_iff; simpl; intuition|].
      rewrite <- EQ in *. destruct es as [|e [|e2 es]]; (split; [exact A|split; [exact B|split; [discriminate|exact D]]]).
Qed.

Lemma join_ne pc : pc <> [] -> (forall s, In s pc -> ok_str s) -> join_str (cs " ") pc <> [].
Proof.
  intros NE OK E. destruct (join_text pc NE OK) as (t & (_ & T) & X & _). rewrite E in X. exact (text_nonempty t T X).
Qed.

Section Cell.
  Variable G : Type.
  Variable cls : G -> key.
  Variable same : G -> G -> bool.
  Variable opp opp_x : G -> G -> bool.
  Variable P : G -> Prop.
  Variable side : G -> bool.
  Hypothesis FA : faithful cls same opp opp_x P side.
  Variable o : Z.
  Hypothesis HO : 0 <= o.
  Variable d0 : sdict G.
  Notation dok := (dok G cls P o).
  Notation grow := (grow G).
  Notation consistent := (consistent G side).
  Hypothesis D0 : dok d0.
  Variable sord : list Z -> list Z.
  Hypothesis HS : forall l, Permutation (sord l) l.
  Notation number_in := (number_in cls same d0).
  Notation piece_holds := (piece_holds cls side number_in).

  Definition piece_good (p : piece G) : Prop :=
    (forall f, In f (p_faces p) -> found cls same d0 (p_inv p) f /\ kinds_ok cls f /\ forall g, geometry f g -> P g) /\
    groups_ok cls same d0 p.

  Lemma piece_ok p d c : piece_good p -> dok d -> grow d0 d ->
    exists d' c' r, piece_step G cls same opp opp_x sord p d c = Ok (d', c', r) /\ dok d' /\ grow d d' /\
      (forall z, In z c' <-> In z c \/ exists f, In f (p_faces p) /\ is_cone G cls same d0 (p_inv p) f z) /\
      match r with
      | Some n => (exists op lev x l, n = Seq op lev (x :: l)) /\ wf n /\ has_face p /\
                  forall v, consistent v d' -> (eval v n = true <-> piece_holds p)
      | None => ~ has_face p \/ forall v, consistent v d' -> ~ piece_holds p
      end.
  Proof.
    intros (HF & HG) D GR. unfold piece_step. destruct p as [inv FS]. cbn [p_inv p_faces] in *.
    destruct (loop_ok G cls same opp opp_x P side FA o HO d0 D0 inv FS) with (c0 := c) (fs := FS) (pf := @nil (face G)) (s := St d [] [] (-1) c)
      as (s & E & IV & G1).
    - intros; apply HF; auto.
    - intros; apply HF; auto.
    - intros f g I. apply HF; auto.
    - auto.
    - apply init_ok; auto.
    - auto.
    - rewrite E. cbn [bind]. cbn [app] in IV. destruct IV. cbn [s_dict] in G1.
      destruct (put_extra_spec (s_extra s) (s_piece s)) as (OK & SUB & EMP & CJ).
      { auto. }
      { intros k es I. split; [eapply ex_ne; eauto|]. intros e I'.
        destruct (ex_from _ _ _ _ _ _ _ _ _ i_extra _ _ _ I I') as (f & g & q & sg & z & _ & _ & _ & -> & NZ & _).
        eapply means_ok. apply (means_lit (fun _ => true)). auto. }
      set (pc := put_extra (s_extra s) (s_piece s)) in *.
      assert (NF : ~ has_face (Piece inv FS) -> pc = []).
      { intros NF. assert (EX : s_extra s = []).
        { destruct (s_extra s) as [|[k es] ex] eqn:EX; auto. exfalso. destruct es as [|e es].
          - eapply (ex_ne _ _ _ _ _ _ _ _ _ i_extra); [left; eauto|auto].
          - destruct (ex_from _ _ _ _ _ _ _ _ _ i_extra k (e :: es) e) as (f & g & q & sg & z & I & (M & _) & _); simpl; auto.
            apply NF. exists f, true. auto. }
        rewrite EMP by auto. destruct (s_piece s) eqn:EP; auto. exfalso. apply NF. destruct i_face as (f & pos & I & M); [congruence|]. exists f, pos. auto. }
      assert (PH : forall v, consistent v (s_dict s) -> (conj v pc <-> piece_holds (Piece inv FS))).
      { intros v C. rewrite CJ, (i_conj v C). unfold CellDefSpec.piece_holds. cbn [p_inv p_faces]. split; intros (A & B); split; auto.
        - intros f g q sg n I CO NB. destruct (ex_to _ _ _ _ _ _ _ _ _ i_extra _ _ _ _ I CO) as (k & es & z & I1 & NB1 & I2 & _).
          rewrite (number_uniq G cls same _ _ _ _ NB NB1) in *.
          destruct (B _ _ I1) as (e & I3 & ME).
          destruct (ex_from _ _ _ _ _ _ _ _ _ i_extra _ _ _ I1 I3) as (f' & g' & q' & sg' & z' & I4 & CO' & NB' & -> & NZ & V).
          exists f', g', q', sg'. split; auto. split; auto. split; auto. apply (V v C). apply (means_true _ _ _ (means_lit v z' NZ)). auto.
        - intros k es I. pose proof (ex_ne _ _ _ _ _ _ _ _ _ i_extra _ _ I) as NE. destruct es as [|e es]; [congruence|].
          destruct (ex_from _ _ _ _ _ _ _ _ _ i_extra k (e :: es) e I) as (f & g & q & sg & z & I1 & CO & NB & _); [left; auto|].
          destruct (B f g q sg k I1 CO NB) as (f' & g' & q' & sg' & I2 & CO' & NB' & SD).
          destruct (ex_to _ _ _ _ _ _ _ _ _ i_extra _ _ _ _ I2 CO') as (k' & es' & z' & I3 & NB2 & I4 & NZ & V).
          rewrite (number_uniq G cls same _ _ _ _ NB2 NB') in *.
          assert (es' = e :: es).
          { pose proof (ex_keys _ _ _ _ _ _ _ _ _ i_extra) as ND. clear - I I3 ND. revert ND I I3. generalize (s_extra s).
            induction l as [|[a b] l IH]; simpl; intros ND I J; [tauto|]. inversion ND; subst.
            destruct I as [I|I], J as [J|J]; auto.
            - congruence.
            - exfalso. apply H1. injection I as -> _. change k with (fst (k, es')). apply in_map. auto.
            - exfalso. apply H1. injection J as -> _. change k with (fst (k, e :: es)). apply in_map. auto. }
          subst es'. exists (str_int z'). split; auto. apply (means_true _ _ _ (means_lit v z' NZ)). apply (V v C). auto. }
      assert (CC : forall z, In z (s_cones s) <-> In z c \/ exists f, In f FS /\ is_cone G cls same d0 inv f z) by exact i_cones.
      unfold piece_node. destruct pc as [|x0 pc0] eqn:EPC.
      + cbn [join_str bind]. eexists _, _, None. split; [reflexivity|]. split; auto. split; auto. split; auto.
        left. intros (f & pos & I & M). destruct (i_false f pos I M) as (x & v & IX & _). apply SUB in IX. destruct IX.
      + assert (NE : x0 :: pc0 <> []) by congruence.
        assert (HFACE : has_face (Piece inv FS)).
        { destruct i_face as (f & pos & I & M); [|exists f, pos; auto]. intros E0.
          assert (EX : s_extra s <> []). { intros E1. specialize (EMP E1). congruence. }
          destruct (s_extra s) as [|[k es] ex] eqn:EX'; [congruence|]. destruct es as [|e es].
          - eapply (ex_ne _ _ _ _ _ _ _ _ _ i_extra); [left; eauto|auto].
          - destruct (ex_from _ _ _ _ _ _ _ _ _ i_extra k (e :: es) e) as (f & g & q & sg & z & I & (M & _) & _); simpl; auto.
            destruct (i_false f true I M) as (x & v & IX & _). rewrite E0 in IX. destruct IX. }
        destruct (join_text (x0 :: pc0) NE OK) as (t & (TO & TG) & TX & TV).
        destruct (C07_parse sord (join_str (cs " ") (x0 :: pc0)) (fun v => sem v t) HS) as (n & EP & SQ & W & EV); [exists t; auto|].
        pose proof (join_ne _ NE OK) as JN.
        assert (NV : forall v, eval v n = true <-> conj v (x0 :: pc0)) by (intros v; rewrite EV; apply TV).
        assert (FALS : exists v, eval v n = false).
        { destruct HFACE as (f & pos & I & M). destruct (i_false f pos I M) as (x & v & IX & MF). exists v.
          destruct (eval v n) eqn:EE; auto. exfalso. apply NV in EE. specialize (EE x (SUB _ IX)).
          pose proof (means_uniq _ _ _ _ EE MF). discriminate. }
        assert (KEY : (match n with Cst _ _ b => if b then Some n else None | Seq _ _ [] => None | _ => Some n end = Some n /\ exists op lev x l, n = Seq op lev (x :: l)) \/
                      (match n with Cst _ _ b => if b then Some n else None | Seq _ _ [] => None | _ => Some n end = None /\ forall v, eval v n = false)).
        { destruct FALS as (v0 & F0). destruct n as [z|op lv b|op lv [|x l]].
          - destruct SQ.
          - simpl in F0. subst b. right. split; auto.
          - right. split; auto.
          - left. split; eauto 10. }
        destruct (join_str (cs " ") (x0 :: pc0)) as [|c1 r1] eqn:EJ; [congruence|]. rewrite EP. cbn [bind].
        destruct KEY as [(-> & SH)|(-> & FV)].
        * eexists _, _, _. split; [reflexivity|]. split; auto. split; auto. split; auto. split; auto. split; auto. split; auto.
          intros v C. rewrite NV. apply PH; auto.
        * eexists _, _, _. split; [reflexivity|]. split; auto. split; auto. split; auto. right. intros v C H.
          apply (PH v C) in H. apply NV in H. rewrite FV in H. discriminate.
  Qed.

  Lemma cell_ok c : forall ps d lev l kept, (forall p, In p ps -> piece_good p) -> dok d -> grow d0 d ->
    exists d' bs lev' ns c', length bs = length ps /\
      cell_loop G cls same opp opp_x sord ps d (Seq OR lev l) kept c =
        Ok (d', kept ++ map fst (filter snd (combine ps bs)), Seq OR lev' (l ++ ns), c') /\ dok d' /\ grow d d' /\
      (forall z, In z c' <-> In z c \/ exists p f, In p ps /\ In f (p_faces p) /\ is_cone G cls same d0 (p_inv p) f z) /\
      (forall p, In (p, false) (combine ps bs) -> ~ has_face p \/ forall v, consistent v d' -> ~ piece_holds p) /\
      Forall2 (fun p n => has_face p /\ wf n /\ (exists op lv x l, n = Seq op lv (x :: l)) /\
                 forall v, consistent v d' -> (eval v n = true <-> piece_holds p))
              (map fst (filter snd (combine ps bs))) ns /\
      (0 <= lev -> (l <> [] -> 0 < lev) -> 0 <= lev' /\ (l ++ ns <> [] -> 0 < lev')).
  Proof.
    intros ps. revert c. induction ps as [|p ps IH]; intros c d lev l kept HP D GR; cbn [cell_loop].
    - exists d, [], lev, [], c. split; auto. cbn [combine filter map]. rewrite !app_nil_r. split; auto. split; auto. split; [apply grow_refl|].
      split; [|split; [intros ? []|split; [constructor|auto]]]. intros z. split; auto. intros [?|(p & f & [] & _)]; auto.
    - destruct (piece_ok p d c) as (d1 & c1 & r & E & D1 & G1 & CN & R); auto; [apply HP; left; auto|].
      rewrite E. cbn [bind]. assert (G01 : grow d0 d1) by (eapply grow_trans; eauto). destruct r as [n|].
      + destruct R as ((op & lv & x & l0 & ->) & W & HH & V).
        cbn [append append_loop bind].
        destruct (IH c1 d1 (Z.max lev (lv + 1)) (l ++ [Seq op lv (x :: l0)]) (kept ++ [p])) as (d2 & bs & lev2 & ns & c2 & LB & EC & D2 & G2 & CN2 & DR & F2 & LV); auto;
          [intros; apply HP; right; auto|].
        exists d2, (true :: bs), lev2, (Seq op lv (x :: l0) :: ns), c2. split; [simpl; congruence|].
        cbn [combine filter map snd fst]. rewrite EC, <- !app_assoc. cbn [app]. split; auto. split; auto. split; [eapply grow_trans; eauto|].
        split; [|split; [|split]].
        * intros z. rewrite CN2, CN. split.
          { intros [[?|(f & I & R)]|(p' & f & I & R)]; auto; right; [exists p, f|exists p', f]; simpl; auto. }
          { intros [?|(p' & f & [<-|I] & R)]; auto; [left; right; exists f|right; exists p', f]; auto. }
        * intros p' [[=]|I]; auto.
        * constructor; auto. split; auto. split; auto. split; eauto 10. intros v C. apply V. eapply grow_cons; eauto.
        * intros L0 L1. rewrite <- app_assoc in LV. apply wf_seq in W. destruct W as (W & _). apply LV; lia.
      + destruct (IH c1 d1 lev l kept) as (d2 & bs & lev2 & ns & c2 & LB & EC & D2 & G2 & CN2 & DR & F2 & LV); auto;
          [intros; apply HP; right; auto|].
        exists d2, (false :: bs), lev2, ns, c2. split; [simpl; congruence|].
        cbn [combine filter map snd fst]. rewrite EC. split; auto. split; auto. split; [eapply grow_trans; eauto|].
        split; [|split; [|split]].
        * intros z. rewrite CN2, CN. split.
          { intros [[?|(f & I & R')]|(p' & f & I & R')]; auto; right; [exists p, f|exists p', f]; simpl; auto. }
          { intros [?|(p' & f & [<-|I] & R')]; auto; [left; right; exists f|right; exists p', f]; auto. }
        * intros p' [[= <-]|I]; auto. destruct R as [?|R]; auto. right. intros v C. apply (R v). eapply grow_cons; eauto.
        * auto.
        * auto.
  Qed.
End Cell.
