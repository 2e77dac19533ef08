(** The definition made from the faces of a solid: its surfaces are registered. *)
From Coq Require Import Ascii String Permutation.
From Verif Require Import Prelude BoolSpec BoolSeq BoolProofs CellText Writers WritersProofs ParenModel PropsText
  SurfDict SurfDictProofs CellDef CellDefSpec CellDefProofs CellDefProofs2 CellDefProofs3 BoolProofs2 ParseProofs OnProofs OnProofs2 OnText.

(** * Texts *)
Section Uses.
  Variable Q : Z -> Prop.
  Definition uses (s : chars) : Prop := exists t, ok_tree t /\ text mcnp t = s /\ tq Q t.
  Lemma uses_lit z : z <> 0 -> Q (Z.abs z) -> uses (str_int z).
  Proof.
    intros H HQ. destruct (lit_tree z H) as (sg & ds & T & E & V). exists (TNum 0 sg ds 0). split; auto. split; auto.
    intros y [<-|[]]. rewrite V. auto.
  Qed.
  Lemma uses_and s s' : uses s -> uses s' -> uses (s ++ cs " " ++ s').
  Proof.
    intros (t & A & <- & B) (u & C & <- & D). exists (TAnd (pad_r 1 t) u). split; [apply and_tree; auto|].
    split; [apply text_and|]. intros z I. cbn [numbers] in I. rewrite numbers_pad_r in I. apply in_app_or in I. destruct I; auto.
  Qed.
  Lemma uses_or k1 k2 s s' : uses s -> uses s' -> uses (cs "(" ++ s ++ blanks k1 ++ cs ":" ++ blanks k2 ++ s' ++ cs ")").
  Proof.
    intros (t & (A & A') & <- & C) (u & (B & B') & <- & D). exists (TPar 0 (TOr (pad_r k1 t) (pad_l k2 u)) 0).
    split; [split; [simpl; auto|]|split].
    - cbn [grammatical]. split; [apply gram_pad_r; auto|apply gram_pad_l; auto].
    - cbn [text or_sign mcnp blanks repeat app]. rewrite text_pad_r, text_pad_l, app_nil_r, <- !app_assoc. reflexivity.
    - intros z I. cbn [numbers] in I. rewrite numbers_pad_r, numbers_pad_l in I. apply in_app_or in I. destruct I; auto.
  Qed.
  Lemma uses_join pc : pc <> [] -> (forall s, In s pc -> uses s) -> uses (join_str (cs " ") pc).
  Proof.
    induction pc as [|s pc IH]; intros NE OK; [congruence|]. destruct pc as [|s2 pc]; [apply OK; left; auto|].
    change (join_str (cs " ") (s :: s2 :: pc)) with (s ++ cs " " ++ join_str (cs " ") (s2 :: pc)).
    apply uses_and; [apply OK; left; auto|]. apply IH; [congruence|intros; apply OK; right; auto].
  Qed.
  Lemma uses_paren es : es <> [] -> (forall s, In s es -> uses s) -> uses (cs "(" ++ join_str (cs ":") es ++ cs ")").
  Proof.
    intros NE OK.
    assert (K : exists t, grammatical mcnp t /\ text mcnp t = join_str (cs ":") es /\ tq Q t).
    { induction es as [|s pc IH]; [congruence|]. destruct (OK s (or_introl eq_refl)) as (t & (T1 & T2) & E & QT).
      destruct pc as [|s2 pc]; [exists t; auto|]. destruct IH as (u & U & EU & QU); [congruence|intros; apply OK; right; auto|].
      exists (TOr t u). split; [split; auto|]. split; [cbn [text or_sign mcnp]; rewrite E, EU; reflexivity|].
      intros z I. cbn [numbers] in I. apply in_app_or in I. destruct I; auto. }
    destruct K as (t & A & B & C). exists (TPar 0 t 0). split; [split; [simpl; auto|auto]|]. split; [|exact C].
    cbn [text blanks repeat app]. rewrite B, app_nil_r. reflexivity.
  Qed.
  Lemma put_extra_uses ex : forall pc, (forall s, In s pc -> uses s) ->
    (forall k es, In (k, es) ex -> es <> [] /\ forall s, In s es -> uses s) ->
    forall s, In s (put_extra ex pc) -> uses s.
  Proof.
    induction ex as [|[k es] ex IH]; intros pc HP HE s I; cbn [put_extra] in I; auto.
    destruct (HE k es (or_introl eq_refl)) as (A & B). assert (HE' : forall k es, In (k, es) ex -> es <> [] /\ forall s, In s es -> uses s) by (intros; eapply HE; right; eauto).
    assert (K : In s (put_extra ex (pc ++ [cs "(" ++ join_str (cs ":") es ++ cs ")"])) -> uses s).
    { intros J. eapply IH; [|exact HE'|exact J]. intros x Ix. apply in_app_or in Ix. destruct Ix as [Ix|[<-|[]]]; auto. apply uses_paren; auto. }
    destruct es as [|e [|e2 es]]; [exact (K I)| |exact (K I)].
    eapply IH; [|exact HE'|exact I]. intros x Ix. apply add_str_In in Ix. destruct Ix as [->|]; auto. apply B. left; auto.
  Qed.
End Uses.
Lemma uses_mono (Q Q' : Z -> Prop) s : (forall z, Q z -> Q' z) -> uses Q s -> uses Q' s.
Proof. intros H (t & A & B & C). exists t. split; auto. split; auto. intros z I. auto. Qed.

(** * Faces *)
Section Cell.
  Variable G : Type.
  Variable cls : G -> key.
  Variable same : G -> G -> bool.
  Variable opp opp_x : G -> G -> bool.
  Variable P : G -> Prop.
  Variable o : Z.
  Hypothesis HO : 0 <= o.
  Notation dok := (dok G cls P o).
  Notation grow := (grow G).
  Definition num (d : sdict G) (i : Z) : Prop := exists s, registered_in d s /\ index s = i.

  Lemma num_grow d d' i : grow d d' -> num d i -> num d' i.
  Proof. intros GR (s & R & E). exists s. split; auto. eapply grow_reg; eauto. Qed.
  Lemma uses_grow d d' s : grow d d' -> uses (num d) s -> uses (num d') s.
  Proof. intros GR. apply uses_mono. intros z. apply num_grow; auto. Qed.
  Lemma num_pos d i : dok d -> num d i -> 0 < i.
  Proof. intros D (s & R & <-). eapply (reg_pos G cls P o HO); eauto. Qed.

  Lemma add_num g d d' id b : dok d -> P g -> add G cls same g d = (d', (id, b)) -> dok d' /\ grow d d' /\ num d' id.
  Proof.
    intros D PG E. destruct (add_ok G cls same P o HO g d D PG) as (d1 & s & b1 & E1 & D1 & GR & IN & _).
    rewrite E in E1. injection E1 as -> -> ->. split; auto. split; auto. exists s. split; auto. exists (cls g). auto.
  Qed.
  Lemma get_num id d d' r : dok d -> get_surface id d = Ok (d', Some r) -> num d id -> dok d' /\ grow d d' .
  Proof.
    intros D E (s & R & <-). destruct (get_reg G cls P o d s D R) as (d1 & E1 & D1 & G1 & _). rewrite E in E1. inversion E1; subst. auto.
  Qed.
  Lemma add_signed_num op g d d' z : dok d -> P g -> add_signed G cls same op g d = Ok (d', z) -> dok d' /\ grow d d' /\ num d' (Z.abs z).
  Proof.
    intros D PG H. unfold add_signed in H. destruct (add G cls same g d) as (d1 & id & b) eqn:E.
    destruct (add_num g d d1 id b D PG E) as (D1 & G1 & N1). pose proof (num_pos _ _ D1 N1). destruct b.
    - destruct (get_surface id d1) as [[d2 r]| |] eqn:EG; try discriminate. cbn [bind] in H. destruct r as [r|]; [|discriminate].
      injection H as <- <-. destruct (get_num id d1 d2 r D1 EG N1) as (D2 & G2). split; auto. split; [eapply grow_trans; eauto|].
      eapply num_grow; [exact G2|]. replace (Z.abs (if op g (geo r) then - id else id)) with id; auto. destruct (op _ _); lia.
    - injection H as <- <-. split; auto. split; auto. replace (Z.abs id) with id by lia. auto.
  Qed.
  Lemma num_in d g n : number_in cls same d g n -> num d n.
  Proof. intros (l1 & s & l2 & E & _ & <- & _). exists s. split; auto. exists (cls g). rewrite E. apply in_or_app. right; left; auto. Qed.

  Variable d0 : sdict G.
  Hypothesis D0 : dok d0.
  Record sok (s : st G) : Prop := {
    k_dict : dok (s_dict s);
    k_grow : grow d0 (s_dict s);
    k_piece : forall x, In x (s_piece s) -> uses (num (s_dict s)) x;
    k_extra : forall k es, In (k, es) (s_extra s) -> es <> [] /\ forall x, In x es -> uses (num (s_dict s)) x }.

  Lemma id_num d g : dok d -> get_id G cls same g d <> 0 -> num d (get_id G cls same g d) /\ 0 < get_id G cls same g d.
  Proof.
    intros D H. destruct (get_id_spec G cls same P o d g D) as [(n & N)|E]; [|congruence].
    rewrite (get_id_number G cls same d g n N). assert (num d n) by (eapply num_in; eauto). split; auto. eapply num_pos; eauto.
  Qed.
  Lemma lit_uses d i z : dok d -> num d i -> Z.abs z = i -> uses (num d) (str_int z).
  Proof. intros D N E. pose proof (num_pos _ _ D N). apply uses_lit; [lia|]. rewrite E. auto. Qed.

  (** growing a state by one text *)
  Lemma sok_grow s d : sok s -> dok d -> grow (s_dict s) d -> sok (St d (s_piece s) (s_extra s) (s_last s) (s_cones s)).
  Proof.
    intros [A B C E] D GR. constructor; cbn [s_dict s_piece s_extra]; auto.
    - eapply grow_trans; eauto.
    - intros x I. eapply uses_grow; eauto.
    - intros k es I. destruct (E k es I) as (F & H). split; auto. intros x J. eapply uses_grow; eauto.
  Qed.
  Lemma sok_put s x la co : sok s -> uses (num (s_dict s)) x -> sok (St (s_dict s) (add_str x (s_piece s)) (s_extra s) la co).
  Proof.
    intros [A B C E] U. constructor; cbn [s_dict s_piece s_extra]; auto. intros y I. apply add_str_In in I. destruct I as [->|]; auto.
  Qed.
  Lemma add_extra_in k x l : forall k' es, In (k', es) (add_extra k x l) -> In (k', es) l \/ (forall e, In e es -> e = x \/ exists k1 es1, In (k1, es1) l /\ In e es1) /\ es <> [].
  Proof.
    induction l as [|[k1 e1] l IH]; intros k' es I; cbn [add_extra] in I.
    - destruct I as [[= <- <-]|[]]. right. split; [|congruence]. intros e [<-|[]]. auto.
    - destruct (k1 =? k).
      + destruct I as [[= <- <-]|I]; [|left; right; auto]. right. split; [|apply add_str_ne]. intros e Ie. apply add_str_In in Ie. destruct Ie as [->|Ie]; auto.
        right. exists k1, e1. split; auto. left; auto.
      + destruct I as [[= <- <-]|I]; [left; left; auto|]. destruct (IH _ _ I) as [J|(J & NE)]; [left; right; auto|]. right. split; auto.
        intros e Ie. destruct (J e Ie) as [->|(k2 & e2 & X & Y)]; auto. right. exists k2, e2. split; auto. right; auto.
  Qed.
  Lemma sok_extra s k x : sok s -> uses (num (s_dict s)) x -> sok (St (s_dict s) (s_piece s) (add_extra k x (s_extra s)) (s_last s) (s_cones s)).
  Proof.
    intros [A B C E] U. constructor; cbn [s_dict s_piece s_extra]; auto. intros k' es I. destruct (add_extra_in _ _ _ _ _ I) as [J|(J & NE)]; [exact (E _ _ J)|].
    split; auto. intros e Ie. destruct (J e Ie) as [->|(k1 & e1 & X & Y)]; auto. eapply E; eauto.
  Qed.

  Lemma torus_u_num u d d' x : dok d -> (forall p q, u = Some (p, q) -> P p /\ forall q', q = Some q' -> P q') ->
    torus_u G cls same opp u d = Ok (d', x) -> dok d' /\ grow d d' /\ forall d2 w, dok d2 -> grow d' d2 -> uses (num d2) w -> uses (num d2) (w ++ x).
  Proof.
    intros D HU H. destruct u as [[p [q|]]|]; cbn [torus_u] in H.
    - destruct (HU _ _ eq_refl) as (P1 & HQ). specialize (HQ _ eq_refl).
      destruct (add_signed G cls same opp p d) as [[d1 z1]| |] eqn:E1; try discriminate. cbn [bind] in H.
      destruct (add_signed_num _ _ _ _ _ D P1 E1) as (D1 & G1 & N1).
      destruct (add_signed G cls same opp q d1) as [[d2 z2]| |] eqn:E2; try discriminate. cbn [bind] in H. injection H as <- <-.
      destruct (add_signed_num _ _ _ _ _ D1 HQ E2) as (D2 & G2 & N2).
      split; auto. split; [eapply grow_trans; eauto|]. intros d3 w D3 G3 U.
      assert (U1 : uses (num d3) (str_int z1)) by (eapply lit_uses; [exact D3|eapply num_grow; [exact G3|eapply num_grow; [exact G2|exact N1]]|auto]).
      assert (U2 : uses (num d3) (str_int z2)) by (eapply lit_uses; [exact D3|eapply num_grow; [exact G3|exact N2]|auto]).
      pose proof (uses_and _ _ _ U (uses_or _ 1 1 _ _ U1 U2)) as J. cbn [cs list_ascii_of_string blanks repeat app] in *. rewrite <- ?app_assoc in *. exact J.
    - destruct (HU _ _ eq_refl) as (P1 & _). destruct (add_signed G cls same opp p d) as [[d1 z1]| |] eqn:E1; try discriminate. cbn [bind] in H. injection H as <- <-.
      destruct (add_signed_num _ _ _ _ _ D P1 E1) as (D1 & G1 & N1). split; auto. split; auto. intros d2 w D2 G2 U.
      apply (uses_and _ w (str_int z1)); auto. eapply lit_uses; [exact D2|eapply num_grow; [exact G2|exact N1]|auto].
    - injection H as <- <-. split; auto. split; [apply grow_refl|]. intros d2 w _ _ U. rewrite app_nil_r. auto.
  Qed.
  Lemma torus_v_num or i tv d d' x : dok d -> num d i -> (forall a ins, tv = Some (a, ins) -> P a) ->
    torus_v G cls same opp or i tv d = Ok (d', x) -> dok d' /\ grow d d' /\ uses (num d') x.
  Proof.
    intros D N HA H. pose proof (num_pos _ _ D N) as NP.
    assert (FW : Ok (d, cs "-" ++ str_int i) = Ok (d', x) -> dok d' /\ grow d d' /\ uses (num d') x).
    { intros EE. assert (X : x = cs "-" ++ str_int i /\ d' = d) by (split; congruence). destruct X as (-> & ->). split; auto. split; [apply grow_refl|]. rewrite str_neg by auto. eapply lit_uses; eauto. lia. }
    assert (RV : match tv with
        | None => Ok (d, str_int i)
        | Some (a, ins) =>
            do (d1, id2) <- (if is_plane (cls a) then add_signed G cls same opp a d
                             else let '(d1, (id2, _)) := add G cls same a d in Ok (d1, id2));
            Ok (d1, str_int i ++ cs " " ++ str_int (if (ins : bool) then - id2 else id2))
        end = Ok (d', x) -> dok d' /\ grow d d' /\ uses (num d') x).
    { clear H FW. intros H. destruct tv as [[a ins]|].
      - specialize (HA _ _ eq_refl).
        match type of H with (do (d1, id2) <- ?e; _) = _ => destruct e as [[d1 id2]| |] eqn:E1; try discriminate end. cbn [bind] in H. injection H as <- <-.
        assert (K : dok d1 /\ grow d d1 /\ num d1 (Z.abs id2)).
        { destruct (is_plane (cls a)); [eapply add_signed_num; eauto|]. destruct (add G cls same a d) as (d2 & id & b) eqn:E. injection E1 as -> ->.
          destruct (add_num _ _ _ _ _ D HA E) as (D2 & G2 & N2). split; auto. split; auto. pose proof (num_pos _ _ D2 N2). replace (Z.abs id2) with id2 by lia. auto. }
        destruct K as (D1 & G1 & N1). split; auto. split; auto. apply uses_and; [eapply lit_uses; [exact D1|eapply num_grow; eauto|lia]|].
        eapply lit_uses; [exact D1|exact N1|]. destruct ins; lia.
      - injection H as <- <-. split; auto. split; [apply grow_refl|]. eapply lit_uses; eauto. lia. }
    destruct or; [exact (FW H)|exact (RV H)|exact (RV H)].
  Qed.

  Lemma other_num oo g s s' : sok s -> P g -> plane cls g \/ cls g = Cyl \/ num (s_dict s) (get_id G cls same g (s_dict s)) ->
    other_step G cls same opp oo g s = Ok s' -> sok s'.
  Proof.
    intros K PG NB E. pose proof K as [KD KG KP KE]. unfold other_step in E. cbv zeta in E.
    match type of E with (let '(d, id) := ?e in _) = _ => assert (R : exists d1 id1, e = (d1, id1) /\ dok d1 /\ grow (s_dict s) d1 /\ num d1 id1) end.
    { destruct (Z.eqb_spec (get_id G cls same g (s_dict s)) 0) as [Z0|NZ].
      - assert (AD : exists d1 id1, (let '(d1, (ix, _)) := add G cls same g (s_dict s) in (d1, ix)) = (d1, id1) /\ dok d1 /\ grow (s_dict s) d1 /\ num d1 id1).
        { destruct (add G cls same g (s_dict s)) as (d1 & ix & b) eqn:EA. destruct (add_num _ _ _ _ _ KD PG EA) as (X & Y & W). exists d1, ix. auto. }
        destruct NB as [PL|[CY|NN]].
        + destruct PL as [PL|[PL|[PL|PL]]]; rewrite PL in *; exact AD.
        + rewrite CY in *. exact AD.
        + exfalso. rewrite Z0 in NN. pose proof (num_pos _ _ KD NN). lia.
      - exists (s_dict s), (get_id G cls same g (s_dict s)). split; auto. split; auto. split; [apply grow_refl|]. apply id_num; auto. }
    destruct R as (d1 & id1 & RE & D1 & G1 & N1). rewrite RE in E. clear RE. pose proof (num_pos _ _ D1 N1) as NP.
    match type of E with (do (d, var) <- ?e; _) = _ => destruct e as [[d2 var]| |] eqn:EV; try discriminate end. cbn [bind] in E. inv E.
    assert (V : dok d2 /\ grow d1 d2 /\ Z.abs var = id1).
    { destruct (is_plane (cls g)).
      - destruct (get_surface id1 d1) as [[d3 r]| |] eqn:EGS; try discriminate. cbn [bind] in EV. destruct r as [r|]; [|discriminate].
        destruct (get_num _ _ _ _ D1 EGS N1) as (D3 & G3). injection EV as <- <-. split; auto. split; auto. destruct (opp g (geo r)), oo; lia.
      - injection EV as <- <-. split; auto. split; [apply grow_refl|]. destruct oo; lia. }
    destruct V as (D2 & G2 & EV2).
    assert (K2 : sok (St d2 (s_piece s) (s_extra s) (s_last s) (s_cones s))) by (apply sok_grow; auto; eapply grow_trans; eauto).
    assert (U2 : uses (num d2) (str_int var)) by (eapply lit_uses; [exact D2|eapply num_grow; eauto|exact EV2]).
    exact (sok_put _ _ _ _ K2 U2).
  Qed.
  Lemma curved_num f g s s' : sok s -> (forall p sg, f_extra f = Some (p, sg) -> P p) -> num (s_dict s) (get_id G cls same g (s_dict s)) ->
    curved_step G cls same opp_x f g s = Ok s' -> sok s'.
  Proof.
    intros K HP NN E. pose proof K as [KD KG KP KE]. unfold curved_step in E. cbv zeta in E. pose proof (num_pos _ _ KD NN) as NP.
    assert (U1 : uses (num (s_dict s)) (str_int (get_id G cls same g (s_dict s)))) by (eapply lit_uses; [exact KD|exact NN|lia]).
    destruct (f_extra f) as [[p sg]|] eqn:EX; [|injection E as <-; exact (sok_put _ _ _ _ K U1)].
    destruct (add_signed G cls same opp_x p (s_dict s)) as [[d1 id]| |] eqn:E1; try discriminate. cbn [bind] in E. injection E as <-.
    destruct (add_signed_num _ _ _ _ _ KD (HP _ _ eq_refl) E1) as (D1 & G1 & N1).
    pose proof (sok_grow _ _ (sok_put _ _ (s_last s) (s_cones s) K U1) D1 G1) as K1.
    assert (U2 : uses (num d1) (str_int (if sg then id else - id))) by (eapply lit_uses; [exact D1|exact N1|destruct sg; lia]).
    pose proof (sok_extra _ (get_id G cls same g (s_dict s)) _ K1 U2) as [X1 X2 X3 X4]. constructor; auto.
  Qed.
  Lemma torus_num oo f g s s' : sok s -> (forall g, geometry f g -> P g) -> num (s_dict s) (get_id G cls same g (s_dict s)) ->
    torus_step G cls same opp oo f g s = Ok s' -> sok s'.
  Proof.
    intros K HP NN E. pose proof K as [KD KG KP KE]. unfold torus_step in E. cbv zeta in E.
    destruct (t_aligned (f_torus f)); [|injection E as <-; auto]. destruct (_ =? s_last s); [injection E as <-; auto|].
    destruct (torus_u G cls same opp (t_u (f_torus f)) (s_dict s)) as [[d1 u]| |] eqn:EU; try discriminate. cbn [bind] in E.
    apply torus_u_num in EU; auto.
    2:{ intros p q EQ. split; [apply HP; right; right; left; eauto|]. intros q' ->. apply HP. right; right; right; left. eauto. }
    destruct EU as (D1 & G1 & UW).
    match type of E with (do (d2, v_var) <- ?e; _) = _ => destruct e as [[d2 v]| |] eqn:EV; try discriminate end. cbn [bind] in E. injection E as <-.
    apply torus_v_num in EV; auto.
    2:{ eapply num_grow; eauto. }
    2:{ intros a ins EQ. apply HP. right; right; right; right. eauto. }
    destruct EV as (D2 & G2 & UV). specialize (UW d2 v D2 G2 UV).
    assert (K2 : sok (St d2 (s_piece s) (s_extra s) (s_last s) (s_cones s))) by (apply sok_grow; auto; eapply grow_trans; eauto).
    exact (sok_put _ _ _ _ K2 UW).
  Qed.

  Lemma face_num inv f s s' : sok s -> found cls same d0 inv f -> (forall g, geometry f g -> P g) ->
    face_step G cls same opp opp_x inv f s = Ok s' -> sok s'.
  Proof.
    intros K FD HP H. pose proof K as [KD KG KP KE]. unfold face_step in H. destruct (f_small f) eqn:SM; [injection H as <-; auto|].
    assert (ST : forall oo pos, matter inv f pos -> (oo = Reversed -> pos = true) ->
      match f_geo f with
        | None => Ok (St (s_dict s) (add_str (str_int 0) (s_piece s)) (s_extra s) (s_last s) (s_cones s))
        | Some g =>
            match cls g, oo with
            | Tor, _ => torus_step G cls same opp oo f g s
            | Cyl, Reversed | Cone, Reversed | Sph, Reversed => curved_step G cls same opp_x f g s
            | _, _ => other_step G cls same opp oo g s
            end
        end = Ok s' -> sok s').
    { clear H. intros oo pos M OP H. destruct (FD pos M) as (g & EG & NUM & _). rewrite EG in H.
      assert (PG : P g) by (apply HP; left; auto).
      assert (NB : plane cls g \/ cls g = Cyl /\ pos = false \/ num (s_dict s) (get_id G cls same g (s_dict s))).
      { destruct NUM as [?|[?|(n & N)]]; auto. right; right. pose proof (number_grow G cls same _ _ _ _ KG N) as N'.
        rewrite (get_id_number G cls same _ _ _ N'). eapply num_in; eauto. }
      assert (OT : other_step G cls same opp oo g s = Ok s' -> sok s') by (apply other_num; auto; tauto).
      assert (HX : forall p sg, f_extra f = Some (p, sg) -> P p) by (intros p sg E; apply HP; right; left; eauto).
      unfold plane in NB. destruct (cls g) eqn:CG; try (exact (OT H));
        try (destruct oo; try (exact (OT H)); specialize (OP eq_refl); subst pos; eapply curved_num; eauto; intuition discriminate);
        try (eapply torus_num; eauto; intuition discriminate). }
    destruct (f_orient f) eqn:FO; [| |injection H as <-; auto]; cbv zeta in H.
    - apply (ST _ inv) in H; auto; [unfold matter; rewrite SM, FO; auto|]. destruct inv; auto; discriminate.
    - apply (ST _ (negb inv)) in H; auto; [unfold matter; rewrite SM, FO; auto|]. destruct inv; auto; discriminate.
  Qed.
  Lemma face_loop_num inv fs : forall s s', sok s -> (forall f, In f fs -> found cls same d0 inv f /\ forall g, geometry f g -> P g) ->
    face_loop G cls same opp opp_x inv fs s = Ok s' -> sok s'.
  Proof.
    induction fs as [|f fs IH]; intros s s' K HF H; cbn [face_loop] in H; [injection H as <-; auto|].
    destruct (face_step G cls same opp opp_x inv f s) as [s1| |] eqn:E; try discriminate. cbn [bind] in H.
    destruct (HF f (or_introl eq_refl)) as (A & B). eapply IH; [|intros f' I'; apply HF; right; auto|exact H]. eapply face_num; eauto.
  Qed.

  Lemma on_grow d d' n : grow d d' -> on (num d) n -> on (num d') n.
  Proof. intros GR H z I. eapply num_grow; eauto. Qed.
End Cell.

Section Cells.
  Variable G : Type.
  Variable cls : G -> key.
  Variable same : G -> G -> bool.
  Variable opp opp_x : G -> G -> bool.
  Variable P : G -> Prop.
  Variable o : Z.
  Hypothesis HO : 0 <= o.
  Notation dok := (dok G cls P o).
  Notation grow := (grow G).
  Variable sord : list Z -> list Z.
  Hypothesis HS : perm_order sord.

  Lemma found_grow d d' inv f : grow d d' -> found cls same d inv f -> found cls same d' inv f.
  Proof.
    intros GR H pos M. destruct (H pos M) as (g & A & B & C). exists g. split; auto. split; auto.
    destruct B as [B|[B|(n & B)]]; auto. right; right. exists n. eapply number_grow; eauto.
  Qed.
  Definition faces_ok (d : sdict G) (p : piece G) : Prop :=
    forall f, In f (p_faces p) -> found cls same d (p_inv p) f /\ forall g, geometry f g -> P g.
  Lemma put_extra_ne ex : forall pc, pc <> [] -> put_extra ex pc <> [].
  Proof.
    induction ex as [|[k es] ex IH]; intros pc NE; cbn [put_extra]; auto.
    assert (A : forall x, pc ++ [x] <> []) by (intros x E; apply app_eq_nil in E; destruct E; discriminate).
    destruct es as [|e [|e2 es]]; apply IH; auto. apply add_str_ne.
  Qed.
  Lemma piece_node_on (Q : Z -> Prop) pc n : (forall s, In s pc -> uses Q s) -> piece_node sord pc = Ok (Some n) -> on Q n.
  Proof.
    intros U H. unfold piece_node in H. destruct pc as [|x pc]; [discriminate|].
    assert (US : uses Q (join_str (cs " ") (x :: pc))) by (apply uses_join; auto; congruence).
    destruct (join_str (cs " ") (x :: pc)) as [|a t]; [discriminate|].
    destruct (parse sord (a :: t)) as [m| |] eqn:E; try discriminate. cbn [bind] in H.
    destruct US as (tr & (T1 & T2) & TE & TQ). assert (O : on Q m) by (eapply parse_on; [exact HS|exists tr; eauto|exact E]).
    destruct m as [z|o1 lv b|o1 lv [|]]; try destruct b; try discriminate; injection H as <-; auto.
  Qed.
  Lemma piece_num p d c d' c' r : dok d -> faces_ok d p ->
    piece_step G cls same opp opp_x sord p d c = Ok (d', c', r) -> dok d' /\ grow d d' /\ match r with Some n => on (num G d') n | None => True end.
  Proof.
    intros D HF H. unfold piece_step in H.
    destruct (face_loop G cls same opp opp_x (p_inv p) (p_faces p) (St d [] [] (-1) c)) as [s| |] eqn:E; try discriminate. cbn [bind] in H.
    assert (K0 : sok G cls P o d (St d [] [] (-1) c)) by (constructor; cbn; auto; [apply grow_refl|intros ? []|intros ? ? []]).
    assert (K1 : sok G cls P o d s) by (eapply face_loop_num; eauto). destruct K1 as [KD KG KP KE].
    destruct (piece_node sord (put_extra (s_extra s) (s_piece s))) as [n| |] eqn:EN; try discriminate. cbn [bind] in H. injection H as <- <- <-.
    split; auto. split; auto. destruct n as [n|]; auto. eapply piece_node_on; [|exact EN]. apply put_extra_uses; auto.
  Qed.
  Lemma cell_loop_num ps : forall d def kept c d' k' def' c', dok d -> (forall p, In p ps -> faces_ok d p) -> on (num G d) def ->
    cell_loop G cls same opp opp_x sord ps d def kept c = Ok (d', k', def', c') -> dok d' /\ grow d d' /\ on (num G d') def'.
  Proof.
    induction ps as [|p ps IH]; intros d def kept c d' k' def' c' D HF HD H; cbn [cell_loop] in H.
    - injection H as <- <- <- <-. split; auto. split; auto. apply grow_refl.
    - destruct (piece_step G cls same opp opp_x sord p d c) as [[[d1 c1] n]| |] eqn:E; try discriminate. cbn [bind] in H.
      destruct (piece_num _ _ _ _ _ _ D (HF p (or_introl eq_refl)) E) as (D1 & G1 & ON).
      assert (HF1 : forall q, In q ps -> faces_ok d1 q).
      { intros q I f J. destruct (HF q (or_intror I) f J) as (A & B). split; auto. eapply found_grow; eauto. }
      assert (HD1 : on (num G d1) def) by (eapply on_grow; eauto).
      destruct n as [n|].
      + destruct (append def [AN n]) as [def1| |] eqn:EA; try discriminate. cbn [bind] in H.
        destruct (IH _ _ _ _ _ _ _ _ D1 HF1 (append1_on _ _ _ _ HD1 ON EA) H) as (X & Y & W). split; auto. split; auto. eapply grow_trans; eauto.
      + destruct (IH _ _ _ _ _ _ _ _ D1 HF1 HD1 H) as (X & Y & W). split; auto. split; auto. eapply grow_trans; eauto.
  Qed.
  Lemma cell_def_on ps d d' kept def c : dok d -> (forall p, In p ps -> faces_ok d p) ->
    cell_def G cls same opp opp_x sord ps d = Ok (d', kept, def, c) -> dok d' /\ grow d d' /\ on (num G d') def.
  Proof. intros D HF H. unfold cell_def in H. eapply cell_loop_num; eauto. intros z []. Qed.
End Cells.
