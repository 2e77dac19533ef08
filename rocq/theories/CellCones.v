(** The cones in the definition made from the faces of a solid are among the cones that
    cellDef returns, with the same sign. *)
From Coq Require Import Ascii String Permutation.
From Verif Require Import Prelude BoolSpec BoolSeq BoolProofs CellText Writers WritersProofs ParenModel PropsText
  SurfDict SurfDictProofs CellDef CellDefSpec CellDefProofs CellDefProofs2 CellDefProofs3 BoolProofs2 ParseProofs ConePlanes ConeSpec SignText.
From Verif Require OnCell.

Section Cell.
  Variable G : Type.
  Variable cls : G -> key.
  Variable same : G -> G -> bool.
  Variable opp opp_x : G -> G -> bool.
  Variable al : G -> bool.
  Variable P : G -> Prop.
  Variable o : Z.
  Hypothesis HO : 0 <= o.
  Notation dok := (dok G cls P o).
  Notation grow := (grow G).
  Notation num := (OnCell.num G).

  (** a registered surface that is not a cone of its own direction *)
  Definition nocone (d : sdict G) (i : Z) : Prop :=
    exists s, registered_in d s /\ index s = i /\ ~ tilted cls al (geo s).
  Definition rec_num (d : sdict G) (c : list Z) (z : Z) : Prop :=
    exists s, registered_in d s /\ index s = Z.abs z /\ (tilted cls al (geo s) -> In z c).
  Notation U d c := (uses (rec_num d c)).

  Lemma nocone_grow d d' i : grow d d' -> nocone d i -> nocone d' i.
  Proof. intros GR (s & R & E). exists s. split; auto. eapply grow_reg; eauto. Qed.
  Lemma rec_grow d d' c c' z : grow d d' -> incl c c' -> rec_num d c z -> rec_num d' c' z.
  Proof. intros GR IC (s & R & E & X). exists s. split; [eapply grow_reg; eauto|]. split; auto. Qed.
  Lemma U_grow d d' c c' s : grow d d' -> incl c c' -> U d c s -> U d' c' s.
  Proof. intros GR IC. apply uses_mono. intros z. apply rec_grow; auto. Qed.
  Lemma nocone_rec d c i z : nocone d i -> Z.abs z = i -> rec_num d c z.
  Proof. intros (s & R & E & N) EZ. exists s. split; auto. split; [congruence|]. intros T. contradiction. Qed.
  Lemma nocone_pos d i : dok d -> nocone d i -> 0 < i.
  Proof. intros D (s & R & <- & _). eapply (reg_pos G cls P o HO); eauto. Qed.
  Lemma nocone_num d i : nocone d i -> num d i.
  Proof. intros (s & R & E & _). exists s. auto. Qed.

  Definition apart (g : G) : Prop := forall g', cls g' = cls g -> (g' = g \/ same g g' = true) -> ~ tilted cls al g'.
  Lemma apart_kind g : cls g <> Cone -> apart g.
  Proof. intros N g' E _ (T & _). congruence. Qed.
  Lemma add_apart g d d' id b : dok d -> P g -> apart g -> add G cls same g d = (d', (id, b)) -> dok d' /\ grow d d' /\ nocone d' id.
  Proof.
    intros D PG A E. destruct (add_ok G cls same P o HO g d D PG) as (d1 & s & b1 & E1 & D1 & GR & IN & _ & SM & _).
    rewrite E in E1. injection E1 as -> -> ->. split; auto. split; auto. exists s. split; [exists (cls g); auto|]. split; auto.
    destruct D1 as (_ & _ & _ & K). apply A; auto.
  Qed.
  Lemma add_signed_apart op g d d' z : dok d -> P g -> apart g -> add_signed G cls same op g d = Ok (d', z) -> dok d' /\ grow d d' /\ nocone d' (Z.abs z).
  Proof.
    intros D PG A H. unfold add_signed in H. destruct (add G cls same g d) as (d1 & id & b) eqn:E.
    destruct (add_apart g d d1 id b D PG A E) as (D1 & G1 & N1). pose proof (nocone_pos _ _ D1 N1). destruct b.
    - destruct (get_surface id d1) as [[d2 r]| |] eqn:EG; try discriminate. cbn [bind] in H. destruct r as [r|]; [|discriminate].
      injection H as <- <-. destruct (OnCell.get_num G cls P o id d1 d2 r D1 EG (nocone_num _ _ N1)) as (D2 & G2). split; auto. split; [eapply grow_trans; eauto|].
      eapply nocone_grow; [exact G2|]. replace (Z.abs (if op g (geo r) then - id else id)) with id; auto. destruct (op _ _); lia.
    - injection H as <- <-. split; auto. split; auto. replace (Z.abs id) with id by lia. auto.
  Qed.
  Lemma id_kind d g : dok d -> num d (get_id G cls same g d) -> exists s, registered_in d s /\ index s = get_id G cls same g d /\ cls (geo s) = cls g.
  Proof.
    intros D N. pose proof (OnCell.num_pos G cls P o HO _ _ D N). destruct (get_id_spec G cls same P o d g D) as [(n & NI)|E]; [|lia].
    rewrite (get_id_number G cls same d g n NI) in *. destruct NI as (l1 & s & l2 & E & _ & EI & _).
    assert (J : In s (group d (cls g))) by (rewrite E; apply in_or_app; right; left; auto). exists s. split; [exists (cls g); auto|]. split; auto.
    destruct D as (_ & _ & _ & K). auto.
  Qed.
  Lemma id_nocone d g : dok d -> num d (get_id G cls same g d) -> cls g <> Cone -> nocone d (get_id G cls same g d).
  Proof. intros D N NC. destruct (id_kind d g D N) as (s & R & E & K). exists s. split; auto. split; auto. intros (T & _). congruence. Qed.

  Variable d0 : sdict G.
  Hypothesis D0 : dok d0.
  Record sok (s : st G) : Prop := {
    k_dict : dok (s_dict s);
    k_grow : grow d0 (s_dict s);
    k_piece : forall x, In x (s_piece s) -> U (s_dict s) (s_cones s) x;
    k_extra : forall k es, In (k, es) (s_extra s) -> es <> [] /\ forall x, In x es -> U (s_dict s) (s_cones s) x }.

  Lemma rec_uses d c z : dok d -> rec_num d c z -> U d c (str_int z).
  Proof. intros D N. apply uses_lit; auto. destruct N as (s & R & E & _). pose proof (reg_pos G cls P o HO _ _ D R). lia. Qed.
  Lemma nocone_uses d c i z : dok d -> nocone d i -> Z.abs z = i -> U d c (str_int z).
  Proof. intros D N E. apply rec_uses; auto. eapply nocone_rec; eauto. Qed.
  Lemma sok_grow s d c : sok s -> dok d -> grow (s_dict s) d -> incl (s_cones s) c -> sok (St d (s_piece s) (s_extra s) (s_last s) c).
  Proof.
    intros [A B C E] D GR IC. constructor; cbn [s_dict s_piece s_extra s_cones]; auto.
    - eapply grow_trans; eauto.
    - intros x J. eapply U_grow; eauto.
    - intros k es J. destruct (E k es J) as (F & H). split; auto. intros x J'. eapply U_grow; eauto.
  Qed.
  Lemma sok_put s x la : sok s -> U (s_dict s) (s_cones s) x -> sok (St (s_dict s) (add_str x (s_piece s)) (s_extra s) la (s_cones s)).
  Proof.
    intros [A B C E] X. constructor; cbn [s_dict s_piece s_extra s_cones]; auto. intros y J. apply add_str_In in J. destruct J as [->|]; auto.
  Qed.
  Lemma sok_extra s k x : sok s -> U (s_dict s) (s_cones s) x -> sok (St (s_dict s) (s_piece s) (add_extra k x (s_extra s)) (s_last s) (s_cones s)).
  Proof.
    intros [A B C E] X. constructor; cbn [s_dict s_piece s_extra s_cones]; auto. intros k' es J. destruct (OnCell.add_extra_in _ _ _ _ _ J) as [J'|(J' & NE)]; [exact (E _ _ J')|].
    split; auto. intros e Ie. destruct (J' e Ie) as [->|(k1 & e1 & Y & W)]; auto. eapply E; eauto.
  Qed.

  Lemma torus_u_rec u d c d' x : dok d -> (forall p q, u = Some (p, q) -> (P p /\ apart p) /\ forall q', q = Some q' -> P q' /\ apart q') ->
    torus_u G cls same opp u d = Ok (d', x) -> dok d' /\ grow d d' /\ forall d2 w, dok d2 -> grow d' d2 -> U d2 c w -> U d2 c (w ++ x).
  Proof.
    intros D HU H. destruct u as [[p [q|]]|]; cbn [torus_u] in H.
    - destruct (HU _ _ eq_refl) as ((P1 & A1) & HQ). destruct (HQ _ eq_refl) as (P2 & A2).
      destruct (add_signed G cls same opp p d) as [[d1 z1]| |] eqn:E1; try discriminate. cbn [bind] in H.
      destruct (add_signed_apart _ _ _ _ _ D P1 A1 E1) as (D1 & G1 & N1).
      destruct (add_signed G cls same opp q d1) as [[d2 z2]| |] eqn:E2; try discriminate. cbn [bind] in H. injection H as <- <-.
      destruct (add_signed_apart _ _ _ _ _ D1 P2 A2 E2) as (D2 & G2 & N2).
      split; auto. split; [eapply grow_trans; eauto|]. intros d3 w D3 G3 UW.
      assert (U1 : U d3 c (str_int z1)) by (eapply nocone_uses; [exact D3|eapply nocone_grow; [exact G3|eapply nocone_grow; [exact G2|exact N1]]|auto]).
      assert (U2 : U d3 c (str_int z2)) by (eapply nocone_uses; [exact D3|eapply nocone_grow; [exact G3|exact N2]|auto]).
      pose proof (uses_and _ _ _ UW (uses_or _ 1 1 _ _ U1 U2)) as J. cbn [cs list_ascii_of_string blanks repeat app] in *. rewrite <- ?app_assoc in *. exact J.
    - destruct (HU _ _ eq_refl) as ((P1 & A1) & _). destruct (add_signed G cls same opp p d) as [[d1 z1]| |] eqn:E1; try discriminate. cbn [bind] in H. injection H as <- <-.
      destruct (add_signed_apart _ _ _ _ _ D P1 A1 E1) as (D1 & G1 & N1). split; auto. split; auto. intros d2 w D2 G2 UW.
      apply (uses_and _ w (str_int z1)); auto. eapply nocone_uses; [exact D2|eapply nocone_grow; [exact G2|exact N1]|auto].
    - injection H as <- <-. split; auto. split; [apply grow_refl|]. intros d2 w _ _ UW. rewrite app_nil_r. auto.
  Qed.
  Lemma torus_v_rec or i tv d c d' x : dok d -> nocone d i -> (forall a ins, tv = Some (a, ins) -> P a /\ apart a) ->
    torus_v G cls same opp or i tv d = Ok (d', x) -> dok d' /\ grow d d' /\ U d' c x.
  Proof.
    intros D N HA H. pose proof (nocone_pos _ _ D N) as NP.
    assert (FW : Ok (d, cs "-" ++ str_int i) = Ok (d', x) -> dok d' /\ grow d d' /\ U d' c x).
    { intros EE. assert (X : x = cs "-" ++ str_int i /\ d' = d) by (split; congruence). destruct X as (-> & ->). split; auto. split; [apply grow_refl|].
      rewrite str_neg by auto. eapply nocone_uses; eauto. lia. }
    assert (RV : match tv with
        | None => Ok (d, str_int i)
        | Some (a, ins) =>
            do (d1, id2) <- (if is_plane (cls a) then add_signed G cls same opp a d
                             else let '(d1, (id2, _)) := add G cls same a d in Ok (d1, id2));
            Ok (d1, str_int i ++ cs " " ++ str_int (if (ins : bool) then - id2 else id2))
        end = Ok (d', x) -> dok d' /\ grow d d' /\ U d' c x).
    { clear H FW. intros H. destruct tv as [[a ins]|].
      - destruct (HA _ _ eq_refl) as (PA & AA).
        match type of H with (do (d1, id2) <- ?e; _) = _ => destruct e as [[d1 id2]| |] eqn:E1; try discriminate end. cbn [bind] in H. injection H as <- <-.
        assert (K : dok d1 /\ grow d d1 /\ nocone d1 (Z.abs id2)).
        { destruct (is_plane (cls a)); [eapply add_signed_apart; eauto|]. destruct (add G cls same a d) as (d2 & id & b) eqn:E. injection E1 as -> ->.
          destruct (add_apart _ _ _ _ _ D PA AA E) as (D2 & G2 & N2). split; auto. split; auto. pose proof (nocone_pos _ _ D2 N2). replace (Z.abs id2) with id2 by lia. auto. }
        destruct K as (D1 & G1 & N1). split; auto. split; auto. apply uses_and; [eapply nocone_uses; [exact D1|eapply nocone_grow; eauto|lia]|].
        eapply nocone_uses; [exact D1|exact N1|]. destruct ins; lia.
      - injection H as <- <-. split; auto. split; [apply grow_refl|]. eapply nocone_uses; eauto. lia. }
    destruct or; [exact (FW H)|exact (RV H)|exact (RV H)].
  Qed.

  Lemma add_cone_in z c : In z (add_cone z c).
  Proof. unfold add_cone. destruct (existsb (Z.eqb z) c) eqn:E; [|apply in_or_app; right; left; auto]. apply existsb_exists in E. destruct E as (y & J & E). apply Z.eqb_eq in E. subst. auto. Qed.
  Lemma add_cone_incl z c : incl c (add_cone z c).
  Proof. unfold add_cone. intros y J. destruct (existsb _ _); auto. apply in_or_app. auto. Qed.

  Lemma other_rec oo g s s' : sok s -> P g -> (cls g = Cone -> oo = Forward) ->
    plane cls g \/ cls g = Cyl \/ num (s_dict s) (get_id G cls same g (s_dict s)) ->
    other_step G cls same opp oo g s = Ok s' -> sok s' /\ incl (s_cones s) (s_cones s').
  Proof.
    intros K PG HC NB E. pose proof K as [KD KG KP KE]. unfold other_step in E. cbv zeta in E.
    destruct (key_eqb (cls g) Cone) eqn:EK.
    - assert (CG : cls g = Cone) by (destruct (cls g); try discriminate; auto). rewrite CG in E. rewrite (HC CG) in E. clear HC.
      assert (NN : num (s_dict s) (get_id G cls same g (s_dict s))).
      { destruct NB as [PL|[CY|NN]]; auto; [|congruence]. unfold plane in PL. rewrite CG in PL. intuition discriminate. }
      pose proof (OnCell.num_pos G cls P o HO _ _ KD NN) as NP. destruct (Z.eqb_spec (get_id G cls same g (s_dict s)) 0) as [Z0|NZ]; [lia|].
      cbn [is_plane bind] in E. injection E as <-. split; [|apply add_cone_incl].
      pose proof (sok_grow _ (s_dict s) (add_cone (- get_id G cls same g (s_dict s)) (s_cones s)) K KD (grow_refl _ _) (add_cone_incl _ _)) as K1.
      refine (sok_put _ _ _ K1 _). cbn [s_dict s_cones]. apply rec_uses; auto. destruct NN as (t & R & EI). exists t. split; auto. split; [lia|]. intros _. apply add_cone_in.
    - assert (NC : cls g <> Cone) by (intros X; rewrite X in EK; discriminate).
      assert (CE : match cls g with Cone => add_cone (- get_id G cls same g (s_dict s)) (s_cones s) | _ => s_cones s end = s_cones s) by (destruct (cls g); auto; congruence).
      rewrite CE in E. clear CE.
      match type of E with (let '(d, id) := ?e in _) = _ => assert (R : exists d1 id1, e = (d1, id1) /\ dok d1 /\ grow (s_dict s) d1 /\ nocone d1 id1) end.
      { destruct (Z.eqb_spec (get_id G cls same g (s_dict s)) 0) as [Z0|NZ].
        - assert (AD : exists d1 id1, (let '(d1, (ix, _)) := add G cls same g (s_dict s) in (d1, ix)) = (d1, id1) /\ dok d1 /\ grow (s_dict s) d1 /\ nocone d1 id1).
          { destruct (add G cls same g (s_dict s)) as (d1 & ix & b) eqn:EA. destruct (add_apart _ _ _ _ _ KD PG (apart_kind _ NC) EA) as (X & Y & W). exists d1, ix. auto. }
          destruct NB as [PL|[CY|NN]].
          + destruct PL as [PL|[PL|[PL|PL]]]; rewrite PL in *; exact AD.
          + rewrite CY in *. exact AD.
          + exfalso. rewrite Z0 in NN. pose proof (OnCell.num_pos G cls P o HO _ _ KD NN). lia.
        - exists (s_dict s), (get_id G cls same g (s_dict s)). split; auto. split; auto. split; [apply grow_refl|]. apply id_nocone; auto.
          apply (OnCell.id_num G cls same P o HO); auto. }
      destruct R as (d1 & id1 & RE & D1 & G1 & N1). rewrite RE in E. clear RE. pose proof (nocone_pos _ _ D1 N1) as NP.
      match type of E with (do (d, var) <- ?e; _) = _ => destruct e as [[d2 var]| |] eqn:EV; try discriminate end. cbn [bind] in E. injection E as <-.
      assert (V : dok d2 /\ grow d1 d2 /\ Z.abs var = id1).
      { destruct (is_plane (cls g)).
        - destruct (get_surface id1 d1) as [[d3 r]| |] eqn:EGS; try discriminate. cbn [bind] in EV. destruct r as [r|]; [|discriminate].
          destruct (OnCell.get_num G cls P o _ _ _ _ D1 EGS (nocone_num _ _ N1)) as (D3 & G3). injection EV as <- <-. split; auto. split; auto. destruct (opp g (geo r)), oo; lia.
        - injection EV as <- <-. split; auto. split; [apply grow_refl|]. destruct oo; lia. }
      destruct V as (D2 & G2 & EV2). split; [|cbn [s_cones]; intros y J; exact J].
      assert (K2 : sok (St d2 (s_piece s) (s_extra s) (s_last s) (s_cones s))) by (apply sok_grow; auto; [eapply grow_trans; eauto|apply incl_refl]).
      refine (sok_put _ _ _ K2 _). cbn [s_dict s_cones]. eapply nocone_uses; [exact D2|eapply nocone_grow; eauto|exact EV2].
  Qed.
  Lemma curved_rec f g s s' : sok s -> (forall p sg, f_extra f = Some (p, sg) -> P p /\ apart p) -> num (s_dict s) (get_id G cls same g (s_dict s)) ->
    curved_step G cls same opp_x f g s = Ok s' -> sok s' /\ incl (s_cones s) (s_cones s').
  Proof.
    intros K HP NN E. pose proof K as [KD KG KP KE]. unfold curved_step in E. cbv zeta in E. pose proof (OnCell.num_pos G cls P o HO _ _ KD NN) as NP.
    set (i := get_id G cls same g (s_dict s)) in *. set (c := match cls g with Cone => add_cone i (s_cones s) | _ => s_cones s end) in *.
    assert (IC : incl (s_cones s) c) by (unfold c; destruct (cls g); try apply incl_refl; apply add_cone_incl).
    assert (U1 : U (s_dict s) c (str_int i)).
    { apply rec_uses; auto. destruct (id_kind _ _ KD NN) as (t & R & EI & KT). fold i in EI. exists t. split; auto. split; [lia|].
      intros (T & _). unfold c. rewrite KT in T. rewrite T. apply add_cone_in. }
    pose proof (sok_grow _ (s_dict s) c K KD (grow_refl _ _) IC) as K0.
    destruct (f_extra f) as [[p sg]|] eqn:EX; [|injection E as <-; split; [exact (sok_put _ _ _ K0 U1)|exact IC]].
    destruct (add_signed G cls same opp_x p (s_dict s)) as [[d1 id]| |] eqn:E1; try discriminate. cbn [bind] in E. injection E as <-. split; [|exact IC].
    destruct (HP _ _ eq_refl) as (PP' & AP). destruct (add_signed_apart _ _ _ _ _ KD PP' AP E1) as (D1 & G1 & N1).
    pose proof (sok_grow _ d1 c (sok_put _ _ (s_last s) K0 U1) D1 G1 (incl_refl _)) as K1.
    refine (sok_extra _ i _ K1 _). cbn [s_dict s_cones]. eapply nocone_uses; [exact D1|exact N1|destruct sg; lia].
  Qed.
  Lemma torus_rec oo f g s s' : sok s -> (forall g, geometry f g -> P g) -> kinds_ok cls f -> (forall a ins, t_v (f_torus f) = Some (a, ins) -> apart a) ->
    cls g = Tor -> num (s_dict s) (get_id G cls same g (s_dict s)) ->
    torus_step G cls same opp oo f g s = Ok s' -> sok s' /\ incl (s_cones s) (s_cones s').
  Proof.
    intros K HP (_ & HK) HV CG NN E. pose proof K as [KD KG KP KE]. unfold torus_step in E. cbv zeta in E.
    destruct (t_aligned (f_torus f)); [|injection E as <-; split; [auto|apply incl_refl]]. destruct (_ =? s_last s); [injection E as <-; split; [auto|apply incl_refl]|].
    destruct (torus_u G cls same opp (t_u (f_torus f)) (s_dict s)) as [[d1 u]| |] eqn:EU; try discriminate. cbn [bind] in E.
    assert (PK : forall q, plane cls q -> apart q) by (intros q PL; apply apart_kind; intros X; unfold plane in PL; rewrite X in PL; intuition discriminate).
    apply torus_u_rec with (c := s_cones s) in EU; auto.
    2:{ intros p q EQ. destruct (HK p q EQ) as (A & B). split; [split; auto; apply HP; right; right; left; eauto|]. intros q' ->. split; auto. apply HP. right; right; right; left. eauto. }
    destruct EU as (D1 & G1 & UW).
    match type of E with (do (d2, v_var) <- ?e; _) = _ => destruct e as [[d2 v]| |] eqn:EV; try discriminate end. cbn [bind] in E. injection E as <-.
    apply torus_v_rec with (c := s_cones s) in EV; auto.
    2:{ eapply nocone_grow; [exact G1|]. apply id_nocone; auto. congruence. }
    2:{ intros a ins EQ. split; [apply HP; right; right; right; right; eauto|eauto]. }
    destruct EV as (D2 & G2 & UV). specialize (UW d2 v D2 G2 UV). split; [|apply incl_refl].
    assert (K2 : sok (St d2 (s_piece s) (s_extra s) (s_last s) (s_cones s))) by (apply sok_grow; auto; [eapply grow_trans; eauto|apply incl_refl]).
    exact (sok_put _ _ _ K2 UW).
  Qed.

  Definition face_fit (f : face G) : Prop :=
    (forall g, geometry f g -> P g) /\ kinds_ok cls f /\ forall a ins, t_v (f_torus f) = Some (a, ins) -> apart a.
  Lemma face_rec inv f s s' : sok s -> found cls same d0 inv f -> face_fit f ->
    face_step G cls same opp opp_x inv f s = Ok s' -> sok s' /\ incl (s_cones s) (s_cones s').
  Proof.
    intros K FD (HP & HK & HV) H. pose proof K as [KD KG KP KE]. unfold face_step in H. destruct (f_small f) eqn:SM; [injection H as <-; split; [auto|apply incl_refl]|].
    assert (ST : forall oo pos, matter inv f pos -> oo <> NoOrientation -> (oo = Reversed -> pos = true) ->
      match f_geo f with
        | None => Ok (St (s_dict s) (add_str (str_int 0) (s_piece s)) (s_extra s) (s_last s) (s_cones s))
        | Some g =>
            match cls g, oo with
            | Tor, _ => torus_step G cls same opp oo f g s
            | Cyl, Reversed | Cone, Reversed | Sph, Reversed => curved_step G cls same opp_x f g s
            | _, _ => other_step G cls same opp oo g s
            end
        end = Ok s' -> sok s' /\ incl (s_cones s) (s_cones s')).
    { clear H. intros oo pos M NO OP H. destruct (FD pos M) as (g & EG & NUM & _). rewrite EG in H.
      assert (PG : P g) by (apply HP; left; auto).
      assert (NB : plane cls g \/ cls g = Cyl /\ pos = false \/ num (s_dict s) (get_id G cls same g (s_dict s))).
      { destruct NUM as [?|[?|(n & N)]]; auto. right; right. pose proof (number_grow G cls same _ _ _ _ KG N) as N'.
        rewrite (get_id_number G cls same _ _ _ N'). eapply OnCell.num_in; eauto. }
      assert (OT : (cls g = Cone -> oo = Forward) -> other_step G cls same opp oo g s = Ok s' -> sok s' /\ incl (s_cones s) (s_cones s'))
        by (intros HC; apply other_rec; auto; tauto).
      assert (HX : forall p sg, f_extra f = Some (p, sg) -> P p /\ apart p).
      { intros p sg E. split; [apply HP; right; left; eauto|]. apply apart_kind. destruct HK as (HK & _). specialize (HK p sg E). unfold plane in HK. intros X. rewrite X in HK. intuition discriminate. }
      unfold plane in NB. destruct (cls g) eqn:CG; try (apply OT; [intros; discriminate|exact H]);
        try (destruct oo; try congruence; try (apply OT; [auto|exact H]); try (apply OT; [intros; discriminate|exact H]); specialize (OP eq_refl); subst pos; eapply curved_rec; eauto; intuition discriminate);
        try (eapply torus_rec; eauto; intuition discriminate). }
    destruct (f_orient f) eqn:FO; [| |injection H as <-; split; [auto|apply incl_refl]]; cbv zeta in H.
    - apply (ST _ inv) in H; auto; [unfold matter; rewrite SM, FO; auto|destruct inv; discriminate|]. destruct inv; auto; discriminate.
    - apply (ST _ (negb inv)) in H; auto; [unfold matter; rewrite SM, FO; auto|destruct inv; discriminate|]. destruct inv; auto; discriminate.
  Qed.
  Lemma face_loop_rec inv fs : forall s s', sok s -> (forall f, In f fs -> found cls same d0 inv f /\ face_fit f) ->
    face_loop G cls same opp opp_x inv fs s = Ok s' -> sok s' /\ incl (s_cones s) (s_cones s').
  Proof.
    induction fs as [|f fs IH]; intros s s' K HF H; cbn [face_loop] in H; [injection H as <-; split; [auto|apply incl_refl]|].
    destruct (face_step G cls same opp opp_x inv f s) as [s1| |] eqn:E; try discriminate. cbn [bind] in H.
    destruct (HF f (or_introl eq_refl)) as (A & B). destruct (face_rec _ _ _ _ K A B E) as (K1 & I1).
    destruct (IH s1 s') as (K2 & I2); auto; [intros f' J; apply HF; right; auto|]. split; auto. eapply incl_tran; eauto.
  Qed.
End Cell.

Section Cells.
  Variable G : Type.
  Variable cls : G -> key.
  Variable same : G -> G -> bool.
  Variable opp opp_x : G -> G -> bool.
  Variable al : G -> bool.
  Variable P : G -> Prop.
  Variable o : Z.
  Hypothesis HO : 0 <= o.
  Notation dok := (dok G cls P o).
  Notation grow := (grow G).
  Notation rec_num := (rec_num G cls al).
  Variable sord : list Z -> list Z.
  Hypothesis HS : perm_order sord.

  Definition faces_fit (d : sdict G) (p : piece G) : Prop :=
    forall f, In f (p_faces p) -> found cls same d (p_inv p) f /\ face_fit G cls same al P f.
  Lemma on_grow_rec d d' c c' n : grow d d' -> incl c c' -> on (rec_num d c) n -> on (rec_num d' c') n.
  Proof. intros GR IC H z J. eapply rec_grow; eauto. Qed.
  Lemma piece_node_rec (Q : Z -> Prop) pc n : (forall s, In s pc -> uses Q s) -> piece_node sord pc = Ok (Some n) -> on Q n.
  Proof.
    intros X H. unfold piece_node in H. destruct pc as [|x pc]; [discriminate|].
    assert (US : uses Q (join_str (cs " ") (x :: pc))) by (apply uses_join; auto; congruence).
    destruct (join_str (cs " ") (x :: pc)) as [|a t]; [discriminate|].
    destruct (parse sord (a :: t)) as [m| |] eqn:E; try discriminate. cbn [bind] in H.
    destruct US as (tr & (T1 & T2) & TE & TQ). assert (X1 : on Q m) by (eapply parse_on; [exact HS|exists tr; eauto|exact E]).
    destruct m as [z|o1 lv b|o1 lv [|]]; try destruct b; try discriminate; injection H as <-; auto.
  Qed.
  Lemma piece_rec p d c d' c' r : dok d -> faces_fit d p ->
    piece_step G cls same opp opp_x sord p d c = Ok (d', c', r) -> dok d' /\ grow d d' /\ incl c c' /\ match r with Some n => on (rec_num d' c') n | None => True end.
  Proof.
    intros D HF H. unfold piece_step in H.
    destruct (face_loop G cls same opp opp_x (p_inv p) (p_faces p) (St d [] [] (-1) c)) as [s| |] eqn:E; try discriminate. cbn [bind] in H.
    assert (K0 : sok G cls al P o d (St d [] [] (-1) c)) by (constructor; cbn; auto; [apply grow_refl|intros ? []|intros ? ? []]).
    destruct (face_loop_rec G cls same opp opp_x al P o HO d _ _ _ _ K0 HF E) as ([KD KG KP KE] & IC).
    destruct (piece_node sord (put_extra (s_extra s) (s_piece s))) as [n| |] eqn:EN; try discriminate. cbn [bind] in H. injection H as <- <- <-.
    split; auto. split; auto. split; auto. destruct n as [n|]; auto. eapply piece_node_rec; [|exact EN]. apply put_extra_uses; auto.
  Qed.
  Lemma cell_loop_rec ps : forall d def kept c d' k' def' c', dok d -> (forall p, In p ps -> faces_fit d p) -> on (rec_num d c) def ->
    cell_loop G cls same opp opp_x sord ps d def kept c = Ok (d', k', def', c') -> dok d' /\ grow d d' /\ incl c c' /\ on (rec_num d' c') def'.
  Proof.
    induction ps as [|p ps IH]; intros d def kept c d' k' def' c' D HF HD H; cbn [cell_loop] in H.
    - injection H as <- <- <- <-. split; auto. split; [apply grow_refl|]. split; [apply incl_refl|auto].
    - destruct (piece_step G cls same opp opp_x sord p d c) as [[[d1 c1] n]| |] eqn:E; try discriminate. cbn [bind] in H.
      destruct (piece_rec _ _ _ _ _ _ D (HF p (or_introl eq_refl)) E) as (D1 & G1 & I1 & ON).
      assert (HF1 : forall q, In q ps -> faces_fit d1 q).
      { intros q J f Jf. destruct (HF q (or_intror J) f Jf) as (A & B). split; auto. eapply OnCell.found_grow; eauto. }
      assert (HD1 : on (rec_num d1 c1) def) by (eapply on_grow_rec; eauto).
      destruct n as [n|].
      + destruct (append def [AN n]) as [def1| |] eqn:EA; try discriminate. cbn [bind] in H.
        destruct (IH _ _ _ _ _ _ _ _ D1 HF1 (append1_on _ _ _ _ HD1 ON EA) H) as (X & Y & W & V). split; auto. split; [eapply grow_trans; eauto|]. split; auto. eapply incl_tran; eauto.
      + destruct (IH _ _ _ _ _ _ _ _ D1 HF1 HD1 H) as (X & Y & W & V). split; auto. split; [eapply grow_trans; eauto|]. split; auto. eapply incl_tran; eauto.
  Qed.
  (** Every cone of the definition, tilted, is among the cones. *)
  Lemma cell_def_rec ps d d' kept def c : dok d -> (forall p, In p ps -> faces_fit d p) ->
    cell_def G cls same opp opp_x sord ps d = Ok (d', kept, def, c) -> dok d' /\ grow d d' /\ on (rec_num d' c) def.
  Proof.
    intros D HF H. unfold cell_def in H. destruct (cell_loop_rec ps d (Seq OR 0 []) [] [] d' kept def c D HF) as (A & B & _ & C); auto. intros z [].
  Qed.
End Cells.

(** * All solids *)
From Coq Require Import QArith.
From Verif Require Import VoidBoxes BoxDef VoidAll Start.
Open Scope Z_scope.
Section Solids.
  Variable T : Type.
  Notation G := (surface T).
  Variable cls : G -> key.
  Variable same : G -> G -> bool.
  Variable opp opp_x : G -> G -> bool.
  Variable al : G -> bool.
  Variable P : G -> Prop.
  Variable o : Z.
  Hypothesis HO : 0 <= o.
  Variable sord : list Z -> list Z.
  Hypothesis HS : perm_order sord.

  Lemma cell_defs_rec l : forall d d' cs ci, dok G cls P o d ->
    (forall i ps pc, In (i, ps) l -> In pc ps -> faces_fit G cls same al P d pc) ->
    cell_defs T cls same opp opp_x sord l d = Ok (d', cs, ci) ->
    dok G cls P o d' /\ grow G d d' /\
    Forall (fun c => exists zs, on (rec_num G cls al d' zs) (c_def c) /\ (zs = [] \/ In (c_id c, zs) ci)) cs.
  Proof.
    induction l as [|[i ps] l IH]; intros d d' cs ci D HF H; cbn [cell_defs] in H.
    - injection H as <- <- <-. split; auto. split; [apply grow_refl|constructor].
    - destruct (cell_def G cls same opp opp_x sord ps d) as [[[[d1 kept] def] c]| |] eqn:E; try discriminate. cbn [bind] in H.
      destruct (cell_defs T cls same opp opp_x sord l d1) as [[[d2 cs2] ci2]| |] eqn:E2; try discriminate. cbn [bind] in H. injection H as <- <- <-.
      destruct (cell_def_rec G cls same opp opp_x al P o HO sord HS ps d d1 kept def c D) as (D1 & G1 & R1); auto.
      { intros p J. eapply HF; [left; eauto|auto]. }
      destruct (IH d1 d2 cs2 ci2) as (D2 & G2 & F2); auto.
      { intros j qs pc J Jp f Jf. destruct (HF j qs pc (or_intror J) Jp f Jf) as (A & B). split; auto. eapply OnCell.found_grow; eauto. }
      split; auto. split; [eapply grow_trans; eauto|]. constructor.
      + cbn [c_def c_id]. exists c. split; [eapply on_grow_rec; eauto; apply incl_refl|]. destruct c; [left; auto|right; left; auto].
      + eapply Forall_impl; [|exact F2]. intros x (zs & A & B). exists zs. split; auto. destruct B as [B|B]; auto. right. destruct c; [auto|right; auto].
  Qed.
End Solids.
