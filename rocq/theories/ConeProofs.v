(** Proofs for C55. *)
From Coq Require Import Permutation.
From Verif Require Import Prelude BoolSpec BoolSeq BoolEdit BoolProofs BoolProofs2 BoolEditProofs SurfDict SurfDictProofs
  CellDef CellDefSpec CellDefProofs ConePlanes ConeSpec.

(** * Insertions keep the sequence free of constants *)
Lemma ins_no_const op t n : t <> - n -> no_const (ins_elem op t n).
Proof.
  intros H. unfold ins_elem. destruct (t =? n); [simpl; auto|].
  replace (t =? - n) with false by lia. simpl. auto.
Qed.
Lemma subst_int_no_const t ne n : forall r, no_const ne -> no_const n -> subst_int t ne n = Ok r -> no_const r /\ is_seq r.
Proof.
  induction n as [z|o lev b|o lev l IH] using node_ind'; intros r NE NC H; try discriminate.
  cbn [subst_int] in H. inv_bind. inv H. apply no_const_seq in NC. split; [|exact I]. apply (no_const_seq o lev).
  revert a Ha. induction l as [|x l IHl]; intros l' Ha; cbn [mapM] in Ha; [inv Ha; auto|].
  destruct (match x with Lit z => Ok (if z =? t then ne else x) | _ => subst_int t ne x end) as [y| |] eqn:Ey; try discriminate.
  cbn [bind] in Ha.
  destruct (mapM (fun e => match e with Lit z => Ok (if z =? t then ne else e) | _ => subst_int t ne e end) l) as [l2| |] eqn:El; try discriminate.
  cbn [bind] in Ha. inv Ha. inversion NC; subst. inversion IH; subst. constructor.
  - destruct x as [z|? ? ?|? ? ?]; [inv Ey; destruct (z =? t); auto; exact I|discriminate|].
    match goal with H : forall r, _ -> _ -> subst_int t ne _ = Ok r -> _ |- _ => exact (proj1 (H y NE ltac:(assumption) Ey)) end.
  - apply IHl; auto.
Qed.
Lemma level_update_no_const n : no_const n -> no_const (level_update n).
Proof.
  induction n as [z|o lev b|o lev l IH] using node_ind'; intros H; auto.
  apply no_const_seq in H. cbn [level_update].
  match goal with |- no_const (Seq ?o ?lv ?l) => apply (no_const_seq o lv) end.
  rewrite Forall_forall in *. intros x Hx. apply in_map_iff in Hx. destruct Hx as (y & <- & Hy). auto.
Qed.
Lemma insert_no_const n t s op r : t <> - s -> no_const n -> insert_in_sequence n t s op = Ok r -> no_const r /\ is_seq r.
Proof.
  intros T NC H. unfold insert_in_sequence in H. inv_bind. inv H.
  destruct (subst_int_no_const _ _ _ _ (ins_no_const op t s T) NC Ha) as (A & B).
  split; [apply level_update_no_const; auto|]. destruct a; simpl in *; auto.
Qed.

(** * The list of a void *)
Lemma acc_in cs : forall acc z, In z (fold_left (fun a x => if existsb (Z.eqb (- x)) a then a else a ++ [- x]) cs acc) <->
  In z acc \/ In (- z) cs.
Proof.
  induction cs as [|c cs IH]; intros acc z; cbn [fold_left]; [simpl; tauto|].
  rewrite IH. destruct (existsb (Z.eqb (- c)) acc) eqn:E.
  - apply existsb_exists in E. destruct E as (y & Iy & Ey). apply Z.eqb_eq in Ey. subst y.
    split; [intros [?|?]; auto; right; right; auto|]. intros [?|[?|?]]; auto. left. replace z with (- c) by lia. auto.
  - rewrite in_app_iff. simpl. split; [intros [[?|[?|[]]]|?]; auto; right; left; lia|].
    intros [?|[?|?]]; auto. left. right. left. lia.
Qed.
Lemma acc_nodup cs : forall acc, NoDup acc -> NoDup (fold_left (fun a x => if existsb (Z.eqb (- x)) a then a else a ++ [- x]) cs acc).
Proof.
  induction cs as [|c cs IH]; intros acc ND; cbn [fold_left]; auto. apply IH.
  destruct (existsb (Z.eqb (- c)) acc) eqn:E; auto.
  assert (N : ~ In (- c) acc). { intros H. assert (existsb (Z.eqb (- c)) acc = true); [|congruence]. apply existsb_exists. exists (- c). split; auto. apply Z.eqb_refl. }
  clear - ND N. induction acc as [|x acc IHa]; simpl; [repeat constructor; auto|].
  inversion ND; subst. constructor.
  - rewrite in_app_iff. simpl. intros [?|[?|[]]]; auto. apply N. left. auto.
  - apply IHa; auto. intros H. apply N. right; auto.
Qed.
Lemma info_in ci i cs : NoDup (map fst ci) -> (info_of ci i = Some cs <-> In (i, cs) ci).
Proof.
  unfold info_of. induction ci as [|[j c] ci IH]; intros ND; simpl; [split; [discriminate|tauto]|].
  inversion ND; subst. destruct (Z.eqb_spec j i) as [->|NE].
  - split; [intros [= ->]; auto|]. intros [[= ->]|H]; auto. exfalso. apply H1. change i with (fst (i, cs)). apply in_map; auto.
  - rewrite IH by auto. split; auto. intros [[= ? ?]|H]; [congruence|auto].
Qed.
Lemma void_cones_in ci l : NoDup (map fst ci) -> forall acc z,
  In z (void_cones ci l acc) <-> In z acc \/ exists i cs, In i l /\ In (i, cs) ci /\ In (- z) cs.
Proof.
  intros ND. induction l as [|i l IH]; intros acc z; cbn [void_cones].
  - split; auto. intros [?|(? & ? & [] & _)]; auto.
  - rewrite IH. destruct (info_of ci i) as [cs|] eqn:E.
    + apply info_in in E; auto. rewrite acc_in. split.
      * intros [[?|?]|(j & c & A & B)]; auto; right; [exists i, cs|exists j, c]; simpl; auto.
      * intros [?|(j & c & [<-|A] & B & C)]; auto; [|right; exists j, c; auto].
        left. right. apply (info_in ci i) in E; auto. apply (info_in ci i) in B; auto. congruence.
    + split.
      * intros [?|(j & c & A & B)]; auto. right. exists j, c. simpl. auto.
      * intros [?|(j & c & [<-|A] & B & C)]; auto; [|right; exists j, c; auto].
        apply (info_in ci i) in B; auto. congruence.
Qed.
Lemma void_cones_nodup ci l : forall acc, NoDup acc -> NoDup (void_cones ci l acc).
Proof.
  induction l as [|i l IH]; intros acc ND; cbn [void_cones]; auto. apply IH.
  destruct (info_of ci i); auto. apply acc_nodup; auto.
Qed.

Section Cones.
  Variable G : Type.
  Variable cls : G -> key.
  Variable same : G -> G -> bool.
  Variable opp : G -> G -> bool.
  Variable aligned : G -> bool.
  Variable apex : G -> G.
  Variable P : G -> Prop.
  Variable o : Z.
  Hypothesis HO : 0 <= o.
  Notation dok := (dok G cls P o).
  Notation grow := (grow G).

  (** [p] is the signed number of a registered plane that stands for [g]. *)
  Definition stands (d : sdict G) (g : G) (p : Z) : Prop :=
    exists t, registered_in d t /\ cls (geo t) = cls g /\
      ((geo t = g /\ p = index t) \/
       (same g (geo t) = true /\ p = if opp g (geo t) then - index t else index t)).
  Lemma stands_grow d d' g p : grow d d' -> stands d g p -> stands d' g p.
  Proof. intros GR (t & R & K). exists t. split; auto. eapply grow_reg; eauto. Qed.

  Lemma add_signed_stands g d : dok d -> P g ->
    exists d' z, add_signed G cls same opp g d = Ok (d', z) /\ dok d' /\ grow d d' /\ stands d' g z.
  Proof.
    intros D PG. destruct (add_ok G cls same P o HO g d D PG) as (d1 & s & b & E & D1 & GR & IN & NB & SM & POS & _).
    unfold add_signed. rewrite E. assert (R : registered_in d1 s) by (exists (cls g); auto).
    assert (C : cls (geo s) = cls g). { destruct D1 as (_ & _ & _ & B). apply B; auto. }
    destruct b.
    - destruct (get_reg G cls P o _ _ D1 R) as (d2 & EG & D2 & G12 & G21). rewrite EG. cbn [bind].
      eexists d2, _. split; [reflexivity|]. split; auto. split; [eapply grow_trans; eauto|].
      exists s. split; [eapply grow_reg; eauto|]. split; auto.
      destruct (opp g (geo s)) eqn:EO.
      + destruct SM as [SM|SM]; [|right; auto].
        (* the same object cannot be found by equality only *)
        unfold add in E. pose proof (find_same_spec G cls same g (group d (cls g)) 0) as F.
        destruct (find_same G same g 0 (group d (cls g))) as [[i ix]|]; [|discriminate].
        destruct F as (l1 & t & l2 & EL & <- & SS & _). injection E as <- EI.
        assert (s = t).
        { apply (reg_uniq G cls P o d s t D); [exists (cls g); exact IN| |symmetry; exact EI].
          exists (cls g). rewrite EL. apply in_or_app. right; left; auto. }
        subst t. right. auto.
      + destruct SM as [SM|SM]; [left; auto|right; auto].
    - eexists d1, _. split; [reflexivity|]. split; auto. split; auto. exists s. split; auto.
  Qed.

  Lemma stands_not d g p c s : dok d -> stands d g p -> plane cls g -> registered_in d s -> index s = Z.abs c -> cls (geo s) = Cone ->
    Z.abs c <> Z.abs p /\ p <> 0.
  Proof.
    intros D (t & R & C & K) PL RS ES CS.
    assert (E : Z.abs p = index t). { pose proof (reg_pos G cls P o HO d t D R). destruct K as [(_ & ->)|(_ & ->)]; [|destruct (opp g (geo t))]; lia. }
    pose proof (reg_pos G cls P o HO d t D R). split; [|lia].
    intros N. rewrite E, <- ES in N. rewrite (reg_uniq G cls P o d s t D RS R N) in CS. rewrite CS in C.
    unfold plane in PL. rewrite <- C in PL. intuition discriminate.
  Qed.

  Lemma cone_loop_ok l : forall d n, dok d -> is_seq n -> no_const n ->
    (forall c, In c l -> exists s, registered_in d s /\ index s = Z.abs c /\ cls (geo s) = Cone /\
       (aligned (geo s) = false -> P (apex (geo s)) /\ plane cls (apex (geo s)))) ->
    exists d' n' cps, cone_loop G cls same opp aligned apex l d n = Ok (d', n') /\ dok d' /\ grow d d' /\
      add_cone_plane cps n = Ok n' /\ is_seq n' /\ no_const n' /\
      (forall c p, In (c, p) cps -> exists s, registered_in d s /\ index s = Z.abs c /\ tilted cls aligned (geo s) /\ stands d' (apex (geo s)) p) /\
      (forall c, In c l -> forall s, registered_in d s -> index s = Z.abs c -> aligned (geo s) = false -> In c (map fst cps)) /\
      incl (map fst cps) l /\ (NoDup l -> NoDup (map fst cps)).
  Proof.
    induction l as [|c l IH]; intros d n D SQ NC HL; cbn [cone_loop].
    - exists d, n, []. split; auto. split; auto. split; [apply grow_refl|]. split; auto. split; auto. split; auto.
      split; [intros c p []|]. split; [intros c []|]. split; [intros c []|]. intros _. constructor.
    - destruct (HL c (or_introl eq_refl)) as (s & RS & ES & CS & AP). unfold cone_step. rewrite <- ES.
      destruct (get_reg G cls P o d s D RS) as (d1 & EG & D1 & G1 & G1'). rewrite EG. cbn [bind].
      destruct (aligned (geo s)) eqn:EA.
      + cbn [bind]. destruct (IH d1 n D1 SQ NC) as (d' & n' & cps & E & D' & GR & EC & SQ' & NC' & S1 & S2 & S3 & S4).
        { intros c' Hc. destruct (HL c' (or_intror Hc)) as (s' & R' & K). exists s'. split; auto. eapply grow_reg; eauto. }
        exists d', n', cps. split; auto. split; auto. split; [eapply grow_trans; eauto|]. split; auto. split; auto. split; auto.
        split; [|split; [|split]].
        * intros c' p I. destruct (S1 c' p I) as (s' & R' & K). exists s'. split; auto. eapply grow_reg; eauto.
        * intros c' [<-|Hc] s' R' E' A'.
          -- assert (s' = s) by (apply (reg_uniq G cls P o d s' s D); auto; congruence). subst. congruence.
          -- apply (S2 c' Hc s'); auto. eapply grow_reg; eauto.
        * intros x Hx. right. auto.
        * intros ND. inversion ND; auto.
      + destruct (AP eq_refl) as (PA & PLA). clear AP.
        destruct (add_signed_stands (apex (geo s)) d1 D1 PA) as (d2 & p & EP & D2 & G2 & ST). rewrite EP. cbn [bind].
        assert (RS2 : registered_in d2 s) by (eapply grow_reg; eauto; eapply grow_reg; eauto).
        destruct (stands_not d2 _ p c s D2 ST PLA RS2 ES CS) as (DJ & PN).
        assert (EI : exists n1, (if 0 <? c then insert_in_sequence n c (- p) OR else insert_in_sequence n c p AND) = Ok n1 /\ is_seq n1 /\ no_const n1).
        { destruct (0 <? c).
          - destruct (insert_total n c (- p) OR SQ NC) as (n1 & E1). exists n1. split; auto.
            destruct (insert_no_const n c (- p) OR n1 ltac:(lia) NC E1). auto.
          - destruct (insert_total n c p AND SQ NC) as (n1 & E1). exists n1. split; auto.
            destruct (insert_no_const n c p AND n1 ltac:(lia) NC E1). auto. }
        destruct EI as (n1 & EI & SQ1 & NC1). rewrite EI. cbn [bind].
        assert (GD : grow d d2) by (eapply grow_trans; eauto).
        destruct (IH d2 n1 D2 SQ1 NC1) as (d' & n' & cps & E & D' & GR & EC & SQ' & NC' & S1 & S2 & S3 & S4).
        { intros c' Hc. destruct (HL c' (or_intror Hc)) as (s' & R' & K). exists s'. split; auto. eapply grow_reg; eauto. }
        exists d', n', ((c, p) :: cps). split; auto. split; auto. split; [eapply grow_trans; eauto|].
        split; [cbn [add_cone_plane]; rewrite EI; cbn [bind]; auto|]. split; auto. split; auto.
        split; [|split; [|split]].
        * intros c' p' [[= <- <-]|I].
          -- exists s. split; auto. split; auto. split; [split; auto|]. eapply stands_grow; eauto.
          -- destruct (S1 c' p' I) as (s' & R' & E' & T' & K). exists s'.
             destruct (HL c' (or_intror (S3 _ (in_map fst _ _ I)))) as (s0 & R0 & E0 & _).
             assert (s' = s0) by (apply (reg_uniq G cls P o d2 s' s0 D2); auto; [eapply grow_reg; eauto|congruence]). subst s0. auto.
        * intros c' [<-|Hc] s' R' E' A'; [left; auto|]. right. apply (S2 c' Hc s'); auto. eapply grow_reg; eauto.
        * intros x [<-|Hx]; [left; auto|right; auto].
        * intros ND. inversion ND; subst. constructor; auto. 
  Qed.

  Lemma lit_side v d g p card : (forall s, registered_in d s -> v (index s) = card (geo s)) -> dok d -> stands d g p -> plane cls g -> P g ->
    faithful cls same opp opp P card -> lit_val v p = card g.
  Proof.
    intros AV D (t & R & C & K) PL PG FA. pose proof (reg_pos G cls P o HO d t D R) as POS. pose proof (AV t R) as E.
    destruct K as [(<- & ->)|(S & ->)]; [rewrite lit_pos by auto; auto|].
    destruct (FA g (geo t)) as (_ & F); auto; [destruct D as (_ & _ & A & _); auto|]. destruct (F PL) as (F1 & _). rewrite F1.
    destruct (opp g (geo t)); [rewrite lit_neg by auto|rewrite lit_pos by auto]; congruence.
  Qed.

  (** One cell whose tilted cones are all in the list. *)
  Lemma put_ok l d n : dok d -> is_seq n -> no_const n -> NoDup l ->
    (forall c, In c l -> exists s, registered_in d s /\ index s = Z.abs c /\ cls (geo s) = Cone /\
       (aligned (geo s) = false -> P (apex (geo s)) /\ plane cls (apex (geo s)))) ->
    (forall z, In z (lits n) -> z <> 0 /\ exists s, registered_in d s /\ index s = Z.abs z) ->
    (forall z, In z (lits n) -> tilted_number cls aligned d z -> In z l) ->
    exists d' n', cone_loop G cls same opp aligned apex l d n = Ok (d', n') /\ dok d' /\ grow d d' /\
      forall d2, dok d2 -> grow d' d2 -> forall card real, faithful cls same opp opp P card -> two_sheets cls aligned apex card real ->
      forall v w, (forall s, registered_in d2 s -> v (index s) = card (geo s)) ->
        (forall s, registered_in d2 s -> w (index s) = real (geo s)) -> eval v n' = eval w n.
  Proof.
    intros D SQ NC ND HL HZ HT.
    destruct (cone_loop_ok l d n D SQ NC HL) as (d' & n' & cps & E & D' & GR & EC & _ & _ & S1 & S2 & S3 & S4).
    exists d', n'. split; auto. split; auto. split; auto.
    intros d2 D2 G2 card real FA (T1 & T2) v w AV AW.
    assert (GD : grow d d2) by (eapply grow_trans; eauto).
    assert (SP : forall c p, In (c, p) cps -> exists s, registered_in d s /\ index s = Z.abs c /\ tilted cls aligned (geo s) /\
       P (apex (geo s)) /\ plane cls (apex (geo s)) /\ stands d2 (apex (geo s)) p).
    { intros c p I. destruct (S1 c p I) as (s & R & ES & (CS & AS) & ST). exists s.
      destruct (HL c (S3 _ (in_map fst _ _ I))) as (s0 & R0 & E0 & _ & K).
      assert (s0 = s) by (apply (reg_uniq G cls P o d s0 s D); auto; congruence). subst s0.
      destruct (K AS) as (KA & KB). split; [auto|]. split; [auto|]. split; [split; auto|]. split; [auto|]. split; [auto|]. exact (stands_grow d' d2 _ _ G2 ST). }
    rewrite (add_cone_plane_eval v cps n n'); auto.
    - rewrite (eval_eval_with w). apply eval_with_ext. intros z Iz. destruct (HZ z Iz) as (Z0 & s & RS & ES).
      pose proof (reg_pos G cls P o HO d s D RS) as POS.
      assert (VS : v (Z.abs z) = card (geo s)) by (rewrite <- ES; apply AV; eapply grow_reg; eauto).
      assert (WS : w (Z.abs z) = real (geo s)) by (rewrite <- ES; apply AW; eapply grow_reg; eauto).
      assert (LV : forall u, lit_val u z = if z <? 0 then negb (u (Z.abs z)) else u (Z.abs z)).
      { intros u. unfold lit_val. destruct (Z.ltb_spec z 0); [rewrite Z.abs_neq by lia|rewrite Z.abs_eq by lia]; auto. }
      unfold cone_lit. destruct (find (fun cp => fst cp =? z) cps) as [[c p]|] eqn:EF.
      + apply find_some in EF. destruct EF as (I & EQ). cbn [fst] in EQ. apply Z.eqb_eq in EQ. subst c.
        destruct (SP z p I) as (s0 & R0 & E0 & TL & PA & PLA & ST).
        assert (s0 = s) by (apply (reg_uniq G cls P o d s0 s D); auto; congruence). subst s0.
        rewrite (lit_side v d2 (apex (geo s)) p card AV D2 ST PLA PA FA), !LV, VS, WS, (T1 _ TL).
        destruct (Z.ltb_spec 0 z), (Z.ltb_spec z 0); try lia; rewrite ?negb_orb, ?negb_involutive; auto.
      + rewrite !LV, VS, WS.
        assert (NT : ~ tilted cls aligned (geo s)).
        { intros TL. assert (I : In z (map fst cps)).
          { apply (S2 z) with (s := s); auto; [|apply TL]. apply HT; auto. exists s. auto. }
          apply in_map_iff in I. destruct I as ([c p] & EQ & I). cbn [fst] in EQ. subst c.
          apply (find_none _ _ EF) in I. cbn [fst] in I. rewrite Z.eqb_refl in I. discriminate. }
        rewrite (T2 _ NT). auto.
    - rewrite Forall_forall. intros [c p] I. cbn [fst snd]. destruct (SP c p I) as (s & R & ES & TL & PA & PLA & ST).
      pose proof (reg_pos G cls P o HO d s D R). split; [lia|].
      apply (stands_not d2 _ p c s D2 ST PLA); auto; [eapply grow_reg; eauto|apply TL].
    - intros c p Ic Ip. apply in_map_iff in Ic. destruct Ic as ([c' p'] & <- & Ic). apply in_map_iff in Ip. destruct Ip as ([c2 p2] & <- & Ip). cbn [fst snd].
      destruct (SP _ _ Ic) as (s & R & ES & TL & _). destruct (SP _ _ Ip) as (s2 & _ & _ & _ & _ & PLA & ST).
      apply (stands_not d2 _ p2 c' s D2 ST PLA); auto; [eapply grow_reg; eauto|apply TL].
  Qed.
End Cones.
