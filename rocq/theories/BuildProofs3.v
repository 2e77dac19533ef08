(** Proofs about Build.v: BuildDepth keeps every point of the cell, and no other. *)
From Verif Require Import Prelude BoolSpec BoolSeq BoolProofs BoolProofs2 BoolEditProofs RBool RBoolSpec RBoolProofs RBox RPlanes RPlaneQuad Build BuildSpec BuildProofs BuildProofs2.
Open Scope Z_scope.

Section Depth.
  Variable C : cad.
  Variable R : reading C.
  Hypothesis G : good_cad C R.
  Variable boxer : node * bx C -> Z -> res (abox (bx C)).
  Variable order : node -> list Z.
  Hypothesis OR1 : orders order.
  Variable ext : bx C.
  Variable root : node.
  Hypothesis HB : boxes_ok R ext boxer root.

  Notation bcell := (bcell C). Notation piece := (piece C).
  Definition blist (base : option (list piece)) : list piece := match base with Some l => l | None => [] end.

  Lemma filter_char (depth : bcell -> option (list piece) -> res (list piece)) c b o : forall l built f k, filter_parts C depth c b o built l = Ok (f, k) ->
    (forall p, In p f <-> In p l /\ meets C b (p_shape p) = true) /\
    (forall q, In q k -> o = Rev /\ ((In q l /\ meets C b (p_shape q) = false) \/
       exists p r, In p l /\ meets C b (p_shape p) = false /\ p_or p = Rev /\ depth c None = Ok r /\ In q r)) /\
    (o = Rev -> forall p, In p l -> meets C b (p_shape p) = false -> In p k).
  Proof.
    induction l as [|p l IH]; intros built f k H; cbn [filter_parts] in H.
    - injection H as <- <-. split; [|split]; [intros p; split; [intros []|intros ([] & _)]|intros q []|intros _ p []].
    - destruct (meets C b (p_shape p)) eqn:M.
      + inv_bind. destruct a as (f', k'). injection H as <- <-. destruct (IH _ _ _ Ha) as (A & B & D). split; [|split].
        * intros q. cbn [In]. rewrite A. split; [intros [<-|[? ?]]; auto|intros ([<-|HI] & HM); auto].
        * intros q HQ. destruct (B q HQ) as (E & [(HI & HM)|(p' & r & HI & HX)]); split; auto; [left; split; auto; now right|right; exists p', r; split; auto; now right].
        * intros E q [<-|HI] HM; [congruence|auto].
      + destruct o.
        * destruct (IH _ _ _ H) as (A & B & D). split; [|split].
          -- intros q. cbn [In]. rewrite A. split; [intros [? ?]; auto|intros ([<-|HI] & HM); [congruence|auto]].
          -- intros q HQ. destruct (B q HQ) as (E & _). discriminate.
          -- discriminate.
        * assert (CASE : (exists f' k' q0, filter_parts C depth c b Rev true l = Ok (f', k') /\ p_or p = Rev /\ depth c None = Ok q0 /\ f = f' /\ k = p :: q0 ++ k') \/
                         (exists built' f' k', filter_parts C depth c b Rev built' l = Ok (f', k') /\ f = f' /\ k = p :: k')).
          { destruct (p_or p) eqn:PO; [|destruct built].
            - inv_bind. destruct a as (f', k'). injection H as <- <-. right. eauto 6.
            - inv_bind. destruct a as (f', k'). injection H as <- <-. right. eauto 6.
            - inv_bind. destruct a0 as (f', k'). injection H as <- <-. left. exists f', k', a. auto. }
          assert (AF : forall f' k' built', filter_parts C depth c b Rev built' l = Ok (f', k') -> f = f' -> forall q, In q f <-> In q (p :: l) /\ meets C b (p_shape q) = true).
          { intros f' k' built' Hf -> q. destruct (IH _ _ _ Hf) as (A & _). rewrite A. cbn [In]. split; [intros [? ?]; auto|intros ([<-|HI] & HM); [congruence|auto]]. }
          destruct CASE as [(f' & k' & q0 & Hf & PO & HD & E1 & E2)|(bu & f' & k' & Hf & E1 & E2)].
          -- split; [eapply AF; eauto|]. subst k. destruct (IH _ _ _ Hf) as (A & B & D). split.
             ++ intros q [<-|HQ]; [split; auto; left; split; auto; now left|]. split; auto. apply in_app_or in HQ as [HQ|HQ].
                ** right. exists p, q0. repeat split; auto. now left.
                ** destruct (B q HQ) as (_ & [(HI & HM)|(p' & r & HI & HX)]); [left; split; auto; now right|right; exists p', r; split; auto; now right].
             ++ intros _ q [<-|HI] HM; [now left|]. right. apply in_or_app. right. auto.
          -- split; [eapply AF; eauto|]. subst k. destruct (IH _ _ _ Hf) as (A & B & D). split.
             ++ intros q [<-|HQ]; [split; auto; left; split; auto; now left|].
                destruct (B q HQ) as (_ & [(HI & HM)|(p' & r & HI & HX)]); split; auto; [left; split; auto; now right|right; exists p', r; split; auto; now right].
             ++ intros _ q [<-|HI] HM; [now left|]. right. auto.
  Qed.

  Lemma mapM_concat {A B} (f : A -> res (list B)) l r : mapM f l = Ok r ->
    (forall q, In q (concat r) <-> exists p rp, In p l /\ f p = Ok rp /\ In q rp) /\ (forall p, In p l -> exists rp, f p = Ok rp).
  Proof.
    intros H. apply mapM_Forall2 in H. induction H as [|p rp l r Hp HF IH]; cbn.
    - split; [|intros p []]. intros q. split; [intros []|intros (p & rp & [] & _)].
    - destruct IH as (IA & IB). split.
      + intros q. rewrite in_app_iff, IA. split.
        * intros [HQ|(p' & rp' & HI & HX)]; [exists p, rp; auto|exists p', rp'; auto].
        * intros (p' & rp' & [<-|HI] & HX & HQ); [left; congruence|right; exists p', rp'; auto].
      + intros p' [<-|HI]; eauto.
  Qed.

  (** ** one step of the recursion, in a form common to all the proofs *)
  Section Loops.
    Variable depth : bcell -> option (list piece) -> res (list piece).
    (** what happens to the pieces [l] at an element [e] *)
    Inductive step (c : bcell) (e : node) (l : list piece) : list piece -> Prop :=
    | st_all m s' : build_box C boxer ext (sub_cell C c e) 100 = Ok s' -> b_box s' = Some m -> a_box m = None -> a_or m = Rev -> step c e l l
    | st_none m s' : build_box C boxer ext (sub_cell C c e) 100 = Ok s' -> b_box s' = Some m -> a_box m = None -> a_or m = Fwd -> step c e l []
    | st_keep m s' b f k : build_box C boxer ext (sub_cell C c e) 100 = Ok s' -> b_box s' = Some m -> a_box m = Some b ->
        filter_parts C depth s' b (a_or m) false l = Ok (f, k) -> f = [] -> step c e l k
    | st_cut m s' b f k q r : build_box C boxer ext (sub_cell C c e) 100 = Ok s' -> b_box s' = Some m -> a_box m = Some b ->
        filter_parts C depth s' b (a_or m) false l = Ok (f, k) -> depth s' (Some f) = Ok q -> (forall p, In p r <-> In p q \/ In p k) -> step c e l r.
    (** [run c l ps r]: the elements [l] of an intersection *)
    Inductive run (c : bcell) : list node -> option (list piece) -> list piece -> Prop :=
    | run_nil p : run c [] (Some p) p
    | run_first e l q r : depth (sub_cell C c e) None = Ok q -> run c l (Some q) r -> run c (e :: l) None r
    | run_step e l p q r : step c e p q -> run c l (Some q) r -> run c (e :: l) (Some p) r
    | run_empty l : run c l (Some []) [].
    Definition carried (ps : part C) : option (list piece) := match ps with PNone _ => None | _ => Some (as_list C ps) end.
    Lemma and_loop_run c : forall l ps r, and_loop C boxer ext depth c l ps = Ok r -> run c l (carried ps) r.
    Proof.
      induction l as [|e l IH]; intros ps r H; cbn [and_loop] in H.
      - destruct ps; try discriminate. injection H as <-. constructor.
      - assert (GEN : forall p0, carried ps = Some p0 -> p0 = as_list C ps ->
          (do s' <- build_box C boxer ext (sub_cell C c e) 100;
              match b_box s' with
              | None => Err AttributeError
              | Some m =>
                  match a_box m with
                  | None => match a_or m with Rev => and_loop C boxer ext depth c l ps | Fwd => Ok [] end
                  | Some b =>
                      do (f, k) <- filter_parts C depth s' b (a_or m) false (as_list C ps);
                      match f, k with
                      | [], [] => Ok []
                      | [], _ => and_loop C boxer ext depth c l (PList C k)
                      | _, _ => do q <- depth s' (Some f); and_loop C boxer ext depth c l (PList C (q ++ k))
                      end
                  end
              end) = Ok r -> run c (e :: l) (carried ps) r).
        { intros p0 HP HP2 HH. rewrite HP, HP2. inv_bind. rename a into s'. destruct (b_box s') as [m|] eqn:BM; [|discriminate].
          destruct (a_box m) as [b|] eqn:AM.
          - inv_bind. destruct a as (f, k). destruct f as [|p f].
            + assert (ST : step c e (as_list C ps) k) by (eapply st_keep; eauto). destruct k as [|q k].
              * injection HH as <-. eapply run_step; [exact ST|apply run_empty].
              * eapply run_step; [exact ST|]. apply (IH (PList C (q :: k)) r HH).
            + inv_bind. rename a into q. eapply run_step; [|apply (IH (PList C (q ++ k)) r HH)]. eapply st_cut; eauto. intros y. apply in_app_iff.
          - destruct (a_or m) eqn:AO.
            + injection HH as <-. eapply run_step; [eapply st_none; eauto|apply run_empty].
            + eapply run_step; [eapply st_all; eauto|]. rewrite <- HP2, <- HP. apply IH. exact HH. }
        destruct ps as [|p|p].
        + inv_bind. eapply run_first; [exact Ha|]. apply (IH (PList C a) r H).
        + eapply GEN; [reflexivity|reflexivity|exact H].
        + eapply GEN; [reflexivity|reflexivity|exact H].
    Qed.
    (** the elements of a union *)
    Definition alt (c : bcell) (base : option piece) (e : node) (q : list piece) : Prop :=
      match base with None => depth (sub_cell C c e) None = Ok q | Some p => step c e [p] q end.
    Lemma or_loop_alts c base : forall l acc r, or_loop C boxer ext depth c l base acc = Ok r ->
      exists qs, Forall2 (alt c base) l qs /\ exists P, r = join_base C P /\ forall p, In p P <-> In p acc \/ In p (concat qs).
    Proof.
      assert (ONE : forall l acc q r e, (exists qs, Forall2 (alt c base) l qs /\ exists P, r = join_base C P /\ forall p, In p P <-> In p (acc ++ q) \/ In p (concat qs)) ->
        forall q', alt c base e q' -> (forall p, In p q <-> In p q') ->
        exists qs, Forall2 (alt c base) (e :: l) qs /\ exists P, r = join_base C P /\ forall p, In p P <-> In p acc \/ In p (concat qs)).
      { intros l acc q r e (qs & HF & P & E & HP) q' HA HQ. exists (q' :: qs). split; [constructor; auto|]. exists P. split; auto. intros p. rewrite HP. cbn [concat]. rewrite !in_app_iff, HQ. tauto. }
      induction l as [|e l IH]; intros acc r H; cbn [or_loop] in H.
      - injection H as <-. exists []. split; [constructor|]. exists acc. split; auto. intros p. cbn. tauto.
      - destruct base as [p|].
        + inv_bind. rename a into s'. destruct (b_box s') as [m|] eqn:BM; [|discriminate]. destruct (a_box m) as [b|] eqn:AM.
          * inv_bind. destruct a as (f, k). destruct f as [|p' f].
            -- eapply ONE; [eapply IH; eauto| |reflexivity]. cbn [alt]. eapply st_keep; eauto.
            -- inv_bind. rename a into q. eapply ONE; [eapply IH; eauto| |reflexivity]. cbn [alt]. eapply st_cut; eauto. intros y. rewrite in_app_iff. tauto.
          * destruct (a_or m) eqn:AO; (eapply ONE; [eapply IH; eauto| |reflexivity]); cbn [alt]; [eapply st_none; eauto|eapply st_all; eauto].
        + inv_bind. eapply ONE; [eapply IH; eauto|exact Ha|reflexivity].
    Qed.
  End Loops.

  (** ** cells *)
  Definition ccalm (loud : Prop) (c : bcell) : Prop := forall m, b_box c = Some m -> a_or m = Fwd \/ loud.
  Variable x : pt R.
  Hypothesis HX : inb R ext x.
  Notation truth := (truth C R x). Notation has := (has C R x). Notation inp := (inp C R x). Notation pure := (pure C R x).
  Definition between (lo hi : Prop) (d : node) : Prop := (lo -> holds R d x) /\ (holds R d x -> hi).
  Definition cell_ok (lo hi : Prop) (c : bcell) : Prop :=
    (wf (b_def c) /\ incl (surfs (b_def c)) (surfs root) /\ between lo hi (b_def c)) /\
    (wf (fst (b_planes c)) /\ incl (surfs (fst (b_planes c))) (surfs root) /\ between lo hi (fst (b_planes c))) /\
    forall m, b_box c = Some m -> exists d, covers R ext m (holds R d) /\ between lo hi d.
  Definition hasb (J : list Z) (base : option (list piece)) : Prop := match base with Some l => has J l | None => True end.
  Definition inpb (base : option (list piece)) : Prop := match base with Some l => inp l | None => True end.

  Lemma between_mono (lo hi lo' hi' : Prop) d : (lo' -> lo) -> (hi -> hi') -> between lo hi d -> between lo' hi' d.
  Proof. intros A B (P & Q). split; auto. Qed.
  Lemma build_box_ok (lo hi : Prop) c k c' : cell_ok lo hi c -> build_box C boxer ext c k = Ok c' ->
    cell_ok lo hi c' /\ b_def c' = b_def c /\ exists m pl, b_box c' = Some m /\ boxer pl k = Ok m.
  Proof.
    intros ((A1 & A2 & A3) & (B1 & B2 & B3) & D) H. unfold build_box in H.
    set (pl := if same C (snd (b_planes c)) ext then b_planes c else (b_def c, ext)) in *.
    inv_bind. rename a into m. injection H as <-. cbn [b_def b_planes b_box].
    assert (PL : wf (fst pl) /\ incl (surfs (fst pl)) (surfs root) /\ between lo hi (fst pl)) by (subst pl; destruct (same C (snd (b_planes c)) ext); cbn [fst]; auto).
    split; [|split; [auto|eauto]]. split; auto. split; auto. intros m' [= <-]. exists (fst pl). destruct PL as (P1 & P2 & P3). split; auto.
    destruct pl as (d, out). eapply HB; eauto.
  Qed.
  Lemma sub_ok (lo hi lo' hi' : Prop) c e : cell_ok lo hi c -> (lo' -> lo) -> (hi -> hi') -> wf e -> incl (surfs e) (surfs root) -> between lo' hi' e ->
    cell_ok lo' hi' (sub_cell C c e).
  Proof.
    intros (_ & (B1 & B2 & B3) & _) HL HH W I1 BE. unfold sub_cell. rewrite copy_id. split; [auto|]. split; [cbn [b_planes fst]; eauto using between_mono|].
    cbn [b_box]. discriminate.
  Qed.
  Lemma sub_def c e : b_def (sub_cell C c e) = e. Proof. unfold sub_cell. cbn. apply copy_id. Qed.
  Lemma holds_dec d : holds R d x \/ ~ holds R d x. Proof. unfold holds. destruct (eval (sd R x) d); [left|right]; congruence. Qed.
  (** what a box that does not meet a piece with [x] says *)
  Lemma box_miss (lo hi : Prop) c m b p : cell_ok lo hi c -> b_box c = Some m -> a_box m = Some b -> meets C b (p_shape p) = false -> at_x C R x p ->
    match a_or m with Fwd => ~ lo | Rev => hi end.
  Proof.
    intros (_ & _ & D) BM AM MT PX. destruct (D m BM) as (d & CV & BL & BH). specialize (CV x HX). rewrite AM in CV.
    assert (NB : ~ inb R b x) by (intros Q; exact (meets_ok C R G b (p_shape p) MT x Q PX)).
    destruct (a_or m); [intros L; apply NB; auto|]. destruct (holds_dec d); auto. destruct NB; auto.
  Qed.
  Lemma box_none (lo hi : Prop) c m : cell_ok lo hi c -> b_box c = Some m -> a_box m = None -> match a_or m with Fwd => ~ lo | Rev => hi end.
  Proof.
    intros (_ & _ & D) BM AM. destruct (D m BM) as (d & CV & BL & BH). specialize (CV x HX). rewrite AM in CV. destruct (a_or m); auto.
  Qed.

  Section Steps.
    Variable depth : bcell -> option (list piece) -> res (list piece).
    Definition t_spec : Prop := forall c base r K, depth c base = Ok r -> (forall p, In p (blist base) -> truth K p) -> incl (surfs (b_def c)) K -> forall q, In q r -> truth K q.
    Definition l_spec : Prop := forall c base r J (lo hi : Prop), depth c base = Ok r -> cell_ok lo hi c -> separate (b_def c) -> apart J (surfs (b_def c)) ->
      lo -> hasb J base -> has (joined (b_def c) ++ J) r.
    Variable loud : Prop.
    Definition c_spec : Prop := forall c base r, depth c base = Ok r -> calm C loud (blist base) -> (base = None -> ccalm loud c) -> calm C loud r.
    Definition u_spec : Prop := forall c base r J (lo hi : Prop), depth c base = Ok r -> cell_ok lo hi c -> separate (b_def c) -> apart J (surfs (b_def c)) ->
      calm C loud (blist base) -> pure J (blist base) -> pure (joined (b_def c) ++ J) r /\ (inp r -> inpb base /\ hi).

    Lemma box_def c e k s' : build_box C boxer ext (sub_cell C c e) k = Ok s' -> b_def s' = e.
    Proof. unfold build_box. intros H. inv_bind. injection H as <-. cbn [b_def]. apply (sub_def c e). Qed.

    Lemma step_truth K c e l r : t_spec -> (forall p, In p l -> truth K p) -> incl (surfs e) K -> step depth c e l r -> forall q, In q r -> truth K q.
    Proof.
      intros IH HL HI H. assert (FK : forall s' b o f k, b_def s' = e -> filter_parts C depth s' b o false l = Ok (f, k) -> (forall q, In q f -> truth K q) /\ (forall q, In q k -> truth K q)).
      { intros s' b o f k BD FP. destruct (filter_char _ _ _ _ _ _ _ _ FP) as (A & B & _). split; [intros q Q; apply A in Q as (Q & _); auto|].
        intros q Q. destruct (B q Q) as (_ & [(Q1 & _)|(p & r0 & P1 & P2 & P3 & P4 & P5)]); auto. eapply IH; [exact P4|intros ? []|rewrite BD; exact HI|exact P5]. }
      destruct H as [m s' BB BM AM AO|m s' BB BM AM AO|m s' b f k BB BM AM FP FN|m s' b f k q r BB BM AM FP DE RI]; auto.
      - intros q [].
      - eapply FK; [eapply box_def; eauto|exact FP].
      - destruct (FK s' b _ f k (box_def _ _ _ _ BB) FP) as (F1 & F2). intros y Y. apply RI in Y as [Y|Y]; auto.
        eapply IH; [exact DE|exact F1|rewrite (box_def _ _ _ _ BB); exact HI|exact Y].
    Qed.

    Lemma step_lower J (lo hi : Prop) c e l r : l_spec -> cell_ok lo hi (sub_cell C c e) -> separate e -> apart J (surfs e) -> lo -> has J l -> step depth c e l r -> has (joined e ++ J) r.
    Proof.
      intros IH CO SP AJ L HL H. assert (MO : forall q, has J q -> has (joined e ++ J) q) by (intros q; apply has_mono; intros y; rewrite in_app_iff; auto).
      assert (FK : forall s' m b f k, build_box C boxer ext (sub_cell C c e) 100 = Ok s' -> b_box s' = Some m -> a_box m = Some b -> filter_parts C depth s' b (a_or m) false l = Ok (f, k) -> has J f \/ has J k).
      { intros s' m b f k BB BM AM FP. destruct (build_box_ok _ _ _ _ _ CO BB) as (CO' & _). destruct (filter_char _ _ _ _ _ _ _ _ FP) as (A & B & D).
        destruct HL as (p & P1 & P2 & P3). destruct (meets C b (p_shape p)) eqn:MT.
        - left. exists p. split; [apply A; auto|auto].
        - right. exists p. split; [|auto]. pose proof (box_miss _ _ _ _ _ _ CO' BM AM MT P2) as BX. destruct (a_or m) eqn:AO; [destruct (BX L)|]. apply D; auto. }
      destruct H as [m s' BB BM AM AO|m s' BB BM AM AO|m s' b f k BB BM AM FP FN|m s' b f k q r BB BM AM FP DE RI]; auto.
      - destruct (build_box_ok _ _ _ _ _ CO BB) as (CO' & _). pose proof (box_none _ _ _ _ CO' BM AM) as BX. rewrite AO in BX. destruct (BX L).
      - apply MO. destruct (FK _ _ _ _ _ BB BM AM FP) as [(p & P1 & _)|]; auto. subst f. destruct P1.
      - destruct (FK _ _ _ _ _ BB BM AM FP) as [HF|HK].
        + destruct (build_box_ok _ _ _ _ _ CO BB) as (CO' & BD & _). rewrite sub_def in BD.
          assert (HQ : has (joined e ++ J) q) by (rewrite <- BD; eapply IH; [exact DE|exact CO'|rewrite BD; auto|rewrite BD; auto|exact L|exact HF]).
          destruct HQ as (p & P1 & P2). exists p. split; [apply RI; auto|auto].
        + destruct (MO _ HK) as (p & P1 & P2). exists p. split; [apply RI; auto|auto].
    Qed.

    (** a Reversed box meets every shape, or there is no Reversed piece *)
    Definition meets_all : Prop := forall pl m b s, boxer pl 100 = Ok m -> a_or m = Rev -> a_box m = Some b -> meets C b s = true.

    Lemma step_calm c e l r : c_spec -> calm C loud l -> step depth c e l r -> calm C loud r.
    Proof.
      intros IH HL H.
      assert (FK : forall s' b o f k, filter_parts C depth s' b o false l = Ok (f, k) -> calm C loud f /\ calm C loud k).
      { intros s' b o f k FP. destruct (filter_char _ _ _ _ _ _ _ _ FP) as (A & B & _). split; [intros q Q; apply A in Q as (Q & _); auto|].
        intros q Q. destruct (B q Q) as (_ & [(Q1 & _)|(p & r0 & P1 & P2 & P3 & P4 & P5)]); auto. destruct (HL p P1) as [E|LD]; [congruence|auto]. }
      destruct H as [m s' BB BM AM AO|m s' BB BM AM AO|m s' b f k BB BM AM FP FN|m s' b f k q r BB BM AM FP DE RI]; auto.
      - intros q [].
      - eapply FK; eauto.
      - destruct (FK _ _ _ _ _ FP) as (F1 & F2). intros y Y. apply RI in Y as [Y|Y]; auto. eapply (IH s' (Some f) q); auto. discriminate.
    Qed.
    Lemma step_upper J (lo hi : Prop) c e l r : (loud -> meets_all) -> u_spec -> cell_ok lo hi (sub_cell C c e) -> separate e -> apart J (surfs e) -> calm C loud l -> pure J l ->
      step depth c e l r -> pure (joined e ++ J) r /\ (inp r -> inp l /\ hi).
    Proof.
      intros LM IH CO SP AJ CL PL H. assert (MO : forall q, pure J q -> pure (joined e ++ J) q) by (intros q; apply pure_mono; intros y; rewrite in_app_iff; auto).
      assert (FK : forall s' m b f k, build_box C boxer ext (sub_cell C c e) 100 = Ok s' -> b_box s' = Some m -> a_box m = Some b -> filter_parts C depth s' b (a_or m) false l = Ok (f, k) ->
        calm C loud f /\ pure J f /\ (inp f -> inp l) /\ pure J k /\ (inp k -> inp l /\ hi)).
      { intros s' m b f k BB BM AM FP. destruct (build_box_ok _ _ _ _ _ CO BB) as (CO' & _ & m' & pl & BM' & BX). rewrite BM in BM'. injection BM' as <-.
        destruct (filter_char _ _ _ _ _ _ _ _ FP) as (A & B & _).
        assert (KL : forall q, In q k -> In q l /\ meets C b (p_shape q) = false /\ a_or m = Rev).
        { intros q Q. destruct (B q Q) as (AO & [(Q1 & Q2)|(p & r0 & P1 & P2 & P3 & P4 & P5)]); auto. exfalso. destruct (CL p P1) as [E|LD]; [congruence|].
          pose proof (LM LD pl m b (p_shape p) BX AO AM). congruence. }
        split; [|split; [|split; [|split]]].
        - intros q Q. apply A in Q as (Q & _); auto.
        - intros q Q. apply A in Q as (Q & _); auto.
        - intros (q & Q & QX). apply A in Q as (Q & _). exists q; auto.
        - intros q Q. apply KL in Q as (Q & _); auto.
        - intros (q & Q & QX). apply KL in Q as (Q & MT & AO). split; [exists q; auto|]. pose proof (box_miss _ _ _ _ _ _ CO' BM AM MT QX) as BX'. rewrite AO in BX'. exact BX'. }
      destruct H as [m s' BB BM AM AO|m s' BB BM AM AO|m s' b f k BB BM AM FP FN|m s' b f k q r BB BM AM FP DE RI].
      - split; auto. intros IL. split; auto. destruct (build_box_ok _ _ _ _ _ CO BB) as (CO' & _). pose proof (box_none _ _ _ _ CO' BM AM) as BX. rewrite AO in BX. exact BX.
      - split; [intros q []|intros (q & [] & _)].
      - destruct (FK _ _ _ _ _ BB BM AM FP) as (_ & _ & _ & F4 & F5). auto.
      - destruct (FK _ _ _ _ _ BB BM AM FP) as (F1 & F2 & F3 & F4 & F5). destruct (build_box_ok _ _ _ _ _ CO BB) as (CO' & BD & _). rewrite sub_def in BD.
        destruct (IH s' (Some f) q J lo hi DE CO') as (U1 & U2); auto; try (rewrite BD; auto). rewrite BD in U1. cbn [inpb] in U2. split.
        + intros p P. apply RI in P as [P|P]; [apply U1; auto|apply (MO k F4); auto].
        + intros (p & P & PX). apply RI in P as [P|P].
          * destruct U2 as (U2 & U3); [exists p; auto|]. auto.
          * apply F5. exists p; auto.
    Qed.
  End Steps.

  (** ** a list of surfaces *)
  Lemma solid_parts_truth c base r K : solid_parts C boxer order ext c base = Ok r -> (forall p, In p (blist base) -> truth K p) -> incl (surfs (b_def c)) K ->
    forall q, In q r -> truth K q.
  Proof.
    assert (CB : forall c b r, truth K b -> incl (surfs (b_def c)) K -> cut_base C order c b = Ok r -> forall q, In q r -> truth K q).
    { clear c base r. intros c b r TB HI H q Q. unfold cut_base in H. destruct (b_box c) as [m|]; [|discriminate].
      assert (KK : keys C K [b] r).
      { apply (cut_loop_keys C (b_def c) (a_or m) [b] (order (b_def c)) K [] [b] r); [intros ? ? ? []| | |exact H].
        - intros p k o P PK. right. eauto.
        - intros z Z. apply HI. apply OR1. exact Z. }
      intros k o KO NK. destruct (KK q k o Q KO) as [|(p & [<-|[]] & PK)]; [contradiction|]. auto. }
    intros H HB0 HI q Q. destruct base as [l|]; cbn [solid_parts blist] in *.
    - inv_bind. injection H as <-. destruct (mapM_concat _ _ _ Ha) as (A & _). apply A in Q as (p & rp & P1 & P2 & P3).
      destruct (flat C (p_shape p)); [injection P2 as <-; destruct P3|]. destruct (order (b_def c)); [discriminate|]. eapply CB; eauto.
    - inv_bind. rename a into c'. assert (BD : b_def c' = b_def c) by (destruct (b_box c); [injection Ha as <-; auto|unfold build_box in Ha; inv_bind; injection Ha as <-; auto]).
      destruct (b_box c') as [m|] eqn:BM; [|discriminate].
      assert (NE : r = [] \/ exists s, cut_base C order c' (Piece s [] (a_or m)) = Ok r).
      { destruct (a_or m), (a_box m); try (left; injection H as <-; reflexivity);
          (destruct (order (b_def c')); [discriminate|]; match goal with H : match make C ?b with _ => _ end = _ |- _ => destruct (make C b) as [s|] end; [right; eauto|left; congruence]). }
      destruct NE as [->|(s & NE)]; [destruct Q|]. eapply (CB c'); [|rewrite BD; exact HI|exact NE|exact Q]. intros k o [].
  Qed.

  Lemma cut_base_lower c b r J : wf (b_def c) -> apart J (surfs (b_def c)) -> order (b_def c) <> [] -> cut_base C order c b = Ok r ->
    holds R (b_def c) x -> at_x C R x b -> truth J b -> has J r.
  Proof.
    intros W AJ NE H HO BX BT. unfold cut_base in H. destruct (b_box c) as [m|]; [|discriminate].
    eapply (cut_loop_lower C R G x (b_def c) J W AJ (a_or m) HO (order (b_def c)) [] [] [b]); [intros z; symmetry; apply OR1| |exact H].
    right. split; auto. exists b. repeat split; auto; [now left|]. intros z [].
  Qed.
  Lemma cut_base_upper c b r J : wf (b_def c) -> apart J (surfs (b_def c)) -> cut_base C order c b = Ok r -> (at_x C R x b -> truth J b) ->
    pure J r /\ (inp r -> at_x C R x b /\ holds R (b_def c) x).
  Proof.
    intros W AJ H BT. unfold cut_base in H. destruct (b_box c) as [m|]; [|discriminate].
    destruct (cut_loop_upper C R G x (b_def c) J W AJ (a_or m) (order (b_def c)) [] [b] r) as (A & B & D); auto.
    - apply pure_nil.
    - intros Q. destruct (inp_nil _ _ _ Q).
    - intros p [<-|[]]; auto.
    - split; auto. intros Q. split; [|apply D; auto]. destruct (B Q) as [Q'|(p & [<-|[]] & P)]; [destruct (inp_nil _ _ _ Q')|exact P].
  Qed.

  Lemma solid_parts_lower c base r J (lo hi : Prop) : solid_parts C boxer order ext c base = Ok r -> cell_ok lo hi c -> apart J (surfs (b_def c)) -> lo -> hasb J base -> has J r.
  Proof.
    intros H CO AJ L HL. destruct base as [l|]; cbn [solid_parts hasb] in *.
    - inv_bind. injection H as <-. destruct (mapM_concat _ _ _ Ha) as (A & B). destruct HL as (p & P1 & P2 & P3). destruct (B p P1) as (rp & E).
      destruct (flat C (p_shape p)) eqn:FL; [destruct (flat_ok C R G _ FL x P2)|].
      destruct (order (b_def c)) as [|z zs] eqn:OD; [discriminate|]. destruct CO as ((W & _ & B1 & _) & _).
      destruct (cut_base_lower c p rp J W AJ) as (q & Q1 & Q2); auto; [congruence|]. exists q. split; auto. apply A. exists p, rp. rewrite FL. auto.
    - inv_bind. rename a into c'. assert (CO' : cell_ok lo hi c' /\ b_def c' = b_def c).
      { destruct (b_box c); [injection Ha as <-; auto|]. destruct (build_box_ok _ _ _ _ _ CO Ha) as (P & Q & _). auto. }
      destruct CO' as (CO' & BD). destruct (b_box c') as [m|] eqn:BM; [|discriminate].
      destruct CO' as ((W & _ & B1 & _) & _ & D). destruct (D m BM) as (d & CV & BL & BH). specialize (CV x HX).
      assert (NE : exists b, (a_or m = Fwd -> a_box m = Some b) /\ inb R b x /\ order (b_def c') <> [] /\
         match make C b with None => Ok [] | Some s => cut_base C order c' (Piece s [] (a_or m)) end = Ok r).
      { destruct (a_or m), (a_box m) as [b|]; try (destruct (CV (BL L))); destruct (order (b_def c')) as [|z zs]; try discriminate; eexists; (split; [|split; [|split; [|exact H]]]); auto; discriminate. }
      destruct NE as (b & _ & IB & OD & E). destruct (make C b) as [s|] eqn:MK; [|destruct (make_none C R G b MK x IB)].
      apply (cut_base_lower c' (Piece s [] (a_or m)) r J W); auto; [rewrite BD; auto|apply (make_ok C R G b s MK); auto|intros k o []].
  Qed.

  Lemma solid_parts_upper c base r J (lo hi : Prop) : solid_parts C boxer order ext c base = Ok r -> cell_ok lo hi c -> apart J (surfs (b_def c)) -> pure J (blist base) ->
    pure J r /\ (inp r -> inpb base /\ hi).
  Proof.
    intros H CO AJ PL. assert (BH : holds R (b_def c) x -> hi) by apply CO. assert (W : wf (b_def c)) by apply CO.
    destruct base as [l|]; cbn [solid_parts blist inpb] in *.
    - inv_bind. injection H as <-. destruct (mapM_concat _ _ _ Ha) as (A & _).
      assert (ONE : forall p rp, In p l -> (if flat C (p_shape p) then Ok [] else match order (b_def c) with [] => Err TypeError | _ :: _ => cut_base C order c p end) = Ok rp ->
         pure J rp /\ (inp rp -> at_x C R x p /\ holds R (b_def c) x)).
      { intros p rp P E. destruct (flat C (p_shape p)); [injection E as <-; split; [apply pure_nil|intros Q; destruct (inp_nil _ _ _ Q)]|]. destruct (order (b_def c)); [discriminate|].
        eapply cut_base_upper; eauto. }
      split.
      + intros q Q. apply A in Q as (p & rp & P1 & P2 & P3). destruct (ONE p rp P1 P2) as (O1 & _). auto.
      + intros (q & Q & QX). apply A in Q as (p & rp & P1 & P2 & P3). destruct (ONE p rp P1 P2) as (_ & O2). destruct O2 as (O2 & O3); [exists q; auto|]. split; [exists p; auto|auto].
    - inv_bind. rename a into c'. assert (BD : b_def c' = b_def c) by (destruct (b_box c); [injection Ha as <-; auto|unfold build_box in Ha; inv_bind; injection Ha as <-; auto]).
      destruct (b_box c') as [m|] eqn:BM; [|discriminate].
      assert (NE : r = [] \/ exists s, cut_base C order c' (Piece s [] (a_or m)) = Ok r).
      { destruct (a_or m), (a_box m); try (left; injection H as <-; reflexivity);
          (destruct (order (b_def c')); [discriminate|]; match goal with H : match make C ?b with _ => _ end = _ |- _ => destruct (make C b) as [s|] end; [right; eauto|left; congruence]). }
      destruct NE as [->|(s & NE)]; [split; [apply pure_nil|intros Q; destruct (inp_nil _ _ _ Q)]|].
      destruct (cut_base_upper c' (Piece s [] (a_or m)) r J) as (U1 & U2); auto; [rewrite BD; auto|rewrite BD; auto|intros _ k o []|]. split; auto. intros Q. apply U2 in Q as (_ & Q). rewrite BD in Q. auto.
  Qed.

  (** ** intersections *)
  Section Runs.
    Variable depth : bcell -> option (list piece) -> res (list piece).
    Variable c : bcell.
    Lemma run_truth K : t_spec depth -> forall l ps r, run depth c l ps r -> (forall p, In p (blist ps) -> truth K p) -> (forall e, In e l -> incl (surfs e) K) ->
      forall q, In q r -> truth K q.
    Proof.
      intros IH l ps r H. induction H as [p|e l q r HD HR IHr|e l p q r HS HR IHr|l]; intros HP HE; auto.
      - apply IHr; [|intros; apply HE; now right]. intros y Y. eapply (IH (sub_cell C c e) None q); [exact HD|intros ? []|rewrite sub_def; apply HE; now left|exact Y].
      - apply IHr; [|intros; apply HE; now right]. intros y Y. eapply step_truth; [exact IH|exact HP|apply HE; now left|exact HS|exact Y].
    Qed.
    Definition elts (lo : Prop) (l : list node) : Prop := forall e, In e l -> wf e /\ incl (surfs e) (surfs root) /\ separate e /\ (lo -> holds R e x).
    Lemma elt_ok (lo hi : Prop) e : cell_ok lo hi c -> wf e /\ incl (surfs e) (surfs root) /\ separate e /\ (lo -> holds R e x) -> cell_ok lo (holds R e x \/ hi) (sub_cell C c e).
    Proof. intros CO (W & I1 & S1 & L1). eapply sub_ok; eauto. split; auto. Qed.

    Lemma run_lower (lo hi : Prop) : l_spec depth -> cell_ok lo hi c -> lo -> forall l ps r, run depth c l ps r -> forall J, elts lo l ->
      ForallOrdPairs (fun e f => apart (joined e) (surfs f)) l -> (forall e, In e l -> apart J (surfs e)) -> hasb J ps -> has (flat_map joined l ++ J) r.
    Proof.
      intros IH CO L l ps r H.
      assert (NEXT : forall e l J, ForallOrdPairs (fun e f => apart (joined e) (surfs f)) (e :: l) -> (forall f, In f (e :: l) -> apart J (surfs f)) ->
         ForallOrdPairs (fun e f => apart (joined e) (surfs f)) l /\ forall f, In f l -> apart (joined e ++ J) (surfs f)).
      { clear. intros e l J HF HJ. inversion HF; subst. split; auto. intros f Hf z Z. rewrite Forall_forall in H1. apply in_app_or in Z as [Z|Z]; [apply (H1 f Hf); auto|apply (HJ f); [now right|auto]]. }
      assert (JO : forall e l J q, has (flat_map joined l ++ joined e ++ J) q -> has (flat_map joined (e :: l) ++ J) q).
      { intros e l0 J q. apply has_mono. intros z. cbn [flat_map]. rewrite !in_app_iff. tauto. }
      induction H as [p|e l q r HD HR IHr|e l p q r HS HR IHr|l]; intros J HE HF HJ HP; auto.
      - destruct (NEXT _ _ _ HF HJ) as (N1 & N2). apply JO. apply IHr; auto; [intros f Hf; apply HE; now right|]. cbn [hasb].
        pose proof (IH (sub_cell C c e) None q J lo (holds R e x \/ hi) HD) as Q. rewrite sub_def in Q. apply Q; auto; [|apply HE; now left|apply HJ; now left].
        apply elt_ok; auto. apply HE. now left.
      - destruct (NEXT _ _ _ HF HJ) as (N1 & N2). apply JO. apply IHr; auto; [intros f Hf; apply HE; now right|]. cbn [hasb] in *.
        eapply step_lower; [exact IH|apply elt_ok; [exact CO|apply HE; now left]|apply HE; now left|apply HJ; now left|exact L|exact HP|exact HS].
      - destruct HP as (p & [] & _).
    Qed.

    Lemma run_calm (loud : Prop) : c_spec depth loud ->
      forall l ps r, run depth c l ps r -> calm C loud (blist ps) -> calm C loud r.
    Proof.
      intros IH l ps r H. induction H as [p|e l q r HD HR IHr|e l p q r HS HR IHr|l]; intros HP; auto.
      - apply IHr. eapply (IH (sub_cell C c e) None q HD); [intros ? []|]. intros _ m. unfold sub_cell. cbn. discriminate.
      - apply IHr. eapply step_calm; eauto.
    Qed.

    Lemma run_upper (loud lo hi : Prop) : (loud -> meets_all) -> u_spec depth loud -> c_spec depth loud -> cell_ok lo hi c -> forall l ps r, run depth c l ps r -> forall J, elts lo l ->
      ForallOrdPairs (fun e f => apart (joined e) (surfs f)) l -> (forall e, In e l -> apart J (surfs e)) -> calm C loud (blist ps) -> pure J (blist ps) ->
      pure (flat_map joined l ++ J) r /\ (inp r -> inpb ps /\ forall e, In e l -> holds R e x \/ hi).
    Proof.
      intros LM IH IC CO l ps r H.
      assert (NEXT : forall e l J, ForallOrdPairs (fun e f => apart (joined e) (surfs f)) (e :: l) -> (forall f, In f (e :: l) -> apart J (surfs f)) ->
         ForallOrdPairs (fun e f => apart (joined e) (surfs f)) l /\ forall f, In f l -> apart (joined e ++ J) (surfs f)).
      { clear. intros e l J HF HJ. inversion HF; subst. split; auto. intros f Hf z Z. rewrite Forall_forall in H1. apply in_app_or in Z as [Z|Z]; [apply (H1 f Hf); auto|apply (HJ f); [now right|auto]]. }
      assert (JO : forall e l J q, pure (flat_map joined l ++ joined e ++ J) q -> pure (flat_map joined (e :: l) ++ J) q).
      { intros e l0 J q. apply pure_mono. intros z. cbn [flat_map]. rewrite !in_app_iff. tauto. }
      induction H as [p|e l q r HD HR IHr|e l p q r HS HR IHr|l]; intros J HE HF HJ CP HP.
      - split; auto. intros Q. split; auto. intros e [].
      - destruct (NEXT _ _ _ HF HJ) as (N1 & N2).
        assert (CO' : cell_ok lo (holds R e x \/ hi) (sub_cell C c e)) by (apply elt_ok; auto; apply HE; now left).
        pose proof (IH (sub_cell C c e) None q J lo (holds R e x \/ hi) HD CO') as U. rewrite sub_def in U.
        destruct U as (U1 & U2); [apply HE; now left|apply HJ; now left|intros ? []|apply pure_nil|].
        destruct (IHr (joined e ++ J)) as (V1 & V2); auto; [intros f Hf; apply HE; now right| |].
        { eapply (IC (sub_cell C c e) None q HD); [intros ? []|]. intros _ m. unfold sub_cell. cbn. discriminate. }
        split; [apply JO; exact V1|]. intros Q. destruct (V2 Q) as (W1 & W2). destruct (U2 W1) as (_ & W3). split; [exact Logic.I|]. intros f [<-|Hf]; auto.
      - destruct (NEXT _ _ _ HF HJ) as (N1 & N2). cbn [blist inpb] in *.
        assert (CO' : cell_ok lo (holds R e x \/ hi) (sub_cell C c e)) by (apply elt_ok; auto; apply HE; now left).
        destruct (step_upper depth loud J lo (holds R e x \/ hi) c e p q LM IH CO') as (U1 & U2); auto; [apply HE; now left|apply HJ; now left|].
        destruct (IHr (joined e ++ J)) as (V1 & V2); auto; [intros f Hf; apply HE; now right|eapply step_calm; eauto|].
        split; [apply JO; exact V1|]. intros Q. destruct (V2 Q) as (W1 & W2). destruct (U2 W1) as (W3 & W4). split; auto. intros f [<-|Hf]; auto.
      - split; [apply pure_nil|]. intros Q. destruct (inp_nil _ _ _ Q).
    Qed.
  End Runs.

  Lemma group_holds d n : group_single d = Ok n -> (holds R n x <-> holds R d x).
  Proof. intros H. unfold holds. rewrite (group_single_eval _ _ _ H). tauto. Qed.
  Lemma group_surfs d n : group_single d = Ok n -> forall z, In z (surfs n) <-> In z (surfs d).
  Proof. intros H z. rewrite !surfs_spec. split; intros (y & A & B); exists y; split; eauto using group_single_lits, group_single_lits'. Qed.
  Lemma group_ok (lo hi : Prop) c n : cell_ok lo hi c -> group_single (b_def c) = Ok n -> cell_ok lo hi (Bcell n (b_planes c) (b_box c)).
  Proof.
    intros ((A1 & A2 & A3 & A4) & B & D) H. split; [|split; auto]. cbn [b_def]. split; [eapply group_single_wf; eauto|].
    split; [intros z Z; apply A2; apply (group_surfs _ _ H); exact Z|]. split; intros Q; [apply (group_holds _ _ H); auto|apply A4, (group_holds _ _ H); auto].
  Qed.

  Lemma surfs_elt op lev l e z : In e l -> In z (surfs e) -> In z (surfs (Seq op lev l)).
  Proof. intros HE HZ. apply surfs_spec in HZ as (y & A & B). apply surfs_spec. exists y. split; auto. cbn [lits]. apply in_flat_map. eauto. Qed.
  Lemma wf_elts op lev l : wf (Seq op lev l) -> forall e, In e l -> wf e.
  Proof. intros H. apply wf_seq in H as (_ & _ & H). rewrite Forall_forall in H. exact H. Qed.

  (** what [build_depth] did *)
  Inductive did (k : nat) (c : bcell) (base : option (list piece)) (r : list piece) : Prop :=
  | did_solid n : group_single (b_def c) = Ok n -> solid_parts C boxer order ext (Bcell n (b_planes c) (b_box c)) base = Ok r -> did k c base r
  | did_cst op lev b l : group_single (b_def c) = Ok (Cst op lev b) -> base = Some l -> r = (if b then l else []) -> did k c base r
  | did_empty op lev : group_single (b_def c) = Ok (Cst op lev false) -> r = [] -> did k c base r
  | did_seq op lev l (parts : list (option piece)) : lev <> 0 -> group_single (b_def c) = Ok (Seq op lev l) ->
      parts = match base with None => [None] | Some bs => map Some bs end ->
      (forall y, In y parts -> exists ry, (match op with
         | AND => run (build_depth C boxer order ext k) (Bcell (Seq op lev l) (b_planes c) (b_box c)) l (match y with None => None | Some p => Some [p] end) ry
         | OR => exists qs P, Forall2 (alt (build_depth C boxer order ext k) (Bcell (Seq op lev l) (b_planes c) (b_box c)) y) l qs /\ ry = join_base C P /\ forall p, In p P <-> In p (concat qs)
         end) /\ forall p, In p ry -> In p r) ->
      (forall p, In p r -> exists y ry, In y parts /\ (match op with
         | AND => run (build_depth C boxer order ext k) (Bcell (Seq op lev l) (b_planes c) (b_box c)) l (match y with None => None | Some p => Some [p] end) ry
         | OR => exists qs P, Forall2 (alt (build_depth C boxer order ext k) (Bcell (Seq op lev l) (b_planes c) (b_box c)) y) l qs /\ ry = join_base C P /\ forall p, In p P <-> In p (concat qs)
         end) /\ In p ry) -> did k c base r.
  Lemma depth_did k c base r : build_depth C boxer order ext (S k) c base = Ok r -> did k c base r.
  Proof.
    intros H. cbn [build_depth] in H. inv_bind. rename a into n. destruct n as [z|op lev b|op lev l]; [discriminate| |].
    - destruct (lev =? 0); [eapply did_solid; eauto|]. destruct base as [l|]; [injection H as <-; eapply did_cst; eauto|]. destruct b; [discriminate|]. injection H as <-. eapply did_empty; eauto.
    - destruct (Z.eqb_spec lev 0) as [->|NE]; [eapply did_solid; eauto|].
      set (cc := Bcell (Seq op lev l) (b_planes c) (b_box c)) in *.
      assert (ONE : forall y ry, (match op with
                | AND => and_loop C boxer ext (build_depth C boxer order ext k) cc l (match y with None => PNone C | Some p => POne C p end)
                | OR => or_loop C boxer ext (build_depth C boxer order ext k) cc l y [] end) = Ok ry ->
         match op with
         | AND => run (build_depth C boxer order ext k) cc l (match y with None => None | Some p => Some [p] end) ry
         | OR => exists qs P, Forall2 (alt (build_depth C boxer order ext k) cc y) l qs /\ ry = join_base C P /\ forall p, In p P <-> In p (concat qs)
         end).
      { intros y ry E. destruct op.
        - apply and_loop_run in E. destruct y; exact E.
        - apply or_loop_alts in E as (qs & A & P & B & D). exists qs, P. split; auto. split; auto. intros p. rewrite D. cbn. tauto. }
      destruct base as [bs|].
      + inv_bind. injection H as <-. destruct (mapM_concat _ _ _ Ha0) as (A & B). eapply did_seq; eauto.
        * intros y Y. apply in_map_iff in Y as (p & <- & P). destruct (B p P) as (rp & E). exists rp. split; [apply (ONE (Some p) rp E)|]. intros q Q. apply A. eauto.
        * intros q Q. apply A in Q as (p & rp & P1 & P2 & P3). exists (Some p), rp. split; [apply in_map; auto|]. split; auto. apply (ONE (Some p) rp P2).
      + eapply did_seq; eauto.
        * intros y [<-|[]]. exists r. split; auto. apply (ONE None r H).
        * intros p P. exists None, r. split; [now left|]. split; auto. apply (ONE None r H).
  Qed.

  Lemma F2_In {A B} (Q : A -> B -> Prop) l m : Forall2 Q l m -> (forall a, In a l -> exists b, In b m /\ Q a b) /\ (forall b, In b m -> exists a, In a l /\ Q a b).
  Proof.
    induction 1 as [|a b l m HQ HF (IA & IB)]; [split; intros ? []|]. split.
    - intros a' [<-|HI]; [exists b; split; auto; now left|]. destruct (IA a' HI) as (b' & B1 & B2). exists b'. split; auto. now right.
    - intros b' [<-|HI]; [exists a; split; auto; now left|]. destruct (IB b' HI) as (a' & B1 & B2). exists a'. split; auto. now right.
  Qed.

  Lemma depth_truth : forall k, t_spec (build_depth C boxer order ext k).
  Proof.
    induction k as [|k IH]; intros c base r K H HP HI; [discriminate|]. apply depth_did in H.
    destruct H as [n GS SP|op lev b l GS -> ->|op lev GS ->|op lev l parts NE GS EP H1 H2].
    - eapply solid_parts_truth; [exact SP|exact HP|]. cbn [b_def]. intros z Z. apply HI. apply (group_surfs _ _ GS). exact Z.
    - destruct b; [exact HP|intros ? []].
    - intros ? [].
    - assert (HE : forall e, In e l -> incl (surfs e) K) by (intros e E z Z; apply HI; apply (group_surfs _ _ GS); eapply surfs_elt; eauto).
      assert (HY : forall y, In y parts -> forall p, y = Some p -> truth K p).
      { intros y Y p ->. apply HP. subst parts. destruct base as [bs|]; cbn [blist]; [apply in_map_iff in Y as (p' & E & P); congruence|destruct Y as [Y|[]]; discriminate]. }
      intros q Q. destruct (H2 q Q) as (y & ry & Y1 & Y2 & Y3). destruct op.
      + eapply (run_truth _ _ K IH); [exact Y2| |exact HE|exact Y3]. destruct y as [p|]; [|intros ? []]. intros p' [<-|[]]. eapply HY; eauto.
      + destruct Y2 as (qs & P & Y4 & -> & Y5). eapply join_base_ok; [|exact Y3]. intros p PP. apply Y5 in PP. apply in_concat in PP as (qe & QE & PE).
        apply F2_In in Y4 as (_ & Y4). destruct (Y4 qe QE) as (e & E1 & E2). destruct y as [p0|]; cbn [alt] in E2.
        * eapply (step_truth _ K); [exact IH| |apply HE; exact E1|exact E2|exact PE]. intros p' [<-|[]]. eapply HY; eauto.
        * eapply IH; [exact E2|intros ? []|rewrite sub_def; apply HE; exact E1|exact PE].
  Qed.

  Lemma depth_lower : forall k, l_spec (build_depth C boxer order ext k).
  Proof.
    induction k as [|k IH]; intros c base r J lo hi H CO SP AJ L HL; [discriminate|]. apply depth_did in H.
    assert (MO : forall q, has J q -> has (joined (b_def c) ++ J) q) by (intros q; apply has_mono; intros y; rewrite in_app_iff; auto).
    destruct H as [n GS SO|op lev b l GS -> ->|op lev GS ->|op lev l parts NE GS EP H1 H2].
    - apply MO. eapply solid_parts_lower; [exact SO|apply group_ok; eauto| |exact L|exact HL]. cbn [b_def]. intros z Z1 Z2. apply (AJ z Z1). apply (group_surfs _ _ GS). exact Z2.
    - apply MO. destruct b; [exact HL|]. exfalso. assert (Q : holds R (b_def c) x) by (apply CO; auto). apply (group_holds _ _ GS) in Q. discriminate.
    - exfalso. assert (Q : holds R (b_def c) x) by (apply CO; auto). apply (group_holds _ _ GS) in Q. discriminate.
    - assert (CO' := group_ok _ _ _ _ CO GS). set (cc := Bcell (Seq op lev l) (b_planes c) (b_box c)) in *.
      assert (BN : exists lev0 l0, b_def c = Seq op lev0 l0).
      { clear - GS. destruct (b_def c) as [z|o lv b|o lv l0]; cbn [group_single] in GS; try discriminate. destruct (lv =? 0); [injection GS as -> -> ->; eauto|]. inv_bind. destruct a as (l', g). destruct g; injection GS as <- <- <-; eauto. }
      destruct BN as (lev0 & l0 & BN). rewrite BN in *.
      assert (NE0 : lev0 <> 0). { intros ->. cbn [group_single] in GS. cbn in GS. congruence. }
      destruct (group_sep _ _ _ _ NE0 GS SP) as (l' & E & G1 & G2 & G3). injection E as <- <-.
      assert (AJ' : forall e, In e l -> apart J (surfs e)). { intros e E z Z1 Z2. apply (AJ z Z1). apply (group_surfs _ _ GS). eapply surfs_elt; eauto. }
      assert (WE : forall e, In e l -> wf e /\ incl (surfs e) (surfs root) /\ separate e).
      { intros e E. destruct CO' as ((W & I1 & _) & _). cbn [cc b_def] in *. split; [eapply wf_elts; eauto|]. split; [intros z Z; apply I1; eapply surfs_elt; eauto|]. rewrite Forall_forall in G1. auto. }
      assert (HN : holds R (Seq op lev l) x) by (destruct CO' as ((_ & _ & B & _) & _); auto).
      assert (PA : exists y, In y parts /\ match y with None => base = None | Some p => at_x C R x p /\ truth J p end).
      { subst parts. destruct base as [bs|]; [|exists None; split; [now left|auto]]. destruct HL as (p & P1 & P2). exists (Some p). split; [apply in_map; auto|auto]. }
      destruct PA as (y & Y1 & Y2). destruct (H1 y Y1) as (ry & HR & HI). enough (HY : has (joined (Seq op lev l0) ++ J) ry) by (destruct HY as (p & P1 & P2); exists p; auto).
      destruct op.
      + assert (HL' : hasb J (match y with None => None | Some p => Some [p] end)) by (destruct y as [p|]; cbn [hasb]; auto; exists p; split; [now left|tauto]).
        assert (EL : elts lo l).
        { intros e E. destruct (WE e E) as (? & ? & ?). repeat split; auto. intros _. unfold holds in *. cbn [eval] in HN. rewrite forallb_forall in HN. auto. }
        pose proof (run_lower _ cc lo hi IH CO' L l _ ry HR J EL (G2 eq_refl) AJ' HL') as Q. eapply has_mono; [|exact Q].
        intros z Z. apply in_app_or in Z as [Z|Z]; apply in_or_app; auto. left. apply G3. cbn [joined]. apply Z.eqb_neq in NE. rewrite NE. exact Z.
      + destruct HR as (qs & P & Y4 & -> & Y5). unfold holds in HN. cbn [eval] in HN. apply existsb_exists in HN as (e & E1 & E2). fold (holds R e x) in E2.
        destruct (F2_In _ _ _ Y4) as (F1 & _). destruct (F1 e E1) as (q & Q1 & Q2). destruct (WE e E1) as (W1 & W2 & W3).
        assert (COE : cell_ok (lo /\ holds R e x) hi (sub_cell C cc e)).
        { eapply sub_ok; [exact CO'|tauto|auto|auto|auto|]. split; [tauto|]. intros _. destruct CO' as ((_ & _ & _ & B) & _). apply B. unfold holds. cbn [cc b_def eval]. apply existsb_exists. eauto. }
        assert (HQ : has (joined e ++ J) q).
        { destruct y as [p|]; cbn [alt] in Q2.
          - eapply step_lower; [exact IH|exact COE|auto|auto|auto| |exact Q2]. exists p. split; [now left|tauto].
          - pose proof (IH (sub_cell C cc e) None q J _ _ Q2 COE) as V. rewrite sub_def in V. apply V; cbn; auto. }
        assert (TR : forall p, In p P -> truth (joined (Seq OR lev l0) ++ J) p).
        { intros p PP. apply Y5 in PP. apply in_concat in PP as (qe & QE & PE). destruct (F2_In _ _ _ Y4) as (_ & F2). destruct (F2 qe QE) as (f & F3 & F4).
          assert (IE : incl (surfs f) (joined (Seq OR lev l0) ++ J)).
          { intros z Z. apply in_or_app. left. cbn [joined]. apply Z.eqb_neq in NE. rewrite NE. apply (group_surfs _ _ GS). eapply surfs_elt; eauto. }
          destruct y as [p0|]; cbn [alt] in F4.
          - eapply (step_truth _ _ _ _ _ _ (depth_truth k)); [|exact IE|exact F4|exact PE]. intros p' [<-|[]]. eapply truth_mono; [|apply Y2]. intros z Z. apply in_or_app. auto.
          - eapply (depth_truth k); [exact F4|intros ? []|rewrite sub_def; exact IE|exact PE]. }
        assert (IN : inp (join_base C P)). { apply join_base_inp; auto. destruct HQ as (p & P1 & P2 & _). exists p. split; auto. apply Y5. apply in_concat. eauto. }
        destruct IN as (p & P1 & P2). exists p. split; auto. split; auto. eapply join_base_ok; eauto.
  Qed.

  Section Upper.
    Variable loud : Prop.
    Hypothesis FIRST : forall pl m, boxer pl 2 = Ok m -> a_or m = Fwd \/ loud.
    Hypothesis LM : loud -> meets_all.

    Lemma solid_parts_calm c base r : solid_parts C boxer order ext c base = Ok r -> calm C loud (blist base) -> (base = None -> ccalm loud c) -> calm C loud r.
    Proof.
      assert (CB : forall c b r, (p_or b = Fwd \/ loud) -> cut_base C order c b = Ok r -> calm C loud r).
      { clear c base r. intros c b r TB H. unfold cut_base in H. destruct (b_box c) as [m|]; [|discriminate].
        eapply (cut_loop_calm C loud _ _ _ [] [b]); [intros ? []|intros p [<-|[]]; auto|exact H]. }
      intros H HB0 HC. destruct base as [l|]; cbn [solid_parts blist] in *.
      - inv_bind. injection H as <-. destruct (mapM_concat _ _ _ Ha) as (A & _). intros q Q. apply A in Q as (p & rp & P1 & P2 & P3).
        destruct (flat C (p_shape p)); [injection P2 as <-; destruct P3|]. destruct (order (b_def c)); [discriminate|]. eapply CB; eauto.
      - inv_bind. rename a into c'. assert (CC : ccalm loud c').
        { destruct (b_box c) as [m|] eqn:BM; [injection Ha as <-; auto|]. unfold build_box in Ha. inv_bind. injection Ha as <-. intros m' [= <-]. eauto. }
        destruct (b_box c') as [m|] eqn:BM; [|discriminate].
        assert (NE : r = [] \/ exists s, cut_base C order c' (Piece s [] (a_or m)) = Ok r).
        { destruct (a_or m), (a_box m); try (left; injection H as <-; reflexivity);
          (destruct (order (b_def c')); [discriminate|]; match goal with H : match make C ?b with _ => _ end = _ |- _ => destruct (make C b) as [s|] end; [right; eauto|left; congruence]). }
        destruct NE as [->|(s & NE)]; [intros ? []|]. eapply CB; [|exact NE]. cbn [p_or]. apply CC. exact BM.
    Qed.

    Lemma depth_calm : forall k, c_spec (build_depth C boxer order ext k) loud.
    Proof.
      induction k as [|k IH]; intros c base r H HP HC; [discriminate|]. apply depth_did in H.
      destruct H as [n GS SP|op lev b l GS -> ->|op lev GS ->|op lev l parts NE GS EP H1 H2].
      - eapply solid_parts_calm; [exact SP|exact HP|exact HC].
      - destruct b; [exact HP|intros ? []].
      - intros ? [].
      - assert (HY : forall y, In y parts -> forall p, y = Some p -> p_or p = Fwd \/ loud).
        { intros y Y p ->. apply HP. subst parts. destruct base as [bs|]; cbn [blist]; [apply in_map_iff in Y as (p' & E & P); congruence|destruct Y as [Y|[]]; discriminate]. }
        intros q Q. destruct (H2 q Q) as (y & ry & Y1 & Y2 & Y3). destruct op.
        + eapply (run_calm _ _ loud IH); [exact Y2| |exact Y3]. destruct y as [p|]; [|intros ? []]. intros p' [<-|[]]. eapply HY; eauto.
        + destruct Y2 as (qs & P & Y4 & -> & Y5). eapply join_base_calm; [|exact Y3]. intros p PP. apply Y5 in PP. apply in_concat in PP as (qe & QE & PE).
          apply F2_In in Y4 as (_ & Y4). destruct (Y4 qe QE) as (e & E1 & E2). destruct y as [p0|]; cbn [alt] in E2.
          * eapply (step_calm _ loud); [exact IH| |exact E2|exact PE]. intros p' [<-|[]]. eapply HY; eauto.
          * eapply IH; [exact E2|intros ? []| |exact PE]. intros _ m. unfold sub_cell. cbn. discriminate.
    Qed.

    Lemma depth_upper : forall k, u_spec (build_depth C boxer order ext k) loud.
    Proof.
      induction k as [|k IH]; intros c base r J lo hi H CO SP AJ CB PB; [discriminate|]. apply depth_did in H.
      assert (MO : forall q, pure J q -> pure (joined (b_def c) ++ J) q) by (intros q; apply pure_mono; intros y; rewrite in_app_iff; auto).
      destruct H as [n GS SO|op lev b l GS -> ->|op lev GS ->|op lev l parts NE GS EP H1 H2].
      - destruct (solid_parts_upper _ _ _ J lo hi SO) as (U1 & U2); [apply group_ok; auto| |exact PB|auto]. cbn [b_def]. intros z Z1 Z2. apply (AJ z Z1). apply (group_surfs _ _ GS). exact Z2.
      - cbn [blist inpb] in *. destruct b; [|split; [apply pure_nil|intros Q; destruct (inp_nil _ _ _ Q)]]. split; auto. intros Q. split; auto. destruct CO as ((_ & _ & _ & BB) & _). apply BB. apply (group_holds _ _ GS). reflexivity.
      - split; [apply pure_nil|intros Q; destruct (inp_nil _ _ _ Q)].
      - assert (CO' := group_ok _ _ _ _ CO GS). set (cc := Bcell (Seq op lev l) (b_planes c) (b_box c)) in *.
        assert (BN : exists lev0 l0, b_def c = Seq op lev0 l0).
        { clear - GS. destruct (b_def c) as [z|o lv b|o lv l0]; cbn [group_single] in GS; try discriminate. destruct (lv =? 0); [injection GS as -> -> ->; eauto|]. inv_bind. destruct a as (l', g). destruct g; injection GS as <- <- <-; eauto. }
        destruct BN as (lev0 & l0 & BN). rewrite BN in *.
        assert (NE0 : lev0 <> 0). { intros ->. cbn [group_single] in GS. cbn in GS. congruence. }
        destruct (group_sep _ _ _ _ NE0 GS SP) as (l' & E & G1 & G2 & G3). injection E as <- <-.
        assert (AJ' : forall e, In e l -> apart J (surfs e)). { intros e E z Z1 Z2. apply (AJ z Z1). apply (group_surfs _ _ GS). eapply surfs_elt; eauto. }
        assert (WE : forall e, In e l -> wf e /\ incl (surfs e) (surfs root) /\ separate e).
        { intros e E. destruct CO' as ((W & I1 & _) & _). cbn [cc b_def] in *. split; [eapply wf_elts; eauto|]. split; [intros z Z; apply I1; eapply surfs_elt; eauto|]. rewrite Forall_forall in G1. auto. }
        assert (BH : holds R (Seq op lev l) x -> hi) by (destruct CO' as ((_ & _ & _ & B) & _); auto).
        assert (PY : forall y, In y parts -> match y with None => base = None | Some p => In p (blist base) end).
        { intros y Y. subst parts. destruct base as [bs|]; cbn [blist]; [apply in_map_iff in Y as (p' & <- & P); auto|destruct Y as [<-|[]]; auto]. }
        assert (ONE : forall y ry, In y parts -> (match op with
           | AND => run (build_depth C boxer order ext k) cc l (match y with None => None | Some p => Some [p] end) ry
           | OR => exists qs P, Forall2 (alt (build_depth C boxer order ext k) cc y) l qs /\ ry = join_base C P /\ forall p, In p P <-> In p (concat qs)
           end) -> pure (joined (Seq op lev l0) ++ J) ry /\ (inp ry -> inpb (match y with None => None | Some p => Some [p] end) /\ hi)).
        { clear H1 H2. intros y ry Y HR. specialize (PY y Y). set (yb := match y with None => None | Some p => Some [p] end) in *.
          assert (CY : calm C loud (blist yb)) by (subst yb; destruct y as [p|]; [|intros ? []]; intros p' [<-|[]]; auto).
          assert (PP : pure J (blist yb)) by (subst yb; destruct y as [p|]; [|intros ? []]; intros p' [<-|[]]; auto).
          destruct op.
          - assert (EL : elts lo l).
            { intros e E. destruct (WE e E) as (? & ? & ?). repeat split; auto. intros L. assert (HN : holds R (Seq AND lev l) x) by (destruct CO' as ((_ & _ & B & _) & _); auto).
              unfold holds in *. cbn [eval] in HN. rewrite forallb_forall in HN. auto. }
            destruct (run_upper _ cc loud lo hi LM IH (depth_calm k) CO' l yb ry HR J EL (G2 eq_refl) AJ' CY PP) as (U1 & U2). split.
            + eapply pure_mono; [|exact U1]. intros z Z. apply in_app_or in Z as [Z|Z]; apply in_or_app; auto. left. apply G3. cbn [joined]. apply Z.eqb_neq in NE. rewrite NE. exact Z.
            + intros Q. destruct (U2 Q) as (V1 & V2). split; auto.
              assert (AL : (forall e, In e l -> holds R e x) \/ hi).
              { clear - V2. induction l as [|e l IHl]; [left; intros ? []|]. destruct (V2 e (or_introl eq_refl)) as [V|]; auto. destruct IHl as [V3|]; auto; [intros; apply V2; now right|]. left. intros f [<-|F]; auto. }
              destruct AL as [AL|]; auto. apply BH. unfold holds. cbn [eval]. apply forallb_forall. auto.
          - destruct HR as (qs & P & Y4 & -> & Y5). destruct (F2_In _ _ _ Y4) as (_ & F2).
            assert (IP : inp P -> inpb yb /\ hi).
            { intros (p & P1 & P2). apply Y5 in P1. apply in_concat in P1 as (qe & QE & PE). destruct (F2 qe QE) as (e & F3 & F4). destruct (WE e F3) as (W1 & W2 & W3).
              assert (COE : cell_ok (lo /\ holds R e x) hi (sub_cell C cc e)).
              { eapply sub_ok; [exact CO'|tauto|auto|auto|auto|]. split; [tauto|]. intros Q. apply BH. unfold holds. cbn [eval]. apply existsb_exists. eauto. }
              subst yb. destruct y as [p0|]; cbn [alt inpb blist] in *.
              - destruct (step_upper _ loud J _ hi cc e [p0] qe LM IH COE) as (_ & U2); auto. apply U2. exists p. auto.
              - pose proof (IH (sub_cell C cc e) None qe J _ _ F4 COE) as V. rewrite sub_def in V. destruct V as (_ & V); auto. apply V. exists p. auto. }
            split.
            + intros p P1 P2. assert (IN : inp P) by (eapply join_base_inp; eauto; exists p; auto). destruct (IP IN) as (I1 & _).
              eapply join_base_ok; [|exact P1]. intros p' PP'. apply Y5 in PP'. apply in_concat in PP' as (qe & QE & PE). destruct (F2 qe QE) as (f & F3 & F4).
              assert (IE : incl (surfs f) (joined (Seq OR lev l0) ++ J)).
              { intros z Z. apply in_or_app. left. cbn [joined]. apply Z.eqb_neq in NE. rewrite NE. apply (group_surfs _ _ GS). eapply surfs_elt; eauto. }
              subst yb. destruct y as [p0|]; cbn [alt inpb blist] in *.
              * eapply (step_truth _ _ _ _ _ _ (depth_truth k)); [|exact IE|exact F4|exact PE]. intros p2 [<-|[]]. destruct I1 as (p3 & [<-|[]] & I1).
                eapply truth_mono; [|apply PP; [now left|exact I1]]. intros z Z. apply in_or_app. auto.
              * eapply (depth_truth k); [exact F4|intros ? []|rewrite sub_def; exact IE|exact PE].
            + intros Q. apply IP. eapply join_base_inp; eauto. }
        split.
        + intros q Q. destruct (H2 q Q) as (y & ry & Y1 & Y2 & Y3). destruct (ONE y ry Y1 Y2) as (U1 & _). auto.
        + intros (q & Q & QX). destruct (H2 q Q) as (y & ry & Y1 & Y2 & Y3). destruct (ONE y ry Y1 Y2) as (_ & U2). destruct U2 as (U2 & U3); [exists q; auto|]. split; auto.
          specialize (PY y Y1). destruct y as [p|]; [|subst base; exact Logic.I]. cbn [inpb] in U2. destruct U2 as (p' & [<-|[]] & U2). destruct base as [bs|]; [|exact Logic.I]. exists p. auto.
    Qed.
  End Upper.
End Depth.

(** * the solid *)
Section Top.
  Variable C : cad.
  Variable R : reading C.
  Hypothesis G : good_cad C R.
  Variable boxer : node * bx C -> Z -> res (abox (bx C)).
  Variable order : node -> list Z.
  Hypothesis OR1 : orders order.
  Variable ext : bx C.
  Variable c : bcell C.
  Hypothesis HB : boxes_ok R ext boxer (b_def c).
  Hypothesis W : wf (b_def c).
  Hypothesis SP : separate (b_def c).
  Hypothesis HP : forall x, inb R ext x -> (holds R (fst (b_planes c)) x <-> holds R (b_def c) x).
  Hypothesis WP : wf (fst (b_planes c)) /\ incl (surfs (fst (b_planes c))) (surfs (b_def c)).
  Hypothesis HBX : forall m, b_box c = Some m -> covers R ext m (holds R (b_def c)).

  Lemma top_ok x : inb R ext x -> cell_ok C R ext (b_def c) x (holds R (b_def c) x) (holds R (b_def c) x) c.
  Proof.
    intros HX. split; [split; [auto|split; [apply incl_refl|split; auto]]|]. split; [split; [apply WP|split; [apply WP|split; apply HP; auto]]|].
    intros m Hm. exists (b_def c). split; [auto|split; auto].
  Qed.
  Lemma solid_lower k un s : build_shape C boxer order ext k un c = Ok s -> forall x, inb R ext x -> holds R (b_def c) x -> in_solid R s x.
  Proof.
    intros H x HX HH. unfold build_shape in H. destruct (existsb un (surfs (b_def c))); [discriminate|]. inv_bind. rename a into l. injection H as <-.
    assert (Q : has C R x (joined (b_def c) ++ []) l).
    { eapply (depth_lower C R G boxer order OR1 ext (b_def c) HB x HX k c None); [exact Ha|apply top_ok; auto|auto|intros z []|auto|exact Logic.I]. }
    destruct Q as (p & P1 & P2 & _). unfold in_solid. destruct (fuse_all C (map p_shape l)) as [s|] eqn:E.
    - apply (fuse_all_mem C R G _ _ E). exists (p_shape p). split; auto. apply in_map. auto.
    - destruct l as [|a [|b l]]; cbn in E; try discriminate. destruct P1.
  Qed.
  Lemma solid_upper (loud : Prop) k un s : (forall pl m, boxer pl 2 = Ok m -> a_or m = Fwd \/ loud) -> (loud -> meets_all C boxer) ->
    build_shape C boxer order ext k un c = Ok s -> forall x, inb R ext x -> in_solid R s x -> holds R (b_def c) x.
  Proof.
    intros FI LM H x HX HH. unfold build_shape in H. destruct (existsb un (surfs (b_def c))); [discriminate|]. inv_bind. rename a into l. injection H as <-.
    unfold in_solid in HH. destruct (fuse_all C (map p_shape l)) as [s|] eqn:E; [|destruct HH].
    apply (fuse_all_mem C R G _ _ E) in HH. apply in_shapes in HH.
    destruct (depth_upper C R G boxer order OR1 ext (b_def c) HB x HX loud FI LM k c None l [] _ _ Ha (top_ok x HX) SP) as (_ & U); auto; [intros z []|intros ? []|apply pure_nil|]. apply U. exact HH.
  Qed.
End Top.
