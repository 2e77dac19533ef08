(** Proofs about constraint table construction (CtBuild.v) and void cells
    (VoidCell.v). *)
From Verif Require Import Prelude BoolSpec BoolSeq BoolProofs BoolProofs2 BoolTotal BoolTotal2 BoolTotal3 BoolStrict
  CtSpec Ctable CtableProofs CtBuild VoidCell.

(* -------------------------------------------------------------- *)
(** * Appending sequences to OR / AND accumulators *)

(** Accumulators built by append from an empty list. *)
Definition acc_ok (op : bop) (n : node) : Prop :=
  (exists lev l, n = Seq op lev l /\ Forall not_cst l) \/ (exists lev, n = Cst op lev (absorbing op)).

Lemma append_acc v op acc d r :
  acc_ok op acc -> wf acc -> wf d -> is_seq d -> append acc [AN d] = Ok r ->
  eval v r = opb op (eval v acc) (eval v d) /\ wf r /\ acc_ok op r.
Proof.
  intros A W Wd Sd H.
  assert (Wr : wf r) by (apply (append_wf _ _ _ W (Forall_cons (P := wf_arg) (AN d) Wd (Forall_nil _)) H)).
  destruct A as [(lev & l & -> & NC)|(lev & ->)].
  - destruct (append_eval v _ _ _ H) as (E & _). rewrite (E _ _ _ eq_refl).
    unfold args_val; cbn [fold_right arg_val]. rewrite opb_neutral_r. split; auto. split; auto.
    cbn [append] in H. invp H. destruct d as [z|o lv b|o lv xs]; [destruct Sd| |]; cbn.
    + destruct (eqb b (absorbing op)) eqn:E1; [right|left; eauto].
      apply eqb_prop in E1. subst. eauto.
    + left. do 2 eexists. split; [reflexivity|]. apply Forall_app; split; [auto|repeat constructor].
  - cbn [append] in H. replace (eqb (absorbing op) (neutral op)) with false in H by (destruct op; auto).
    invp H. cbn [eval]. rewrite opb_absorb. split; auto. split; auto. right; eauto.
Qed.

Lemma append_acc_total op acc d : acc_ok op acc -> is_seq d -> exists r, append acc [AN d] = Ok r.
Proof.
  intros [(lev & l & -> & _)|(lev & ->)] S; cbn [append]; eauto.
  replace (eqb (absorbing op) (neutral op)) with false by (destruct op; auto). eauto.
Qed.

Lemma acc_is_seq op n : acc_ok op n -> is_seq n.
Proof. intros [(? & ? & -> & _)|(? & ->)]; exact I. Qed.

(* -------------------------------------------------------------- *)
(** * Union of the solids *)

Lemma void_union_sound v defs : forall acc r,
  void_union acc defs = Ok r -> wf acc -> acc_ok OR acc -> Forall wf defs -> Forall is_seq defs ->
  eval v r = eval v acc || existsb (eval v) defs /\ wf r /\ acc_ok OR r.
Proof.
  induction defs as [|d defs IH]; intros acc r H W A WD SD; cbn in H.
  - invp H. simpl. rewrite orb_false_r. auto.
  - apply Forall_cons_iff in WD. destruct WD as [Wd WD]. apply Forall_cons_iff in SD. destruct SD as [Sd SD].
    inv_bind. destruct (append_acc v _ _ _ _ A W Wd Sd Ha) as (E & Wa & Aa).
    destruct (IH _ _ H Wa Aa WD SD) as (E' & Wr & Ar). split; auto.
    rewrite E', E. simpl. rewrite orb_assoc. auto.
Qed.

Lemma wf_empty op : wf (Seq op 0 []). Proof. cbn. auto with zarith. Qed.
Lemma acc_empty op : acc_ok op (Seq op 0 []). Proof. left; do 2 eexists; split; [reflexivity|constructor]. Qed.

(* -------------------------------------------------------------- *)
(** * Box planes *)

Lemma subst_box_sound v bs : forall n r,
  subst_box bs n = Ok r -> wf n -> is_seq n -> Forall wf bs -> forallb (eval v) bs = true ->
  eval v r = eval v n /\ wf r /\ is_seq r.
Proof.
  induction bs as [|b bs IH]; intros n r H W S WB T; cbn [subst_box] in H.
  - invp H; auto.
  - destruct b as [s|o lv b|o lv l]; try discriminate. inv_bind.
    apply Forall_cons_iff in WB. destruct WB as [Ws WB]. simpl in Ws.
    cbn [forallb] in T. apply andb_true_iff in T. destruct T as [T1 T2]. simpl in T1.
    assert (E : v (Z.abs (Z.abs s)) = (0 <? s)).
    { rewrite Z.abs_involutive. unfold lit_val in T1. destruct (Z.ltb_spec s 0).
      - rewrite Z.abs_neq by lia. apply negb_true_iff in T1. rewrite T1. lia.
      - rewrite Z.abs_eq by lia. rewrite T1. lia. }
    destruct (subst_sound v _ _ _ _ Ha W E) as (E1 & W1).
    pose proof (subst_is_seq _ _ _ _ S Ha) as S1.
    destruct (IH _ _ H W1 S1 WB T2) as (E2 & W2 & S2). split; [congruence|auto].
Qed.
Lemma subst_box_wf bs : forall n r,
  subst_box bs n = Ok r -> wf n -> is_seq n -> wf r /\ is_seq r.
Proof.
  induction bs as [|b bs IH]; intros n r H W S; cbn [subst_box] in H.
  - invp H; auto.
  - destruct b as [s|o lv b|o lv l]; try discriminate. inv_bind.
    destruct (subst_sound (fun _ => 0 <? s) _ _ _ _ Ha W eq_refl) as (_ & W1).
    pose proof (subst_is_seq _ _ _ _ S Ha) as S1. eauto.
Qed.

Definition elts_ok (n : node) : Prop := match n with Seq _ _ l => Forall not_cst l | _ => True end.
Lemma acc_elts op n : acc_ok op n -> elts_ok n.
Proof. intros [(? & ? & -> & H)|(? & ->)]; simpl; auto. Qed.
Lemma clean_elts n : elts_ok (clean n).
Proof.
  destruct n as [z|o lv b|o lv l]; cbn [clean]; try exact I.
  unfold clean_end. destruct (clean_list clean o l) as [b|l'] eqn:E; [exact I|].
  apply clean_list_not_cst in E. destruct l'; [exact I|exact E].
Qed.

Lemma wrap0_sound v n r : wrap0 n = Ok r -> wf n -> elts_ok n ->
  eval v r = eval v n /\ wf r /\ is_seq r /\ elts_ok r.
Proof.
  intros H W EL. destruct n as [z|o lv b|o lv l]; cbn [wrap0] in H; try discriminate.
  - destruct (lv =? 0); [discriminate|]. invp H. split; [auto|split; [auto|split; exact I]].
  - destruct (Z.eqb_spec lv 0).
    + assert (W' : wf (Seq (if Nat.eqb (length l) 1 then AND else o) lv l)) by (apply wf_seq; apply wf_seq in W; auto).
      assert (E' : eval v (Seq (if Nat.eqb (length l) 1 then AND else o) lv l) = eval v (Seq o lv l)).
      { destruct l as [|x [|y l]]; cbn [length Nat.eqb]; auto.
        rewrite !eval_seq, !evl_cons, !evl_nil, !opb_neutral_r. auto. }
      destruct (append_acc v OR _ _ _ (acc_empty OR) (wf_empty OR) W' I H) as (E & Wr & Ar).
      split; [rewrite E, E'; reflexivity|]. split; auto. split; [eapply acc_is_seq; eauto|].
      eapply acc_elts; eauto.
    + invp H. split; [auto|split; [auto|split; [exact I|auto]]].
Qed.
Lemma wrap0_wf n r : wrap0 n = Ok r -> wf n -> elts_ok n -> wf r /\ is_seq r /\ elts_ok r.
Proof. intros H W E. apply (wrap0_sound (fun _ => true) _ _ H W E). Qed.

(* -------------------------------------------------------------- *)
(** * Reduction with the table *)

Lemma reduce_loop_sound ord diag t v :
  regular t -> pos_keys t -> in_box t v ->
  (forall m x, wf m -> In x (ord m) -> 0 < x) ->
  forall l nt r, Forall wf l -> Forall not_cst l -> wf nt -> acc_ok OR nt ->
  reduce_loop true ord diag t l nt = Ok r ->
  (match r with None => true | Some n => eval v n end) = eval v nt || existsb (eval v) l /\
  (match r with None => True | Some n => wf n /\ acc_ok OR n end).
Proof.
  intros R PK B OP. induction l as [|s l IH]; intros nt r WL NC W A H; cbn [reduce_loop] in H.
  - invp H. simpl. rewrite orb_false_r. auto.
  - apply Forall_cons_iff in WL. destruct WL as [Ws WL]. apply Forall_cons_iff in NC. destruct NC as [Ns NC].
    inv_bind. rename a into s'.
    assert (Q : eval v s' = eval v s /\ wf s' /\ is_seq s').
    { destruct s as [z|o lv b|o lv xs].
      - unfold remove_extra in Ha. inv_bind. discriminate.
      - destruct Ns.
      - eapply remove_extra_sound; eauto. }
    destruct Q as (E & W' & S'). simpl existsb. rewrite <- E.
    destruct s' as [z|o lv [|]|o lv xs]; [destruct S'| | |].
    + invp H. simpl. rewrite orb_true_r. auto.
    + simpl. apply IH; auto.
    + inv_bind. destruct (append_acc v _ _ _ _ A W W' I Ha0) as (E2 & W2 & A2).
      destruct (IH _ _ WL NC W2 A2 H) as (E3 & Q). split; auto. rewrite E3, E2. cbn [opb]. rewrite orb_assoc. auto.
Qed.

(* -------------------------------------------------------------- *)
(** * Complement of the solids *)

Lemma compl_seq n c g : get_complementary n = Ok (c, g) -> is_seq c.
Proof.
  unfold get_complementary. intros H. destruct n as [z|o lv b|o lv l].
  - discriminate.
  - discriminate.
  - cbn [compl_f] in H. destruct (lv =? 0).
    + inv_bind. invp H. exact I.
    + inv_bind. destruct a; try discriminate. inv_bind. invp H. exact I.
Qed.

Lemma comp_loop_sound v no : forall l cs r, Forall wf l -> wf cs -> acc_ok AND cs ->
  comp_loop no l cs = Ok r ->
  (match r with None => false | Some n => eval v n end) = eval v cs && negb (existsb (eval v) l) /\
  (match r with None => True | Some n => wf n /\ acc_ok AND n end).
Proof.
  induction l as [|c l IH]; intros cs r WL W A H; cbn [comp_loop] in H.
  - invp H. simpl. rewrite andb_true_r. auto.
  - apply Forall_cons_iff in WL. destruct WL as [Wc WL].
    inv_bind. rename a into c1.
    assert (Q : eval v c1 = eval v c /\ wf c1).
    { destruct no; [|invp Ha; auto]. apply (check_sound v _ _ Ha Wc). }
    destruct Q as (E & W1). simpl existsb. rewrite <- E.
    assert (HC : (do x <- get_complementary c1; let (p, _) := x in
                    do cs <- append cs [AN p]; comp_loop no l cs) = Ok r ->
       (match r with None => false | Some n => eval v n end) = eval v cs && negb (eval v c1 || existsb (eval v) l) /\
       (match r with None => True | Some n => wf n /\ acc_ok AND n end)).
    { intros HH. inv_bind. destruct a as [p g]. inv_bind.
      destruct (compl_f_sound v _ _ _ _ Ha0 W1) as (E1 & _ & Wp & _).
      pose proof (compl_seq _ _ _ Ha0) as Sp.
      destruct (append_acc v _ _ _ _ A W Wp Sp Ha1) as (E2 & W2 & A2).
      destruct (IH _ _ WL W2 A2 HH) as (E3 & Q). split; auto.
      rewrite E3, E2, E1. cbn [opb]. rewrite negb_orb, andb_assoc. auto. }
    destruct no; [|auto].
    destruct c1 as [z|o lv [|]|o lv xs]; [apply HC; exact H| | |apply HC; exact H]; clear HC.
    + invp H. simpl. rewrite andb_false_r. auto.
    + simpl. apply IH; auto.
Qed.

Lemma comp_seq_sound v no lev l r : wf (Seq OR lev l) ->
  comp_seq no (Seq OR lev l) = Ok r ->
  (match r with None => false | Some n => eval v n end) = negb (existsb (eval v) l) /\
  (match r with None => True | Some n => wf n end).
Proof.
  intros W H. unfold comp_seq in H. destruct (lev =? 0).
  - inv_bind. destruct a as [c g]. invp H. destruct (compl_f_sound v _ _ _ _ Ha W) as (E & _ & Wc & _).
    rewrite E. auto.
  - cbn [bop_eqb] in H. rewrite andb_false_r in H.
    apply wf_seq in W. destruct W as (_ & _ & W).
    destruct (comp_loop_sound v no _ _ _ W (wf_empty AND) (acc_empty AND) H) as (E & Q).
    split; auto. destruct r; auto. tauto.
Qed.

Lemma wrap0_acc n r : acc_ok OR n -> wrap0 n = Ok r -> acc_ok OR r.
Proof.
  intros [(lev & l & -> & NC)|(lev & ->)] H; cbn [wrap0] in H.
  - destruct (lev =? 0).
    + cbn in H. invp H. left. do 2 eexists; split; [reflexivity|]. repeat constructor.
    + invp H. left; eauto.
  - destruct (lev =? 0); [discriminate|]. invp H. right; eauto.
Qed.

(* -------------------------------------------------------------- *)
(** * The void cell *)

Section Main.
  Variable v : point.
  Variable ord : node -> list Z.
  Variable mk : list Z -> res ctab.
  Variable k : nat.
  Hypothesis OP : forall m x, wf m -> In x (ord m) -> 0 < x.
  Variable m : smode.
  Variable encl : bool.
  Variable boxDef : node.
  Hypothesis WB : wf boxDef.
  Hypothesis SB : is_seq boxDef.
  Hypothesis MK : forall sl t, mk sl = Ok t -> regular t /\ pos_keys t.
  (** The table tells the truth about the points of the box. *)
  Hypothesis BOX : eval v boxDef = true -> forall sl t, mk sl = Ok t -> in_box t v.
  Hypothesis BOXE : encl = true -> forall sl t, mk sl = Ok t -> in_box t v.

  (** at a point of the box, the reduction keeps the union of the solids *)
  Lemma reduce_sound vsd r :
    encl = true \/ eval v boxDef = true ->
    (encl = false -> exists lev l, boxDef = Seq AND lev l) ->
    wf vsd -> acc_ok OR vsd -> reduce true ord mk m encl boxDef vsd = Ok r ->
    match r with
    | inl None => eval v vsd = true
    | inl (Some b) => b = boxDef /\ eval v vsd = false
    | inr (n, t) => eval v n = eval v vsd /\ wf n /\ acc_ok OR n /\
                    (m <> SNo -> exists tt sl, t = Some tt /\ mk sl = Ok tt)
    end.
  Proof.
    intros HB HP W A H. unfold reduce in H.
    assert (HX : m <> SNo ->
      (do (sl, vsd1) <-
           (if encl then Ok (nodup Z.eq_dec (surfs vsd ++ surfs boxDef), vsd)
            else do bs <- elems_of boxDef; do n <- subst_box bs vsd; Ok (surfs vsd, clean n));
        match encl, vsd1 with
        | false, Cst _ _ true => Ok (inl None)
        | false, Cst _ _ false => Ok (inl (Some boxDef))
        | _, _ =>
            do t <- mk sl;
            do w <- wrap0 vsd1;
            match w with
            | Seq op _ l =>
                if true && bop_eqb op AND then Err AndVoid
                else
                  do r <- reduce_loop true ord (match m with SDiag => true | _ => false end) t l (Seq OR 0 []);
                  match r with
                  | None => Ok (inl None)
                  | Some n => Ok (inr (n, Some t))
                  end
            | _ => Err TypeError
            end
        end) = Ok r ->
      match r with
      | inl None => eval v vsd = true
      | inl (Some b) => b = boxDef /\ eval v vsd = false
      | inr (n, t) => eval v n = eval v vsd /\ wf n /\ acc_ok OR n /\
                      (m <> SNo -> exists tt sl, t = Some tt /\ mk sl = Ok tt)
      end).
    { clear H. intros HM H. apply bind_ok in H. destruct H as ([sl vsd1] & H1 & H).
      assert (Q : eval v vsd1 = eval v vsd /\ wf vsd1 /\ is_seq vsd1 /\ elts_ok vsd1).
      { destruct encl.
        - invp H1. repeat split; auto. eapply acc_is_seq; eauto. eapply acc_elts; eauto.
        - destruct (HP eq_refl) as (lb & bl & EB). rewrite EB in H1. cbn [elems_of bind] in H1.
          inv_bind. rename a into n1. injection H1 as _ <-.
          destruct HB as [HB|HB]; [discriminate|]. rewrite EB in HB, WB. cbn [eval] in HB.
          apply wf_seq in WB. destruct WB as (_ & _ & WL).
          destruct (subst_box_sound v _ _ _ Ha W (acc_is_seq _ _ A) WL HB) as (E & W1 & S1).
          split; [rewrite clean_eval; auto|]. split; [apply clean_wf; auto|].
          split; [|apply clean_elts]. destruct n1 as [z|o lv b|o lv l]; [destruct S1|exact I|].
          cbn. unfold clean_end. destruct (clean_list _ _ _) as [b|[|]]; exact I. }
      destruct Q as (E & W1 & S1 & EL).
      assert (HN : (do t <- mk sl;
            do w <- wrap0 vsd1;
            match w with
            | Seq op _ l =>
                if true && bop_eqb op AND then Err AndVoid
                else
                  do r <- reduce_loop true ord (match m with SDiag => true | _ => false end) t l (Seq OR 0 []);
                  match r with
                  | None => Ok (inl None)
                  | Some n => Ok (inr (n, Some t))
                  end
            | _ => Err TypeError
            end) = Ok r -> match r with
      | inl None => eval v vsd = true
      | inl (Some b) => b = boxDef /\ eval v vsd = false
      | inr (n, t) => eval v n = eval v vsd /\ wf n /\ acc_ok OR n /\
                      (m <> SNo -> exists tt sl, t = Some tt /\ mk sl = Ok tt)
      end).
      { clear H. intros H. inv_bind. rename a into t. destruct (MK _ _ Ha) as (R & PK).
        assert (IB : in_box t v) by (destruct HB; eauto).
        destruct (wrap0_sound v _ _ Ha0 W1 EL) as (E2 & W2 & S2 & EL2). rename a0 into w.
        destruct w as [z|o lv b|o lv l]; try discriminate.
        destruct o; cbn [andb bop_eqb] in H; [discriminate|].
        inv_bind. apply wf_seq in W2. destruct W2 as (_ & _ & W2).
        destruct (reduce_loop_sound _ _ _ _ R PK IB OP _ _ _ W2 EL2 (wf_empty OR) (acc_empty OR) Ha1) as (E3 & Q).
        cbn [eval existsb orb] in E3, E2.
        destruct a as [n|]; invp H.
        - destruct Q. split; [congruence|]. split; auto. split; auto. intros _; eauto.
        - congruence. }
      destruct encl; [destruct vsd1; apply HN; exact H|].
      destruct vsd1 as [z|o lv b|o lv l]; [apply HN; exact H| |apply HN; exact H].
      destruct b; injection H as <-; simpl in E; auto. }
    destruct m; [|apply HX; auto; discriminate|apply HX; auto; discriminate].
    inv_bind. invp H. destruct (wrap0_sound v _ _ Ha W (acc_elts _ _ A)) as (E & W1 & _).
    split; auto. split; auto. split; [eapply wrap0_acc; eauto|]. congruence.
  Qed.

  Lemma simpl_sound ct n r : compatible v ct -> wf n -> simpl true k ord ct n = Ok r -> eval v r = eval v n /\ wf r.
  Proof. intros C W H. apply (simplify_f_sound v ord ct C k 0 n r H W). Qed.

  Lemma append_and n a r : append n [AN a] = Ok r -> has_op AND n = true -> eval v r = eval v n && eval v a.
  Proof.
    intros H O. destruct (append_eval v _ _ _ H) as (E1 & E2).
    destruct n as [z|o lv b|o lv l]; cbn in O; try discriminate; destruct o; try discriminate.
    - rewrite (E2 _ _ _ eq_refl). unfold args_val. cbn. rewrite andb_true_r. auto.
    - rewrite (E1 _ _ _ eq_refl). unfold args_val. cbn. rewrite andb_true_r. auto.
  Qed.
  Lemma append_and2 n a b r : append n [AN a; AN b] = Ok r -> has_op AND n = true -> eval v r = eval v n && (eval v a && eval v b).
  Proof.
    intros H O. destruct (append_eval v _ _ _ H) as (E1 & E2).
    destruct n as [z|o lv bb|o lv l]; cbn in O; try discriminate; destruct o; try discriminate.
    - rewrite (E2 _ _ _ eq_refl). unfold args_val. cbn. rewrite andb_true_r. auto.
    - rewrite (E1 _ _ _ eq_refl). unfold args_val. cbn. rewrite andb_true_r. auto.
  Qed.
  Lemma has_op_cases n : is_seq n -> has_op OR n = false -> has_op AND n = true.
  Proof. destruct n as [z|[] lv b|[] lv l]; cbn; auto; discriminate || tauto. Qed.


  Lemma table_compatible tt sl : mk sl = Ok tt -> in_box tt v -> compatible v (Some (get_constraint_set tt)).
  Proof.
    intros H B x ts fs E. destruct (MK _ _ H) as (R & PK). eapply get_constraint_set_agrees; eauto.
  Qed.

  Lemma assemble_in t compl0 compSeq r :
    (m <> SNo -> exists tt sl, t = Some tt /\ mk sl = Ok tt) ->
    wf compl0 -> has_op AND compl0 = true -> wf compSeq -> is_seq compSeq -> eval v compl0 = eval v boxDef ->
    encl = true \/ eval v boxDef = true ->
    assemble true k ord m encl t compl0 compSeq = Ok r ->
    eval v r = eval v boxDef && eval v compSeq.
  Proof.
    intros HT W0 O0 Wc Sc E0 HB H. unfold assemble in H.
    assert (HN : (do cs <- simpl true k ord None compSeq;
                  do c <- simpl true k ord None compl0;
                  if has_op OR c then append (Seq AND 0 []) [AN c; AN cs] else append c [AN cs]) = Ok r ->
                 eval v r = eval v boxDef && eval v compSeq).
    { intros HH. inv_bind. destruct (simpl_sound None _ _ I Wc Ha) as (E1 & W1).
      destruct (simpl_sound None _ _ I W0 Ha0) as (E2 & W2). rename a into cs. rename a0 into c.
      destruct (has_op OR c) eqn:EO.
      - rewrite (append_and2 _ _ _ _ HH eq_refl). simpl. congruence.
      - assert (is_seq c) by (destruct c; [discriminate HH|exact I|exact I]).
        rewrite (append_and _ _ _ HH (has_op_cases _ H0 EO)). congruence. }
    destruct m.
    - apply HN; exact H.
    - apply HN; destruct t; exact H.
    - destruct (HT ltac:(discriminate)) as (tt & sl & -> & Hmk).
      assert (IB : in_box tt v) by (destruct HB; eauto).
      pose proof (table_compatible _ _ Hmk IB) as CP.
      destruct encl.
      + inv_bind. rename a into c.
        assert (Wcc : wf c) by (apply (append_wf _ _ _ W0 (Forall_cons (P := wf_arg) (AN compSeq) Wc (Forall_nil _)) Ha)).
        destruct (simpl_sound _ _ _ CP Wcc H) as (E1 & _).
        rewrite E1, (append_and _ _ _ Ha O0). congruence.
      + inv_bind. destruct (simpl_sound _ _ _ CP Wc Ha) as (E1 & _).
        rewrite (append_and _ _ _ H O0). congruence.
  Qed.

  Lemma assemble_out t compl0 compSeq r :
    wf compl0 -> has_op AND compl0 = true -> eval v compl0 = false -> encl = false ->
    (m = SFull -> t <> None) ->
    assemble true k ord m encl t compl0 compSeq = Ok r -> eval v r = false.
  Proof.
    intros W0 O0 E0 HE HT H. unfold assemble in H.
    assert (HN : (do cs <- simpl true k ord None compSeq;
                  do c <- simpl true k ord None compl0;
                  if has_op OR c then append (Seq AND 0 []) [AN c; AN cs] else append c [AN cs]) = Ok r ->
                 eval v r = false).
    { intros HH. inv_bind. destruct (simpl_sound None _ _ I W0 Ha0) as (E2 & W2). rename a into cs. rename a0 into c.
      destruct (has_op OR c) eqn:EO.
      - rewrite (append_and2 _ _ _ _ HH eq_refl). rewrite E2, E0. auto.
      - assert (is_seq c) by (destruct c; [discriminate HH|exact I|exact I]).
        rewrite (append_and _ _ _ HH (has_op_cases _ H0 EO)). rewrite E2, E0. auto. }
    destruct m.
    - apply HN; exact H.
    - apply HN; destruct t; exact H.
    - destruct t as [tt|]; [|exfalso; apply HT; auto]. rewrite HE in H. inv_bind.
      rewrite (append_and _ _ _ H O0), E0. auto.
  Qed.

  (** what the reduction returns, at any point *)
  Lemma reduce_shape vsd r : reduce true ord mk m encl boxDef vsd = Ok r ->
    match r with
    | inl None => True
    | inl (Some b) => b = boxDef
    | inr (n, t) => m = SFull -> t <> None
    end.
  Proof.
    intros H. unfold reduce in H.
    assert (HX : forall d sl vsd1, 
         (do t <- mk sl; do w <- wrap0 vsd1; match w with
           | Seq op _ l => if true && bop_eqb op AND then Err AndVoid else
               do r <- reduce_loop true ord d t l (Seq OR 0 []);
               match r with None => Ok (inl None) | Some n => Ok (inr (n, Some t)) end
           | _ => Err TypeError end) = Ok r -> match r with
    | inl None => True
    | inl (Some b) => b = boxDef
    | inr (n, t) => m = SFull -> t <> None
    end).
    { clear H. intros d sl vsd1 HH. inv_bind. destruct a0 as [|?|? ? ?]; try discriminate.
      destruct (true && bop_eqb op AND); [discriminate|].
      inv_bind. destruct a0; invp HH; auto. discriminate. }
    destruct m.
    - inv_bind. invp H. discriminate.
    - apply bind_ok in H. destruct H as ([sl vsd1] & H1 & H).
      destruct encl; [destruct vsd1; eapply HX; exact H|].
      destruct vsd1 as [|? ? []|]; try (eapply HX; exact H); injection H as <-; auto.
    - apply bind_ok in H. destruct H as ([sl vsd1] & H1 & H).
      destruct encl; [destruct vsd1; eapply HX; exact H|].
      destruct vsd1 as [|? ? []|]; try (eapply HX; exact H); injection H as <-; auto.
  Qed.

  Lemma comp_seq_is_seq no n c : comp_seq no n = Ok (Some c) -> elts_ok n -> wf n -> is_seq c.
  Proof.
    intros H EL W. unfold comp_seq in H. destruct n as [|?|op lev l]; try discriminate.
    destruct (lev =? 0).
    - inv_bind. destruct a. invp H. eapply compl_seq; eauto.
    - assert (G : forall l cs r, is_seq cs -> comp_loop no l cs = Ok (Some r) -> is_seq r).
      { clear. induction l as [|c l IH]; intros cs r S H; cbn [comp_loop] in H; [invp H; auto|].
        inv_bind. rename a into c1.
        assert (HC : (do x <- get_complementary c1; let (p, _) := x in
                    do cs <- append cs [AN p]; comp_loop no l cs) = Ok (Some r) -> is_seq r).
        { intros HH. inv_bind. destruct a as [p g]. inv_bind. pose proof (compl_seq _ _ _ Ha0) as Sp.
          eapply IH; [|exact HH]. destruct cs as [|o lv b|o lv xs]; [destruct S| |]; cbn [append] in Ha1.
          - destruct (eqb b (neutral o)); [|invp Ha1; exact I]. destruct p; [destruct Sp|invp Ha1; exact I|invp Ha1; exact I].
          - injection Ha1 as <-. destruct p; [destruct Sp| |]; cbn; [destruct (eqb _ _)|]; exact I. }
        destruct no; [|apply HC; exact H].
        destruct c1 as [|? ? []|]; try (apply HC; exact H); [discriminate|eauto]. }
      eapply G; [|exact H]. exact I.
  Qed.

  Definition target (defs : list node) : bool := eval v boxDef && negb (existsb (eval v) defs).
  Definition pre_ok (x : option node + node) (b : bool) : Prop :=
    match x with
    | inl None => b = false
    | inl (Some c) => eval v c = b
    | inr c => eval v c = b
    end.

  Lemma finish_in n t compl0 x :
    encl = true \/ eval v boxDef = true ->
    (m <> SNo -> exists tt sl, t = Some tt /\ mk sl = Ok tt) ->
    wf compl0 -> has_op AND compl0 = true -> eval v compl0 = eval v boxDef ->
    wf n -> acc_ok OR n ->
    finish true k ord m encl boxDef compl0 n t = Ok x -> pre_ok x (eval v boxDef && negb (eval v n)).
  Proof.
    intros HB HT W0 O0 E0 W A H.
    destruct A as [(lv & l & -> & NC)|(lv & ->)]; cbn [finish] in H.
    - destruct l as [|y l]; [invp H; cbn; rewrite andb_true_r; auto|].
      inv_bind. destruct (comp_seq_sound v _ _ _ _ W Ha) as (E & WC).
      cbn [eval]. rewrite <- E. destruct a as [cs|].
      + inv_bind. injection H as <-. cbn [pre_ok].
        apply (assemble_in t compl0 cs a HT W0 O0 WC (comp_seq_is_seq _ _ _ Ha NC W) E0 HB Ha0).
      + injection H as <-. cbn. apply andb_false_r.
    - invp H. cbn. apply andb_false_r.
  Qed.

  Lemma finish_out n t compl0 x :
    encl = false -> eval v boxDef = false -> (m = SFull -> t <> None) ->
    wf compl0 -> has_op AND compl0 = true -> eval v compl0 = eval v boxDef ->
    finish true k ord m encl boxDef compl0 n t = Ok x -> pre_ok x false.
  Proof.
    intros HE HB HT W0 O0 E0 H.
    assert (G : (do cs <- comp_seq (match m with SNo => true | _ => false end) n;
        match cs with
        | None => Ok (inl None)
        | Some compSeq => do c <- assemble true k ord m encl t compl0 compSeq; Ok (inr c)
        end) = Ok x -> pre_ok x false).
    { intros HH. inv_bind. destruct a as [cs|].
      - inv_bind. injection HH as <-. cbn. 
        refine (assemble_out t compl0 cs a W0 O0 _ HE HT Ha0). congruence.
      - injection HH as <-. reflexivity. }
    unfold finish in H.
    destruct n as [|? ? []|? ? [|]]; try (apply G; exact H); injection H as <-; cbn; auto.
  Qed.

  Lemma get_void_point defs x :
    (encl = false -> exists lev l, boxDef = Seq AND lev l) ->
    Forall wf defs -> Forall is_seq defs ->
    get_void_pre true k ord mk m encl boxDef defs = Ok x -> pre_ok x (target defs).
  Proof.
    intros HP WD SD H. unfold get_void_pre in H. inv_bind. rename a into vsd.
    destruct (void_union_sound v _ _ _ Ha (wf_empty OR) (acc_empty OR) WD SD) as (EU & WU & AU).
    cbn [eval existsb orb] in EU. unfold target. rewrite <- EU.
    assert (G : (do compl0 <- append (Seq AND 0 []) [AN boxDef];
      do red <- reduce true ord mk m encl boxDef vsd;
      match red with
      | inl r => Ok (inl r)
      | inr (vsd2, t) => finish true k ord m encl boxDef compl0 vsd2 t
      end) = Ok x -> pre_ok x (eval v boxDef && negb (eval v vsd))).
    { clear H. intros H. inv_bind. rename a into compl0. rename a0 into red.
      destruct (append_acc v _ _ _ _ (acc_empty AND) (wf_empty AND) WB SB Ha0) as (EC & WC & AC).
      cbn [opb eval forallb andb] in EC.
      assert (OC : has_op AND compl0 = true) by (destruct AC as [(? & ? & -> & _)|(? & ->)]; reflexivity).
      assert (HC : (encl = true \/ eval v boxDef = true) \/ (encl = false /\ eval v boxDef = false))
        by (destruct encl, (eval v boxDef); auto).
      destruct HC as [HB|(HE & HB)].
      - pose proof (reduce_sound _ _ HB HP WU AU Ha1) as RS.
        destruct red as [[b|]|[n t]].
        + injection H as <-. destruct RS as (-> & ->). cbn. rewrite andb_true_r. auto.
        + injection H as <-. rewrite RS. cbn. apply andb_false_r.
        + destruct RS as (EN & WN & AN_ & HT). rewrite <- EN.
          exact (finish_in n t compl0 x HB HT WC OC EC WN AN_ H).
      - pose proof (reduce_shape _ _ Ha1) as SH. rewrite HB. cbn [andb].
        destruct red as [[b|]|[n t]].
        + injection H as <-. subst b. exact HB.
        + injection H as <-. reflexivity.
        + exact (finish_out n t compl0 x HE HB SH WC OC EC H). }
    destruct vsd as [z|o lv b|o lv l].
    - apply G; exact H.
    - destruct b; [apply G; exact H|]. injection H as <-. cbn. rewrite andb_true_r; auto.
    - destruct l; [|apply G; exact H]. injection H as <-. destruct o; simpl.
      + destruct AU as [(? & ? & E & _)|(? & E)]; discriminate.
      + rewrite andb_true_r; auto.
  Qed.
End Main.

Lemma get_void_sound (ord : node -> list Z) (mk : list Z -> res ctab) k m encl boxDef defs r v :
  (forall n x, wf n -> In x (ord n) -> 0 < x) ->
  wf boxDef -> is_seq boxDef -> Forall wf defs -> Forall is_seq defs ->
  (encl = false -> exists lev l, boxDef = Seq AND lev l) ->
  (forall sl t, mk sl = Ok t -> regular t /\ pos_keys t) ->
  (eval v boxDef = true \/ encl = true -> forall sl t, mk sl = Ok t -> in_box t v) ->
  (exists w, eval w boxDef = false /\ (encl = true -> forall sl t, mk sl = Ok t -> in_box t w)) ->
  get_void true k ord mk m encl boxDef defs = Ok r ->
  match r with Some c => eval v c | None => false end = eval v boxDef && negb (existsb (eval v) defs).
Proof.
  intros OP WB SB WD SD HP MK BOX (w & Ew & Hw) H. unfold get_void in H. inv_bind.
  pose proof (get_void_point v ord mk k OP m encl boxDef WB SB MK (fun e => BOX (or_introl e)) (fun e => BOX (or_intror e))
                defs a HP WD SD Ha) as P.
  destruct a as [[c|]|c]; cbn [pre_ok] in P; unfold target in P.
  - injection H as <-. auto.
  - injection H as <-. auto.
  - pose proof (get_void_point w ord mk k OP m encl boxDef WB SB MK ltac:(congruence) Hw
                defs (inr c) HP WD SD Ha) as Q.
    cbn [pre_ok] in Q. unfold target in Q. rewrite Ew in Q. cbn [andb] in Q.
    pose proof (level_update_eval v (clean c)) as L1. rewrite clean_eval in L1.
    pose proof (level_update_eval w (clean c)) as L2. rewrite clean_eval in L2.
    destruct (level_update (clean c)) as [z|o lv b|o lv l]; injection H as <-; try congruence.
    cbn in L1, L2. congruence.
Qed.

(* -------------------------------------------------------------- *)
(** * Strict runs are real runs *)

Lemma simplify_strict k ord ct d n r : simplify_f k true ord ct d n = Ok r -> simplify_f k false ord ct d n = Ok r.
Proof. intros H. destruct (simplify_sim ord ct k d n) as [E|E]; congruence. Qed.

Lemma reduce_loop_strict ord diag t : forall l nt r,
  reduce_loop true ord diag t l nt = Ok r -> reduce_loop false ord diag t l nt = Ok r.
Proof.
  induction l as [|s l IH]; intros nt r H; cbn [reduce_loop] in *; auto.
  inv_bind. apply remove_extra_strict in Ha. rewrite Ha. cbn [bind].
  destruct a as [z|o lv []|o lv xs]; auto.
  - destruct (append nt [AN (Lit z)]); cbn [bind] in *; try discriminate; auto.
  - destruct (append nt [AN (Seq o lv xs)]); cbn [bind] in *; try discriminate; auto.
Qed.

Lemma reduce_strict ord mk m encl boxDef vsd r :
  reduce true ord mk m encl boxDef vsd = Ok r -> reduce false ord mk m encl boxDef vsd = Ok r.
Proof.
  unfold reduce. intros H.
  assert (G : forall d sl vsd1,
     (do t <- mk sl; do w <- wrap0 vsd1; match w with
           | Seq op _ l => if true && bop_eqb op AND then Err AndVoid else
               do r <- reduce_loop true ord d t l (Seq OR 0 []);
               match r with None => Ok (inl None) | Some n => Ok (inr (n, Some t)) end
           | _ => Err TypeError end) = Ok r ->
     (do t <- mk sl; do w <- wrap0 vsd1; match w with
           | Seq op _ l => if false && bop_eqb op AND then Err AndVoid else
               do r <- reduce_loop false ord d t l (Seq OR 0 []);
               match r with None => Ok (inl None) | Some n => Ok (inr (n, Some t)) end
           | _ => Err TypeError end) = Ok r).
  { clear. intros d sl vsd1 H. inv_bind. rewrite Ha. cbn [bind]. rewrite Ha0. cbn [bind].
    destruct a0 as [|?|op lv l]; try discriminate.
    destruct (bop_eqb op AND); cbn [andb] in *; [discriminate|].
    inv_bind. apply reduce_loop_strict in Ha1. rewrite Ha1. exact H. }
  destruct m; [exact H| |].
  - apply bind_ok in H. destruct H as ([sl vsd1] & H1 & H). rewrite H1. cbn [bind].
    destruct encl; [destruct vsd1; apply G; exact H|].
    destruct vsd1 as [|? ? []|]; try (apply G; exact H); exact H.
  - apply bind_ok in H. destruct H as ([sl vsd1] & H1 & H). rewrite H1. cbn [bind].
    destruct encl; [destruct vsd1; apply G; exact H|].
    destruct vsd1 as [|? ? []|]; try (apply G; exact H); exact H.
Qed.

Lemma assemble_strict k ord m encl t c0 cs r :
  assemble true k ord m encl t c0 cs = Ok r -> assemble false k ord m encl t c0 cs = Ok r.
Proof.
  unfold assemble, simpl. intros H.
  assert (G : (do cs <- simplify_f k true ord None 0 cs;
               do c <- simplify_f k true ord None 0 c0;
               if has_op OR c then append (Seq AND 0 []) [AN c; AN cs] else append c [AN cs]) = Ok r ->
              (do cs <- simplify_f k false ord None 0 cs;
               do c <- simplify_f k false ord None 0 c0;
               if has_op OR c then append (Seq AND 0 []) [AN c; AN cs] else append c [AN cs]) = Ok r).
  { clear H. intros H. inv_bind. apply simplify_strict in Ha. apply simplify_strict in Ha0.
    rewrite Ha. cbn [bind]. rewrite Ha0. exact H. }
  destruct m; [apply G; exact H|apply G; destruct t; exact H|].
  destruct t as [t|]; [|apply G; exact H].
  destruct encl; inv_bind.
  - rewrite Ha. cbn [bind]. apply simplify_strict; auto.
  - apply simplify_strict in Ha. rewrite Ha. exact H.
Qed.

Lemma get_void_strict k ord mk m encl boxDef defs r :
  get_void true k ord mk m encl boxDef defs = Ok r -> get_void false k ord mk m encl boxDef defs = Ok r.
Proof.
  unfold get_void. intros H. inv_bind.
  assert (E : get_void_pre false k ord mk m encl boxDef defs = Ok a); [|rewrite E; exact H].
  clear H. unfold get_void_pre in *. inv_bind. rename a0 into vsd. rewrite Ha0. cbn [bind].
  assert (G : (do compl0 <- append (Seq AND 0 []) [AN boxDef];
      do red <- reduce true ord mk m encl boxDef vsd;
      match red with
      | inl r => Ok (inl r)
      | inr (vsd2, t) => finish true k ord m encl boxDef compl0 vsd2 t
      end) = Ok a ->
     (do compl0 <- append (Seq AND 0 []) [AN boxDef];
      do red <- reduce false ord mk m encl boxDef vsd;
      match red with
      | inl r => Ok (inl r)
      | inr (vsd2, t) => finish false k ord m encl boxDef compl0 vsd2 t
      end) = Ok a).
  { clear Ha. intros H. inv_bind. rewrite Ha. cbn [bind]. apply reduce_strict in Ha1. rewrite Ha1. cbn [bind].
    destruct a1 as [x|[n t]]; auto. unfold finish in *.
    assert (GG : (do cs <- comp_seq (match m with SNo => true | _ => false end) n;
        match cs with
        | None => Ok (inl None)
        | Some compSeq => do c <- assemble true k ord m encl t a0 compSeq; Ok (inr c)
        end) = Ok a ->
        (do cs <- comp_seq (match m with SNo => true | _ => false end) n;
        match cs with
        | None => Ok (inl None)
        | Some compSeq => do c <- assemble false k ord m encl t a0 compSeq; Ok (inr c)
        end) = Ok a).
    { intros HH. inv_bind. rewrite Ha2. cbn [bind]. destruct a1; auto. inv_bind.
      apply assemble_strict in Ha3. rewrite Ha3. exact HH. }
    destruct n as [|? ? []|? ? [|]]; try (apply GG; exact H); exact H. }
  destruct vsd as [|? ? []|? ? [|]]; try (apply G; exact Ha); exact Ha.
Qed.
