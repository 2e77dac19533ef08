(** Surfaces of the cells made by remove_extra_surfaces, get_void_complementary and
    no_overlapping_cell: they are surfaces of the cells they are made from. *)
From Verif Require Import Prelude BoolSpec BoolSeq BoolProofs CtSpec Ctable VoidCell NoOverlap OnProofs.

Section On.
  Variable Q : Z -> Prop.
  Notation on := (OnProofs.on Q).
  Notation onl := (OnProofs.onl Q).

  Lemma solid_in_box_on ord diag t n r g : on n -> solid_in_box ord diag t n = Ok (r, g) -> on g.
  Proof.
    intros HN H. unfold solid_in_box in H. destruct diag.
    - match type of H with (do vs <- ?e; _) = _ => destruct e as [vs| |]; try discriminate end. cbn [bind] in H. cbv zeta in H.
      destruct (evaluate _ n) as [[q g0]| |] eqn:E; try discriminate. cbn [bind] in H. inv H. eapply evaluate_on; eauto.
    - destruct (ord n) as [|s ss]; [discriminate|]. destruct (get_constraint_set t s) as [[ts fs]| |]; try discriminate. cbn [bind] in H.
      destruct ts as [t1|].
      + destruct (evaluate t1 n) as [[q g0]| |] eqn:E; try discriminate. cbn [bind] in H. pose proof (proj2 (evaluate_on _ _ _ _ _ HN E)) as OG.
        destruct (as_bool q); [|inv H; auto]. destruct fs as [f1|]; [|inv H; auto].
        destruct (evaluate f1 g0) as [[q2 g2]| |] eqn:E2; try discriminate. cbn [bind] in H. pose proof (proj2 (evaluate_on _ _ _ _ _ OG E2)) as OG2.
        destruct (as_bool q2); [destruct (eqb _ _)|]; inv H; auto.
      + destruct fs as [f1|]; [|inv H; auto]. destruct (evaluate f1 n) as [[q2 g2]| |] eqn:E2; try discriminate. cbn [bind] in H. inv H. eapply evaluate_on; eauto.
  Qed.
  Lemma subst_all_on t ss : forall n r, on n -> subst_all t ss n = Ok r -> on r.
  Proof.
    induction ss as [|s ss IH]; intros n r HN H; cbn [subst_all] in H; [inv H; auto|].
    destruct (elem t s s) as [e| |]; try discriminate. cbn [bind] in H. destruct e; try discriminate.
    destruct (subst s _ n) as [n'| |] eqn:E; try discriminate. cbn [bind] in H. eapply IH; [|exact H]. eapply subst_on; eauto.
  Qed.
  Lemma remove_loop_on strict ord diag t out l : forall nd r, onl l -> on nd -> remove_loop strict ord diag t out l nd = Ok (Some r) -> on r.
  Proof.
    induction l as [|s l IH]; intros nd r HL HD H; cbn [remove_loop] in H; [inv H; auto|].
    apply onl_cons in HL. destruct HL as (A & B). destruct (check s) as [s1| |] eqn:EC; try discriminate. cbn [bind] in H.
    pose proof (check_on _ _ _ A EC) as O1.
    assert (K : (do (res, sub2) <- solid_in_box ord diag t s1;
            match res with
            | Some true => Ok None
            | Some false => remove_loop strict ord diag t out l nd
            | None =>
                do sub3 <- (if level_of sub2 =? 0
                            then subst_all t (filter (fun s => existsb (Z.eqb s) out) (ord sub2)) sub2
                            else Ok sub2);
                match sub3 with
                | Cst _ _ false => remove_loop strict ord diag t out l nd
                | Cst _ _ true => Ok None
                | _ => do nd <- append nd [AN sub3]; remove_loop strict ord diag t out l nd
                end
            end) = Ok (Some r) -> on r).
    { clear H. intros H. destruct (solid_in_box ord diag t s1) as [[q s2]| |] eqn:ES; try discriminate. cbn [bind] in H.
      pose proof (solid_in_box_on _ _ _ _ _ _ O1 ES) as O2. destruct q as [[|]|]; [discriminate|eauto|].
      match type of H with (do sub3 <- ?e; _) = _ => destruct e as [s3| |] eqn:E3; try discriminate end. cbn [bind] in H.
      assert (O3 : on s3) by (destruct (level_of s2 =? 0); [eapply subst_all_on; eauto|inv E3; auto]).
      destruct s3 as [z|o lv b|o lv l3].
      - destruct (append nd [AN (Lit z)]) as [n1| |] eqn:EA; try discriminate. cbn [bind] in H. eapply IH; [exact B| |exact H]. eapply append1_on; [exact HD|exact O3|exact EA].
      - destruct b; [discriminate|eauto].
      - destruct (append nd [AN (Seq o lv l3)]) as [n1| |] eqn:EA; try discriminate. cbn [bind] in H. eapply IH; [exact B| |exact H]. eapply append1_on; [exact HD|exact O3|exact EA]. }
    destruct s1 as [z|o lv b|o lv l3]; [exact (K H)| |exact (K H)].
    destruct strict; [discriminate|]. destruct b; cbn [negb] in H; [eauto|discriminate].
  Qed.
  Lemma nil_on op lev : on (Seq op lev []).
  Proof. apply on_seq, onl_nil. Qed.
  Lemma remove_extra_on strict ord diag t n r : on n -> remove_extra strict ord diag t n = Ok r -> on r.
  Proof.
    intros HN H. unfold remove_extra in H. destruct (get_out_surfaces t) as [out| |]; try discriminate. cbn [bind] in H.
    assert (K : forall w, on w -> (match w with
        | Seq _ _ l' => do r <- remove_loop strict ord diag t out l' (Seq OR 0 []);
                        match r with None => Ok (Cst OR (-1) true) | Some d => Ok (clean d) end
        | _ => Err TypeError
        end) = Ok r -> on r).
    { intros w OW E. destruct w as [z|o lv b|o lv l']; try discriminate. apply on_seq in OW.
      destruct (remove_loop strict ord diag t out l' (Seq OR 0 [])) as [q| |] eqn:ER; try discriminate. cbn [bind] in E.
      destruct q as [d|]; inv E; [|apply on_cst]. apply clean_on. eapply remove_loop_on; [exact OW|apply nil_on|exact ER]. }
    assert (KA : forall w, append (Seq AND 0 []) [AN (copy n)] = Ok w -> on w).
    { intros w EA. eapply append1_on; [apply nil_on| |exact EA]. apply copy_on; auto. }
    destruct n as [z|op lev b|op lev l]; [discriminate| |].
    - destruct op; [|discriminate]. destruct (lev =? 0); [discriminate|].
      destruct (append (Seq AND 0 []) [AN (copy (Cst AND lev b))]) as [w| |] eqn:EA; try discriminate. cbn [bind] in H. apply (K w); auto.
    - destruct (_ && _); [inv H; auto|]. destruct op.
      + destruct (append (Seq AND 0 []) [AN (copy (Seq AND lev l))]) as [w| |] eqn:EA; try discriminate. cbn [bind] in H. apply (K w); auto.
      + cbn [bind] in H. apply (K (Seq OR lev l)); auto.
  Qed.

  (** ** get_void_complementary *)
  Lemma void_union_on defs : forall acc r, on acc -> onl defs -> void_union acc defs = Ok r -> on r.
  Proof.
    induction defs as [|d defs IH]; intros acc r HA HD H; cbn [void_union] in H; [inv H; auto|].
    apply onl_cons in HD. destruct HD as (A & B). destruct (append acc [AN d]) as [a| |] eqn:EA; try discriminate. cbn [bind] in H.
    eapply IH; [|exact B|exact H]. eapply append1_on; [exact HA|exact A|exact EA].
  Qed.
  Lemma subst_box_on bs : forall n r, on n -> subst_box bs n = Ok r -> on r.
  Proof.
    induction bs as [|[z|o lv b|o lv l] bs IH]; intros n r HN H; cbn [subst_box] in H; try discriminate; [inv H; auto|].
    destruct (subst (Z.abs z) _ n) as [n'| |] eqn:E; try discriminate. cbn [bind] in H. eapply IH; [|exact H]. eapply subst_on; eauto.
  Qed.
  Lemma wrap0_on n r : on n -> wrap0 n = Ok r -> on r.
  Proof.
    intros HN H. destruct n as [z|o lv b|o lv l]; cbn [wrap0] in H; try discriminate; destruct (lv =? 0); try discriminate; try (inv H; auto; fail).
    eapply append1_on; [apply nil_on| |exact H]. apply on_seq. apply on_seq in HN. auto.
  Qed.
  Lemma reduce_loop_on strict ord diag t l : forall nt r, onl l -> on nt -> reduce_loop strict ord diag t l nt = Ok (Some r) -> on r.
  Proof.
    induction l as [|s l IH]; intros nt r HL HN H; cbn [reduce_loop] in H; [inv H; auto|].
    apply onl_cons in HL. destruct HL as (A & B). destruct (remove_extra strict ord diag t s) as [s1| |] eqn:ER; try discriminate. cbn [bind] in H.
    pose proof (remove_extra_on _ _ _ _ _ _ A ER) as O1. destruct s1 as [z|o lv b|o lv l3].
    - destruct (append nt [AN (Lit z)]) as [n1| |] eqn:EA; try discriminate. cbn [bind] in H. eapply IH; [exact B| |exact H]. eapply append1_on; [exact HN|exact O1|exact EA].
    - destruct b; [discriminate|eauto].
    - destruct (append nt [AN (Seq o lv l3)]) as [n1| |] eqn:EA; try discriminate. cbn [bind] in H. eapply IH; [exact B| |exact H]. eapply append1_on; [exact HN|exact O1|exact EA].
  Qed.
  Lemma reduce_on strict ord mk m encl bd vsd x : on bd -> on vsd -> reduce strict ord mk m encl bd vsd = Ok x ->
    match x with inl (Some n) => on n | inl None => True | inr (n, _) => on n end.
  Proof.
    intros HB HV H.
    assert (K : forall sl vsd1, on vsd1 -> (match encl, vsd1 with
        | false, Cst _ _ true => Ok (inl None)
        | false, Cst _ _ false => Ok (inl (Some bd))
        | _, _ =>
            do t <- mk sl;
            do w <- wrap0 vsd1;
            match w with
            | Seq op _ l =>
                if strict && bop_eqb op AND then Err AndVoid
                else
                  do r <- reduce_loop strict ord (match m with SDiag => true | _ => false end) t l (Seq OR 0 []);
                  match r with
                  | None => Ok (inl None)
                  | Some n => Ok (inr (n, Some t))
                  end
            | _ => Err TypeError
            end
        end) = Ok x -> match x with inl (Some n) => on n | inl None => True | inr (n, _) => on n end).
    { intros sl v OV E.
      assert (K : (do t <- mk sl;
            do w <- wrap0 v;
            match w with
            | Seq op _ l =>
                if strict && bop_eqb op AND then Err AndVoid
                else
                  do r <- reduce_loop strict ord (match m with SDiag => true | _ => false end) t l (Seq OR 0 []);
                  match r with
                  | None => Ok (inl None)
                  | Some n => Ok (inr (n, Some t))
                  end
            | _ => Err TypeError
            end) = Ok x -> match x with inl (Some n) => on n | inl None => True | inr (n, _) => on n end).
      { clear E. intros E. destruct (mk sl) as [t| |]; try discriminate. cbn [bind] in E. destruct (wrap0 v) as [w| |] eqn:EW; try discriminate. cbn [bind] in E.
        pose proof (wrap0_on _ _ OV EW) as OW. destruct w as [z|o lv b|o lv l]; try discriminate. destruct (_ && _); [discriminate|].
        destruct (reduce_loop strict ord _ t l (Seq OR 0 [])) as [q| |] eqn:ER; try discriminate. cbn [bind] in E.
        destruct q as [n|]; inv E; auto. eapply reduce_loop_on; [apply on_seq in OW; exact OW|apply nil_on|exact ER]. }
      destruct encl; [apply K; auto; destruct v as [?|? ? []|]; exact E|].
      destruct v as [z|o lv [|]|o lv l]; try (apply K; exact E); inv E; auto. }
    unfold reduce in H. destruct m; [| |];
      [destruct (wrap0 vsd) as [w| |] eqn:EW; try discriminate; cbn [bind] in H; inv H; eapply wrap0_on; eauto| |];
      (cbv zeta in H; match type of H with (do (sl, vsd1) <- ?e; _) = _ => destruct e as [[sl v1]| |] eqn:E1; try discriminate end; cbn [bind] in H;
       apply (K sl v1); [|exact H]; destruct encl; [inv E1; auto|];
       destruct (elems_of bd) as [bs| |]; try discriminate; cbn [bind] in E1; destruct (subst_box bs vsd) as [n| |] eqn:ES; try discriminate; cbn [bind] in E1; inv E1;
       apply clean_on; eapply subst_box_on; eauto).
  Qed.
  Lemma comp_loop_on no l : forall cs r, onl l -> on cs -> comp_loop no l cs = Ok (Some r) -> on r.
  Proof.
    induction l as [|c l IH]; intros cs r HL HC H; cbn [comp_loop] in H; [inv H; auto|].
    apply onl_cons in HL. destruct HL as (A & B).
    match type of H with (do c1 <- ?e; _) = _ => destruct e as [c1| |] eqn:E1; try discriminate end. cbn [bind] in H.
    assert (O1 : on c1) by (destruct no; [exact (check_on _ _ _ A E1)|inv E1; auto]).
    assert (K : (do (p, _) <- get_complementary c1; do cs <- append cs [AN p]; comp_loop no l cs) = Ok (Some r) -> on r).
    { intros E. destruct (get_complementary c1) as [[p g]| |] eqn:EC; try discriminate. cbn [bind] in E.
      destruct (append cs [AN p]) as [cs1| |] eqn:EA; try discriminate. cbn [bind] in E. eapply IH; [exact B| |exact E].
      eapply append1_on; [exact HC| |exact EA]. exact (proj1 (compl_on _ _ _ _ O1 EC)). }
    destruct no; [|apply K; destruct c1; exact H]. destruct c1 as [z|o lv [|]|o lv xs]; try (apply K; exact H); [discriminate|eauto].
  Qed.
  Lemma comp_seq_on no n r : on n -> comp_seq no n = Ok (Some r) -> on r.
  Proof.
    intros HN H. destruct n as [z|o lv b|o lv l]; cbn [comp_seq] in H; try discriminate. destruct (lv =? 0).
    - destruct (get_complementary (Seq o lv l)) as [[c g]| |] eqn:E; try discriminate. cbn [bind] in H. inv H. exact (proj1 (compl_on _ _ _ _ HN E)).
    - eapply comp_loop_on; [|apply nil_on|exact H]. apply on_seq in HN. auto.
  Qed.
  Lemma assemble_on strict k ord m encl t c0 cs r : on c0 -> on cs -> assemble strict k ord m encl t c0 cs = Ok r -> on r.
  Proof.
    intros H0 HC H. unfold assemble, simpl in H.
    assert (K : (do cs <- simplify_f k strict ord None 0 cs; do c <- simplify_f k strict ord None 0 c0;
        if has_op OR c then append (Seq AND 0 []) [AN c; AN cs] else append c [AN cs]) = Ok r -> on r).
    { clear H. intros H. destruct (simplify_f k strict ord None 0 cs) as [cs1| |] eqn:E1; try discriminate. cbn [bind] in H.
      destruct (simplify_f k strict ord None 0 c0) as [c1| |] eqn:E2; try discriminate. cbn [bind] in H.
      pose proof (simplify_f_on _ _ _ _ _ _ _ _ HC E1). pose proof (simplify_f_on _ _ _ _ _ _ _ _ H0 E2).
      destruct (has_op OR c1); (eapply append_on; [| |exact H]; [auto using nil_on|repeat constructor; auto]). }
    destruct m; try (apply K; destruct t; exact H). destruct t as [t|]; [|exact (K H)]. cbv zeta in H. destruct encl.
    - destruct (append c0 [AN cs]) as [c| |] eqn:EA; try discriminate. cbn [bind] in H. eapply simplify_f_on; [|exact H]. eapply append1_on; [exact H0|exact HC|exact EA].
    - destruct (simplify_f k strict ord _ 0 cs) as [cs1| |] eqn:E1; try discriminate. cbn [bind] in H.
      eapply append1_on; [exact H0| |exact H]. eapply simplify_f_on; [|eassumption]; assumption.
  Qed.
  Lemma get_void_on strict k ord mk m encl bd defs n : on bd -> onl defs -> get_void strict k ord mk m encl bd defs = Ok (Some n) -> on n.
  Proof.
    intros HB HD H. unfold get_void in H. destruct (get_void_pre strict k ord mk m encl bd defs) as [x| |] eqn:EP; try discriminate. cbn [bind] in H.
    assert (OX : match x with inl (Some n) => on n | inl None => True | inr n => on n end).
    { clear H. unfold get_void_pre in EP. destruct (void_union (Seq OR 0 []) defs) as [vsd| |] eqn:EV; try discriminate. cbn [bind] in EP. cbv zeta in EP.
      pose proof (void_union_on _ _ _ (nil_on _ _) HD EV) as OV.
      assert (K : (do compl0 <- append (Seq AND 0 []) [AN bd];
        do red <- reduce strict ord mk m encl bd vsd;
        match red with
        | inl r => Ok (inl r)
        | inr (vsd2, t) => finish strict k ord m encl bd compl0 vsd2 t
        end) = Ok x -> match x with inl (Some n) => on n | inl None => True | inr n => on n end).
      { clear EP. intros E. destruct (append (Seq AND 0 []) [AN bd]) as [c0| |] eqn:EA; try discriminate. cbn [bind] in E.
        pose proof (append1_on _ _ _ _ (nil_on _ _) HB EA) as OC0.
        destruct (reduce strict ord mk m encl bd vsd) as [red| |] eqn:ER; try discriminate. cbn [bind] in E.
        pose proof (reduce_on _ _ _ _ _ _ _ _ HB OV ER) as OR. destruct red as [q|[v2 t]]; [inv E; auto|]. unfold finish in E.
        assert (K : (do cs <- comp_seq (match m with SNo => true | _ => false end) v2;
            match cs with
            | None => Ok (inl None)
            | Some compSeq => do c <- assemble strict k ord m encl t c0 compSeq; Ok (inr c)
            end) = Ok x -> match x with inl (Some n) => on n | inl None => True | inr n => on n end).
        { clear E. intros E. destruct (comp_seq _ v2) as [cs| |] eqn:EC; try discriminate. cbn [bind] in E. destruct cs as [cs|]; [|inv E; auto].
          destruct (assemble strict k ord m encl t c0 cs) as [c| |] eqn:EAS; try discriminate. cbn [bind] in E. inv E.
          eapply assemble_on; [exact OC0| |exact EAS]. eapply comp_seq_on; eauto. }
        destruct v2 as [z|o lv [|]|o lv [|y l]]; try (exact (K E)); inv E; auto. }
      destruct vsd as [z|o lv [|]|o lv [|y l]]; try (exact (K EP)); inv EP; auto. }
    destruct x as [q|c]; [inv H; auto|]. pose proof (proj2 (level_update_on Q (clean c)) (clean_on Q _ OX)) as OL.
    destruct (level_update (clean c)); inv H; auto.
  Qed.

  (** ** no_overlapping_cell *)
  Section No.
    Variable B : Type.
    Variable meets : B -> B -> bool.
    Definition onm (m : meta B) : Prop := match mdef m with Some d => on d | None => True end.

    Lemma put_comp_on new sc s a new' s' : on new -> on s -> put_comp new sc s = Ok (a, new', s') -> on new' /\ on s'.
    Proof.
      intros HN HS H. unfold put_comp in H. destruct (get_surf_value false s) as [c| |]; try discriminate. cbn [bind] in H.
      destruct (common c sc); [inv H; auto|]. destruct (get_complementary s) as [[c1 s1]| |] eqn:EC; try discriminate. cbn [bind] in H.
      destruct (compl_on _ _ _ _ HS EC) as (A & C). destruct (append new [AN c1]) as [n1| |] eqn:EA; try discriminate. cbn [bind] in H. inv H. split; auto.
      eapply append1_on; [exact HN|exact A|exact EA].
    Qed.
    Lemma comp_parts_on cbox sc ps : forall l new a new' l', onl l -> on new -> comp_parts B meets cbox sc ps l new = Ok (a, new', l') -> on new' /\ onl l'.
    Proof.
      induction ps as [|b ps IH]; intros l new a new' l' HL HN H; cbn [comp_parts] in H; [inv H; auto|].
      destruct l as [|s l].
      - destruct (meets cbox b); [discriminate|]. eapply IH; eauto.
      - apply onl_cons in HL. destruct HL as (A & C). destruct (meets cbox b).
        + destruct (put_comp new sc s) as [[[a1 n1] s1]| |] eqn:EP; try discriminate. cbn [bind] in H.
          destruct (put_comp_on _ _ _ _ _ _ HN A EP) as (O1 & O2).
          destruct (comp_parts B meets cbox sc ps l n1) as [[[a2 n2] l2]| |] eqn:E2; try discriminate. cbn [bind] in H. inv H.
          destruct (IH _ _ _ _ _ C O1 E2) as (O3 & O4). split; auto. apply onl_cons; auto.
        + destruct (comp_parts B meets cbox sc ps l new) as [[[a2 n2] l2]| |] eqn:E2; try discriminate. cbn [bind] in H. inv H.
          destruct (IH _ _ _ _ _ C HN E2) as (O3 & O4). split; auto. apply onl_cons; auto.
    Qed.
    Lemma append_comp_on new cd cbox mm a new' mm' : on new -> onm mm -> append_comp B meets new cd cbox mm = Ok (a, new', mm') -> on new' /\ onm mm'.
    Proof.
      intros HN HM H. unfold append_comp in H. destruct (get_surf_value true cd) as [sc| |]; try discriminate. cbn [bind] in H. unfold onm in HM |- *.
      destruct (mdef mm) as [d|] eqn:EM; [|discriminate]. destruct (op_of d) as [[|]| |]; try discriminate; cbn [bind] in H.
      - destruct (meets cbox (mbox mm)); [|inv H; rewrite EM; auto].
        destruct (put_comp new sc d) as [[[a1 n1] d1]| |] eqn:EP; try discriminate. cbn [bind] in H. inv H.
        exact (put_comp_on _ _ _ _ _ _ HN HM EP).
      - destruct d as [z|o lv b|o lv l]; try (destruct (existsb _ _); [discriminate|inv H; rewrite EM; auto]).
        destruct (comp_parts B meets cbox sc (parts mm) l new) as [[[a2 n2] l2]| |] eqn:E2; try discriminate. cbn [bind] in H. inv H.
        apply on_seq in HM. destruct (comp_parts_on _ _ _ _ _ _ _ _ HM HN E2). split; auto. cbn [with_def mdef]. apply on_seq. auto.
    Qed.
    Lemma all_comps_on cd cbox prev : forall new a new' prev', on new -> Forall onm prev -> all_comps B meets new cd cbox prev = Ok (a, new', prev') -> on new' /\ Forall onm prev'.
    Proof.
      induction prev as [|mm prev IH]; intros new a new' prev' HN HP H; cbn [all_comps] in H; [inv H; auto|].
      inversion HP as [|x y A C]; subst. destruct (append_comp B meets new cd cbox mm) as [[[a1 n1] m1]| |] eqn:E1; try discriminate. cbn [bind] in H.
      destruct (append_comp_on _ _ _ _ _ _ _ HN A E1) as (O1 & O2).
      destruct (all_comps B meets n1 cd cbox prev) as [[[a2 n2] p2]| |] eqn:E2; try discriminate. cbn [bind] in H. inv H.
      destruct (IH _ _ _ _ O1 C E2). auto.
    Qed.
    Lemma part_defs_on ps : forall l prev new simp n s prev', onl l -> Forall onm prev -> on new ->
      part_defs B meets ps l prev new simp = Ok (n, s, prev') -> on n /\ Forall onm prev'.
    Proof.
      induction ps as [|b ps IH]; intros l prev new simp n s prev' HL HP HN H; cbn [part_defs] in H; [inv H; auto|].
      destruct l as [|e l]; [discriminate|]. apply onl_cons in HL. destruct HL as (A & C).
      destruct (append (Seq AND 0 []) [AN (copy e)]) as [sub| |] eqn:EA; try discriminate. cbn [bind] in H.
      assert (OS : on sub) by (eapply append1_on; [apply nil_on| |exact EA]; apply copy_on; auto).
      destruct (all_comps B meets sub e b prev) as [[[a1 n1] p1]| |] eqn:E1; try discriminate. cbn [bind] in H.
      destruct (all_comps_on _ _ _ _ _ _ _ OS HP E1) as (O1 & O2).
      destruct (append new [AN n1]) as [new1| |] eqn:EB; try discriminate. cbn [bind] in H.
      eapply IH; [exact C|exact O2| |exact H]. eapply append1_on; [exact HN|exact O1|exact EB].
    Qed.
    Lemma overlap_cell_on prev m n s prev' : Forall onm prev -> onm m -> overlap_cell B meets prev m = Ok (n, s, prev') -> on n /\ Forall onm prev'.
    Proof.
      intros HP HM H. unfold overlap_cell in H. unfold onm in HM. destruct (mdef m) as [d|]; [|discriminate].
      destruct (op_of d) as [[|]| |]; try discriminate; cbn [bind] in H.
      - destruct (append (Seq AND 0 []) [AN (copy d)]) as [sub| |] eqn:EA; try discriminate. cbn [bind] in H.
        assert (OS : on sub) by (eapply append1_on; [apply nil_on| |exact EA]; apply copy_on; auto).
        destruct (all_comps B meets sub d (mbox m) prev) as [[[a1 n1] p1]| |] eqn:E1; try discriminate. cbn [bind] in H. inv H.
        eapply all_comps_on; eauto.
      - destruct d as [z|o lv b|o lv l]; try (destruct (parts m); [inv H; split; auto using nil_on|discriminate]).
        apply on_seq in HM. eapply part_defs_on; [exact HM|exact HP|apply nil_on|exact H].
    Qed.
    Lemma overlap_loop_on rest : forall prev ps all, Forall onm prev -> Forall onm rest -> overlap_loop B meets prev rest = Ok (ps, all) ->
      Forall (fun p => on (fst p)) ps /\ Forall onm all.
    Proof.
      induction rest as [|m rest IH]; intros prev ps all HP HR H; cbn [overlap_loop] in H; [inv H; auto|].
      inversion HR as [|x y A C]; subst. destruct (overlap_cell B meets prev m) as [[[n s] p1]| |] eqn:E1; try discriminate. cbn [bind] in H.
      destruct (overlap_cell_on _ _ _ _ _ HP A E1) as (O1 & O2).
      destruct (overlap_loop B meets (p1 ++ [m]) rest) as [[ps2 all2]| |] eqn:E2; try discriminate. cbn [bind] in H. inv H.
      destruct (IH (p1 ++ [m]) ps2 all) as (O3 & O4); auto. apply Forall_app; auto.
    Qed.
    Variables (strict : bool) (k : nat) (ord : node -> list Z) (mk : B -> bool -> list Z -> res ctab).
    Lemma simp_parts_on ct simp : forall l l', onl l -> simp_parts strict k ord ct simp l = Ok l' -> onl l'.
    Proof.
      induction simp as [|s simp IH]; intros l l' HL H; cbn [simp_parts] in H; [inv H; auto|].
      destruct l as [|c l]; [destruct s; [discriminate|eauto]|]. apply onl_cons in HL. destruct HL as (A & C).
      assert (K : (do c' <- (if s then do x <- simplify_f k strict ord ct 0 c; Ok (clean x) else Ok c); do l2 <- simp_parts strict k ord ct simp l; Ok (c' :: l2)) = Ok l' -> onl l').
      { clear H. intros H. match type of H with (do c' <- ?e; _) = _ => destruct e as [c1| |] eqn:E1; try discriminate end. cbn [bind] in H.
        destruct (simp_parts strict k ord ct simp l) as [l2| |] eqn:E2; try discriminate. cbn [bind] in H. inv H. apply onl_cons. split; [|eapply IH; eauto].
        destruct s; [|inv E1; auto]. destruct (simplify_f k strict ord ct 0 c) as [x| |] eqn:ES; try discriminate. cbn [bind] in E1. inv E1.
        apply clean_on. eapply simplify_f_on; [|eassumption]; assumption. }
      destruct s; exact (K H).
    Qed.
    Lemma reduce_cell_on b td simp r : on td -> reduce_cell B strict k ord mk b td simp = Ok r -> on r.
    Proof.
      intros HT H. unfold reduce_cell in H. destruct (mk b true (surfs td)) as [t1| |]; try discriminate. cbn [bind] in H.
      destruct (remove_extra strict ord true t1 td) as [nd| |] eqn:ER; try discriminate. cbn [bind] in H.
      pose proof (remove_extra_on _ _ _ _ _ _ HT ER) as O1.
      destruct (mk b false (surfs nd)) as [t2| |]; try discriminate. cbn [bind] in H. cbv zeta in H.
      destruct (op_of nd) as [op| |]; try discriminate. cbn [bind] in H.
      match type of H with (do nd2 <- ?e; _) = _ => destruct e as [n2| |] eqn:E2; try discriminate end. cbn [bind] in H.
      assert (O2 : on n2).
      { destruct op.
        - destruct (simplify_f k strict ord _ 0 nd) as [x| |] eqn:ES; try discriminate. cbn [bind] in E2. inv E2. apply clean_on. eapply simplify_f_on; [|eassumption]; assumption.
        - destruct nd as [z|o lv c|o lv l]; try discriminate. apply on_seq in O1.
          destruct (simp_parts strict k ord _ simp l) as [l2| |] eqn:ES; try discriminate. cbn [bind] in E2. inv E2. apply on_seq. eapply simp_parts_on; eauto. }
      destruct (join false n2) as [j| |] eqn:EJ; try discriminate. cbn [bind] in H. inv H. apply level_update_on. eapply join_on; eauto.
    Qed.
    Definition ono (o : option node) : Prop := match o with Some d => on d | None => True end.
    Lemma final_defs_on ms : forall ps ds, Forall onm ms -> Forall (fun p => on (fst p)) ps -> final_defs B strict k ord mk ms ps = Ok ds -> Forall ono ds.
    Proof.
      induction ms as [|m ms IH]; intros ps ds HM HP H; cbn [final_defs] in H; [inv H; auto|].
      destruct ps as [|[td simp] ps]; [inv H; auto|]. inversion HM as [|x y A C]; subst. inversion HP as [|x y A' C']; subst.
      match type of H with (do d <- ?e; _) = _ => destruct e as [d| |] eqn:E1; try discriminate end. cbn [bind] in H.
      destruct (final_defs B strict k ord mk ms ps) as [d2| |] eqn:E2; try discriminate. cbn [bind] in H. inv H. constructor; [|eapply IH; eauto].
      destruct (existsb _ simp); [|inv E1; exact A].
      destruct (reduce_cell B strict k ord mk (mbox m) td simp) as [x| |] eqn:ER; try discriminate. cbn [bind] in E1. inv E1. eapply reduce_cell_on; [|exact ER]. exact A'.
    Qed.
    Lemma no_overlap_on metas ds : Forall onm metas -> no_overlapping_cell B meets strict k ord mk metas = Ok ds -> Forall ono ds.
    Proof.
      intros HM H. unfold no_overlapping_cell in H. destruct (new_defs B meets metas) as [[ps all]| |] eqn:EN; try discriminate. cbn [bind] in H.
      assert (K : Forall (fun p => on (fst p)) ps /\ Forall onm all).
      { unfold new_defs in EN. destruct metas as [|m r]; [discriminate|]. inversion HM; subst. eapply overlap_loop_on; [| |exact EN]; auto. }
      destruct K as (O1 & O2). destruct all as [|m r]; [discriminate|]. inversion O2 as [|x y A C]; subst.
      destruct (final_defs B strict k ord mk r ps) as [d2| |] eqn:E2; try discriminate. cbn [bind] in H. inv H. constructor; [exact A|]. eapply final_defs_on; eauto.
    Qed.
  End No.
End On.
