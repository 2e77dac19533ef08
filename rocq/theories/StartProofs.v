(** Proofs for C57: a conversion from the registered surfaces to the list of cells. *)
From Coq Require Import QArith Permutation.
From Verif Require Import Prelude BoolSpec BoolSeq BoolProofs BoolProofs2 CtSpec Ctable VoidCell SurfDict SurfDictProofs
  CellDef CellDefSpec CellDefProofs CellDefProofs2 CellDefProofs3 ConePlanes ConeProofs OnProofs OnProofs2 OnCell OnModel OnSpec
  PropsCellDef ReachProofs.
From Verif Require Import VoidBoxes VoidBoxSpec VoidBoxProofs VoidLoopProofs BoxDef BoxSpec BoxDefProofs VoidAll VoidAllProofs Start.
Open Scope Z_scope.

(** * The loop over the boxes with a log beside the dictionary *)
Section Log.
  Variable E : Type.
  Variable bb : E -> box.
  Variable common : E -> box -> cut E.
  Variables maxsurf maxbracket : Z.
  Variable minSize : Q.
  Variables D L : Type.
  Variable void : vbox E -> D -> res (D * option node).
  Variable f : vbox E -> L.
  Definition noted (z : vbox E) (x : D * list L) : res ((D * list L) * option node) :=
    do (d1, c) <- void z (fst x);
    Ok ((d1, match c with Some _ => snd x ++ [f z] | None => snd x end), c).
  Lemma pass_log : forall l d i d' i' t v, pass E bb common maxsurf maxbracket minSize _ noted l (d, i) = Ok ((d', i'), (t, v)) ->
    pass E bb common maxsurf maxbracket minSize D void l d = Ok (d', (t, v)) /\ length i' = (length i + length v)%nat.
  Proof.
    induction l as [|z l IH]; intros d i d' i' t v H; cbn [pass] in *.
    - injection H as <- <- <- <-. split; [auto|cbn [length]; lia].
    - destruct (try_split E bb common maxsurf maxbracket minSize z) as [[zs|]| |]; cbn [bind] in *; try discriminate.
      + match type of H with bind ?e _ = _ => destruct e as [[[d1 i1] [t1 v1]]| |] eqn:EP; try discriminate end. cbn [bind] in H.
        injection H as <- <- <- <-. apply IH in EP. destruct EP as (-> & EL). cbn [bind]. auto.
      + unfold noted at 1 in H. cbn [fst snd] in H. destruct (void z d) as [[d1 c]| |]; cbn [bind] in *; try discriminate.
        match type of H with bind ?e _ = _ => destruct e as [[[d2 i2] [t1 v1]]| |] eqn:EP; try discriminate end. cbn [bind] in H.
        injection H as <- <- <- <-. apply IH in EP. destruct EP as (-> & EL). cbn [bind]. split; auto.
        destruct c; cbn [length]; rewrite EL, ?app_length; cbn [length]; lia.
  Qed.
  Lemma turns_log n : forall l d i d' i' v rest, turns E bb common maxsurf maxbracket minSize _ noted n l (d, i) = Ok ((d', i'), (v, rest)) ->
    turns E bb common maxsurf maxbracket minSize D void n l d = Ok (d', (v, rest)) /\ length i' = (length i + length v)%nat.
  Proof.
    induction n as [|n IH]; intros l d i d' i' v rest H; cbn [turns] in *.
    - injection H as <- <- <- <-. split; [auto|cbn [length]; lia].
    - match type of H with bind ?e _ = _ => destruct e as [[[d1 i1] [t1 v1]]| |] eqn:EP; try discriminate end. cbn [bind] in H.
      apply pass_log in EP. destruct EP as (-> & EL). cbn [bind]. destruct t1 as [|z t1].
      + injection H as <- <- <- <-. auto.
      + match type of H with bind ?e _ = _ => destruct e as [[[d2 i2] [t2 v2]]| |] eqn:ET; try discriminate end. cbn [bind] in H.
        apply IH in ET. destruct ET as (-> & EL2). cbn [bind]. injection H as <- <- <- <-. split; auto. rewrite app_length. lia.
  Qed.
  Lemma get_void_def_log ms u d i d' i' v rest : get_void_def E bb common maxsurf maxbracket minSize _ noted ms u (d, i) = Ok ((d', i'), (v, rest)) ->
    get_void_def E bb common maxsurf maxbracket minSize D void ms u d = Ok (d', (v, rest)) /\ length i' = (length i + length v)%nat.
  Proof.
    unfold get_void_def. intros H. destruct (mk_vbox E bb ms u) as [z| |]; cbn [bind] in *; try discriminate. eapply turns_log; eauto.
  Qed.
End Log.

(** * Apex planes when all cones are aligned *)
Section Cones.
  Variable G : Type.
  Variable cls : G -> key.
  Variable same : G -> G -> bool.
  Variable o : Z.
  Variable opp : G -> G -> bool.
  Variable al : G -> bool.
  Variable apex : G -> G.
  Variable iord : list Z -> list Z.
  Hypothesis HI : forall l, Permutation (iord l) l.
  Notation dk := (dok G cls (anyg G) o).
  Definition al_num (d : sdict G) (z : Z) : Prop := exists s, registered_in d s /\ index s = Z.abs z /\ al (geo s) = true.
  Lemma al_num_group d d' z : group d' = group d -> al_num d z -> al_num d' z.
  Proof. intros E (s & R & X). exists s. split; auto. unfold registered_in in *. rewrite E. auto. Qed.
  Lemma cone_loop_al n l : forall d, dk d -> (forall z, In z l -> al_num d z) ->
    exists d', cone_loop G cls same opp al apex l d n = Ok (d', n) /\ dk d' /\ group d' = group d.
  Proof.
    induction l as [|c l IH]; intros d D H; cbn [cone_loop]; [eauto|].
    destruct (H c (or_introl eq_refl)) as (s & R & EI & EA). unfold cone_step. rewrite <- EI.
    pose proof D as ((OO & N & J) & L & _). destruct (get_ok _ _ _ (index s) d J L) as (d1 & r1 & E & SC & L1 & HH).
    rewrite E. cbn [bind]. assert (r1 = Some s) as -> by (apply HH; destruct R as (k & K); eauto). rewrite EA. cbn [bind].
    assert (D1 : dk d1) by (eapply dok_content; eauto). destruct SC as (_ & E2 & _).
    destruct (IH d1 D1) as (d2 & -> & D2 & G2).
    { intros z I. apply (al_num_group d); [auto|]. apply H. right; auto. }
    exists d2. split; auto. split; auto. congruence.
  Qed.
  Lemma process_cones_al ci ms : NoDup (map fst ci) -> forall d, dk d ->
    (forall i zs z, In (i, zs) ci -> In z zs -> al_num d z) ->
    (forall m, In m ms -> m_def m = None -> m_void m = false /\ m_id m = None) ->
    exists d', process_cones G cls same opp al apex iord ci ms d = Ok (d', ms) /\ dk d' /\ group d' = group d.
  Proof.
    intros ND. induction ms as [|m ms IH]; intros d D HC HM; cbn [process_cones]; [eauto|].
    assert (P : forall l, (m_def m = None -> l = []) -> (forall z, In z l -> al_num d z) ->
       exists d', put_planes G cls same opp al apex l d m = Ok (d', m) /\ dk d' /\ group d' = group d).
    { intros l HL HA. unfold put_planes. destruct (m_def m) as [n|] eqn:EM.
      - destruct (cone_loop_al n l d D HA) as (d1 & -> & D1 & G1). cbn [bind]. exists d1. split; auto. unfold set_def.
        destruct m as [a b c e]. cbn in EM |- *. rewrite EM. auto.
      - rewrite HL by auto. eauto. }
    assert (S : exists d', cell_step G cls same opp al apex iord ci d m = Ok (d', m) /\ dk d' /\ group d' = group d).
    { pose proof (HM m (or_introl eq_refl)) as HN. unfold cell_step. destruct (m_void m).
      - destruct (m_info m) as [[l|]|]; eauto. apply P; [intros EN; destruct (HN EN); discriminate|].
        intros z J. apply (Permutation_in _ (HI _)) in J. apply void_cones_in in J; auto. destruct J as [[]|(i & zs & _ & A & B)].
        destruct (HC _ _ _ A B) as (s & R & X & Y). exists s. rewrite Z.abs_opp in X. auto.
      - destruct (m_id m) as [i|]; [|eauto]. destruct (info_of ci i) as [zs|] eqn:EI; [|eauto]. apply info_in in EI; auto.
        apply P; [intros EN; destruct (HN EN); discriminate|]. intros z J. eapply HC; eauto. }
    destruct S as (d1 & -> & D1 & G1). cbn [bind]. destruct (IH d1 D1) as (d2 & -> & D2 & G2).
    - intros i zs z A B. eapply al_num_group; [exact G1|]. eauto.
    - intros; apply HM; auto. right; auto.
    - cbn [bind]. exists d2. split; auto. split; auto. congruence.
  Qed.
End Cones.

(** * The cells of the solids *)
Section Solids.
  Variable T : Type.
  Notation G := (surface T).
  Variable cls : G -> key.
  Variable same : G -> G -> bool.
  Variable opp opp_x : G -> G -> bool.
  Variable sord : list Z -> list Z.
  Hypothesis HS : forall l, Permutation (sord l) l.
  Variable o : Z.
  Hypothesis HO : 0 <= o.
  Notation solid := (solid T).
  Notation cell := (cell T).
  Notation gr := (grow G).
  Notation nm := (num G).
  Notation dk := (dok G cls (anyg G) o).

  Lemma found_grow d0 d inv f : gr d0 d -> found cls same d0 inv f -> found cls same d inv f.
  Proof.
    intros GR H pos M. destruct (H pos M) as (g & E & A & B). exists g. split; auto. split; auto.
    destruct A as [A|[A|(n & A)]]; auto. right. right. exists n. eapply number_grow; eauto.
  Qed.
  (** surfaces of the definitions; additions and look-ups only *)
  Lemma cell_defs_known d0 l : (forall i ps pc f, In (i, ps) l -> In pc ps -> In f (p_faces pc) -> found cls same d0 (p_inv pc) f) ->
    forall d d' cs ci, dk d -> gr d0 d -> cell_defs T cls same opp opp_x sord l d = Ok (d', cs, ci) ->
    dk d' /\ gr d d' /\ Reach G cls same d d' /\ Forall (fun c => on (nm d') (c_def c)) cs.
  Proof.
    intros HF. induction l as [|[i ps] l IH]; intros d d' cs ci D GR H; cbn [cell_defs] in H.
    - injection H as <- <- <-. split; auto. split; [apply grow_refl|]. split; [apply reach_refl|auto].
    - destruct (cell_def G cls same opp opp_x sord ps d) as [[[[d1 kept] def] cones]| |] eqn:E; try discriminate. cbn [bind] in H.
      destruct (cell_def_on G cls same opp opp_x (anyg G) o HO sord HS ps d d1 kept def cones D) as (D1 & G1 & ON); auto.
      { intros p I f J. split; [eapply found_grow; [exact GR|eapply HF; [left; eauto|auto|auto]]|]. intros. exact Logic.I. }
      apply cell_def_reach in E.
      destruct (cell_defs T cls same opp opp_x sord l d1) as [[[d2 cs2] ci2]| |] eqn:E2; try discriminate. cbn [bind] in H. injection H as <- <- <-.
      destruct (IH (fun i ps pc f I => HF i ps pc f (or_intror I)) d1 d2 cs2 ci2 D1) as (D2 & G2 & R2 & F2); auto; [eapply grow_trans; eauto|].
      split; auto. split; [eapply grow_trans; eauto|]. split; [eapply reach_trans; eauto|]. constructor; auto. cbn [c_def]. eapply on_grow; eauto.
  Qed.

  Variable P : G -> Prop.
  Variable side : G -> bool.
  Hypothesis FA : faithful cls same opp opp_x P side.
  Variable d0 : sdict G.
  Hypothesis D0 : dok G cls P o d0.
  Notation dp := (dok G cls P o).
  Notation holds := (piece_holds cls side (number_in cls same d0)).
  Notation cons := (consistent G side).

  Record cell_rel (d : sdict G) (s : solid) (c : cell) : Prop := {
    cr_id : c_id c = fst s;
    cr_all : c_all c = snd s;
    cr_sub : forall pc, In pc (c_kept c) -> In pc (snd s);
    cr_wf : wf (c_def c);
    cr_def : exists lev ns, c_def c = Seq OR lev ns /\
      Forall2 (fun pc n => (exists op lv x l, n = Seq op lv (x :: l)) /\ has_face pc /\
                 forall v, cons v d -> (eval v n = true <-> holds pc)) (c_kept c) ns;
    cr_holds : forall v, cons v d -> (eval v (c_def c) = true <-> exists pc, In pc (snd s) /\ has_face pc /\ holds pc) }.
  Lemma cell_rel_grow d d' s c : gr d d' -> cell_rel d s c -> cell_rel d' s c.
  Proof.
    intros GR [A B C D E F]. split; auto.
    - destruct E as (lev & ns & E & F2). exists lev, ns. split; auto. eapply F2_impl; [|exact F2].
      intros pc n (X & Y & Z). split; auto. split; auto. intros v V. apply Z. eapply grow_cons; eauto.
    - intros v V. apply F. eapply grow_cons; eauto.
  Qed.

  Definition cone_num (z : Z) : Prop := exists s, registered_in d0 s /\ index s = Z.abs z /\ cls (geo s) = Cone.
  Lemma is_cone_num inv f z : is_cone G cls same d0 inv f z -> cone_num z.
  Proof.
    intros (pos & g & n & _ & _ & EC & (l1 & s & l2 & EG & _ & EI & _) & ->).
    assert (I : In s (group d0 (cls g))) by (rewrite EG; apply in_or_app; right; left; auto).
    assert (R : registered_in d0 s) by (exists (cls g); auto).
    exists s. split; auto. split.
    - pose proof (reg_pos G cls P o HO d0 s D0 R). destruct pos; lia.
    - destruct D0 as (_ & _ & _ & B). rewrite (B _ _ I). auto.
  Qed.

  Lemma cell_defs_ok l : (forall i ps pc, In (i, ps) l -> In pc ps -> piece_good G cls same P d0 pc) ->
    forall d, dp d -> gr d0 d -> exists d' cs ci,
    cell_defs T cls same opp opp_x sord l d = Ok (d', cs, ci) /\ dp d' /\ gr d d' /\
    Forall2 (cell_rel d') l cs /\
    (forall i zs z, In (i, zs) ci -> In z zs -> cone_num z) /\
    (forall i, In i (map fst ci) -> In i (map fst l)) /\ (NoDup (map fst l) -> NoDup (map fst ci)).
  Proof.
    induction l as [|[i ps] l IH]; intros HG d D GR; cbn [cell_defs].
    - exists d, [], []. split; auto. split; auto. split; [apply grow_refl|]. split; [constructor|]. split; [intros ? ? ? []|]. split; auto.
    - destruct (cell_ok G cls same opp opp_x P side FA o HO d0 D0 sord HS [] ps d 0 [] []) as (d1 & bs & lev & ns & c & LB & E & D1 & G1 & CN & DR & F2 & LV); auto.
      { intros p I. eapply HG; [left; eauto|auto]. }
      unfold cell_def. rewrite E. cbn [bind app]. cbn [app] in LV.
      destruct (IH (fun i ps pc I => HG i ps pc (or_intror I)) d1 D1) as (d2 & cs & ci & -> & D2 & G2 & FC & CC & IDS & NDS); [eapply grow_trans; eauto|].
      cbn [bind]. eexists _, _, _. split; [reflexivity|]. split; auto. split; [eapply grow_trans; eauto|]. split; [|split; [|split]].
      + constructor; auto. apply (cell_rel_grow d1); auto. split; cbn [c_id c_all c_kept c_def fst snd]; auto.
        * intros pc J. apply (kept_in ps bs pc LB) in J. apply (kept_in ps bs pc LB). auto.
        * destruct LV as (L0 & L1); [lia|congruence|]. apply wf_seq. split; auto. split.
          -- intros EZ. destruct ns; [constructor|]. assert (0 < lev) by (apply L1; discriminate). lia.
          -- clear -F2. induction F2 as [|q n qs ns (_ & W & _) F IH]; constructor; auto.
        * exists lev, ns. split; auto. eapply F2_impl; [|exact F2]. intros pc n (A & _ & B & X). auto.
        * intros v AV. rewrite eval_seq.
          rewrite (or_pieces v (fun p => has_face p /\ holds p) (map fst (filter snd (combine ps bs))) ns).
          -- split.
             ++ intros (p & J & H). exists p. split; auto. apply (kept_in ps bs p LB) in J. apply (kept_in ps bs p LB). auto.
             ++ intros (p & J & H). exists p. split; auto. apply (kept_in ps bs p LB). apply (kept_in ps bs p LB) in J. destruct J as [J|J]; auto.
                exfalso. destruct H as (H1 & H2). destruct (DR p J) as [N|N]; [auto|exact (N v AV H2)].
          -- eapply F2_impl; [|exact F2]. cbv beta. intros p n (HFc & W & SH & V). specialize (V v AV). tauto.
      + assert (K : forall z, In z c -> cone_num z).
        { intros z J. apply CN in J. destruct J as [[]|(p & f & _ & _ & X)]. eapply is_cone_num; eauto. }
        intros j zs z A B. destruct c; [eapply CC; eauto|]. destruct A as [[= <- <-]|A]; [auto|eapply CC; eauto].
      + intros j A. destruct c; cbn [map fst] in *; [right; auto|]. destruct A as [<-|A]; [left; auto|right; auto].
      + cbn [map fst]. intros ND. inversion ND as [|? ? NI ND']; subst. destruct c; cbn [map fst]; auto. constructor; auto.
  Qed.

  (** ** as seen by the void generation *)
  Variable pbox : piece G -> box.
  Lemma void_meta_aligned p v d s c : cell_rel d s c -> cons v d ->
    (forall pc, In pc (snd s) -> has_face pc -> holds pc -> inside (pbox pc) p) ->
    aligned p v (void_meta T pbox c).
  Proof.
    intros [A B C W (lev & ns & E & F2) H] CV HB. unfold aligned, void_meta. cbn [VoidBoxes.mdef mbb msol]. split; [split; auto; rewrite E; exact Logic.I|]. split.
    - intros EV. apply (H v CV) in EV. destruct EV as (pc & J & HF & HH). specialize (HB pc J HF HH). rewrite B.
      destruct (snd s) as [|p0 r]; [destruct J|]. cbn [map]. eexists. split; [reflexivity|]. apply hull_inside.
      destruct J as [<-|J]; auto. right. apply Exists_exists. exists (pbox pc). split; auto. apply in_map. auto.
    - intros _. exists OR, lev, ns, (map pbox (c_kept c)). split; auto. split; auto. left. split; auto.
      clear -F2 CV HB C. revert C. generalize dependent (c_kept c). intros kept F2. induction F2 as [|pc n kept ns (SH & HF & V) F IH]; intros C; cbn [map]; constructor.
      + split; [destruct SH as (op & lv & x & l & ->); eauto|]. intros EV. apply (V v CV) in EV. apply HB; auto. apply C. left; auto.
      + apply IH. intros; apply C. right; auto.
  Qed.
End Solids.
