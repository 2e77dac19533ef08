From Coq Require Import QArith Qabs Lqa.
From Verif Require Import Prelude BoolSpec BoolSeq BoolProofs BoolProofs2 CtSpec Ctable VoidCell VoidProofs SurfDict SurfDictProofs
  VoidBoxes VoidBoxSpec VoidBoxProofs VoidLoopProofs BoxDef BoxSpec BoxDefProofs VoidAll.
Open Scope Z_scope.

(** A run without ghost errors is the real run. *)
Section Mono.
  Variable E : Type.
  Variable bb : E -> box.
  Variable common : E -> box -> cut E.
  Variables maxsurf maxbracket : Z.
  Variable minSize : Q.
  Variable D : Type.
  Variables void1 void2 : vbox E -> D -> res (D * option node).
  Hypothesis H12 : forall z d x, void1 z d = Ok x -> void2 z d = Ok x.
  Lemma pass_mono : forall l d x, pass E bb common maxsurf maxbracket minSize D void1 l d = Ok x ->
    pass E bb common maxsurf maxbracket minSize D void2 l d = Ok x.
  Proof.
    induction l as [|z l IH]; intros d x H; cbn [pass] in *; auto. inv_bind. rewrite Ha. cbn [bind]. destruct a as [zs|].
    - apply bind_ok in H. destruct H as ((d2 & t & v) & Hp & H). apply IH in Hp. rewrite Hp. exact H.
    - apply bind_ok in H. destruct H as ([d1 c] & Hv & H). apply H12 in Hv. rewrite Hv. cbn [bind].
      apply bind_ok in H. destruct H as ((d2 & t & v) & Hp & H). apply IH in Hp. rewrite Hp. exact H.
  Qed.
  Lemma turns_mono : forall n l d x, turns E bb common maxsurf maxbracket minSize D void1 n l d = Ok x ->
    turns E bb common maxsurf maxbracket minSize D void2 n l d = Ok x.
  Proof.
    induction n as [|n IH]; intros l d x H; cbn [turns] in *; auto.
    apply bind_ok in H. destruct H as ((d2 & t & v) & Hp & H). apply pass_mono in Hp. rewrite Hp. cbn [bind].
    destruct t; auto. apply bind_ok in H. destruct H as ((d3 & w & r) & Ht & H). apply IH in Ht. rewrite Ht. exact H.
  Qed.
  Lemma get_void_def_mono ms u d x : get_void_def E bb common maxsurf maxbracket minSize D void1 ms u d = Ok x ->
    get_void_def E bb common maxsurf maxbracket minSize D void2 ms u d = Ok x.
  Proof. unfold get_void_def. intros H. inv_bind. rewrite Ha. cbn [bind]. apply turns_mono; auto. Qed.
End Mono.

Section All.
  Variable T : Type.
  Variable sideT : T -> bool.
  Variable cls : surface T -> key.
  Variable same : surface T -> surface T -> bool.
  Variable o : Z.
  Hypothesis Ho : 0 <= o.
  Hypothesis Hsame : exact_planes T same.
  Variable p : place.
  Variable v : point.
  Notation D := (sdict (surface T)).
  Notation Rel := (reachable T cls same o).
  Notation Ag := (agrees T sideT p v).
  Variable k : nat.
  Variable ord : node -> list Z.
  Hypothesis Hord : forall n x, wf n -> In x (ord n) -> 0 < x.
  Variable mk : box -> D -> list Z -> res ctab.
  Hypothesis Hmk : forall b d sl t, mk b d sl = Ok t -> regular t /\ pos_keys t.
  Hypothesis Hbox : forall b d sl t, mk b d sl = Ok t -> Ag d -> halfb b p = true -> in_box t v.
  Variable mode : smode.

  Lemma void_box_strict z d x : void_box T cls same true k ord mk mode z d = Ok x ->
    void_box T cls same false k ord mk mode z d = Ok x.
  Proof.
    unfold void_box. destruct (vreg z) as [b|[]]. intros H. apply bind_ok in H. destruct H as ([d1 bd] & E & H).
    rewrite E. cbn [bind]. inv_bind. apply get_void_strict in Ha. rewrite Ha. exact H.
  Qed.

  Definition falsify (z : Z) : point := fun _ => z <? 0.
  Lemma falsify_lit z : z <> 0 -> lit_val (falsify z) z = false.
  Proof. intros N. unfold lit_val, falsify. destruct (Z.ltb_spec z 0); reflexivity. Qed.

  Lemma void_box_spec sol z d d' c : good Empty_set p v (fun _ => false) sol z -> Rel d ->
    void_box T cls same true k ord mk mode z d = Ok (d', c) ->
    Rel d' /\ (Ag d' -> Ag d /\
    match c with Some c => eval v c | None => false end = zin Empty_set p (fun _ => false) z && negb (solid v (vobj z))).
  Proof.
    intros (A & TH & _) R H. unfold void_box in H. unfold zin, rin. destruct (vreg z) as [b|[]]. cbn [thick] in TH.
    destruct (box_def_spec T sideT cls same o Ho Hsame p v b d TH R) as (d1 & l & E & R1 & W & LL & EV).
    rewrite E in H. cbn [bind] in H. inv_bind. injection H as <- <-. split; auto. intros AG.
    destruct (EV AG) as (A0 & EV'). split; auto.
    assert (WD : Forall wf (map mdef (vobj z)) /\ Forall is_seq (map mdef (vobj z))).
    { rewrite !Forall_map. split; revert A; apply Forall_impl; intros m ((W1 & W2) & _); auto. }
    destruct WD as (WD & SD).
    replace (solid v (vobj z)) with (existsb (eval v) (map mdef (vobj z))).
    2:{ unfold solid. clear. induction (vobj z) as [|m ms IH]; cbn; auto. rewrite IH. reflexivity. }
    rewrite <- EV'.
    eapply get_void_sound with (mk := mk b d1); eauto; try exact Logic.I.
    - intros [X|X]; [|discriminate]. intros sl t M. rewrite EV' in X. eapply Hbox; eauto.
    - destruct l as [|n l]; [discriminate|]. apply wf_seq in W. destruct W as (_ & L0 & W).
      specialize (L0 eq_refl). inversion L0 as [|? ? LN _]; subst. inversion W as [|? ? WN _]; subst.
      destruct n as [x| |]; cbn in LN; try contradiction. cbn in WN. exists (falsify x). split; [|discriminate].
      cbn [eval forallb]. rewrite falsify_lit; auto.
  Qed.

  Variables maxsurf maxbracket : Z.
  Variable minSize : Q.
  Hypothesis Hmin : (0 < minSize)%Q.
  Let void_level0 s := void_level0 T cls same s k ord mk mode maxsurf maxbracket minSize.

  Lemma void_level0_spec ms u d d' vs rest :
    Rel d -> (forall a, (0 < len u a)%Q) -> Forall (aligned p v) ms ->
    void_level0 true ms u d = Ok (d', (vs, rest)) ->
    void_level0 false ms u d = Ok (d', (vs, rest)) /\ Rel d' /\
    (Ag d' -> Ag d /\ (count (eval v) vs + (if solid v ms then 0 else count (zin Empty_set p (fun _ => false)) rest)
                = if negb (solid v ms) && halfb u p then 1 else 0)%nat).
  Proof.
    intros R U A H. split; [eapply get_void_def_mono; [intros ? ? ?; apply void_box_strict|exact H]|].
    eapply (get_void_def_count Empty_set _ _ maxsurf maxbracket minSize p v (fun _ => false)) with (sol := solid v ms) (Rel := Rel) (Ag := Ag) in H;
      eauto.
    - intros [].
    - intros [].
    - intros z d0 d1 c G R0 HV. eapply void_box_spec; eauto.
  Qed.
  Lemma void_level0_none_dropped s ms u d d' vs rest :
    (weight minSize u < inject_Z (2 ^ 50) * (minSize * minSize * minSize))%Q ->
    void_level0 s ms u d = Ok (d', (vs, rest)) -> rest = [].
  Proof. intros W H. eapply no_box_dropped in H; eauto. Qed.
End All.
