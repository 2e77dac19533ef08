(** The while loop of get_void_def: every point of the enclosure is in exactly
    one void cell, in a solid, or in a box dropped by the limit of 50 turns. *)
From Coq Require Import QArith Lqa.
From Verif Require Import Prelude BoolSpec BoolSeq BoolProofs VoidBoxes VoidBoxSpec VoidBoxProofs.
Open Scope Z_scope.

Section Loop.
  Variable E : Type.
  Variable bb : E -> box.
  Variable common : E -> box -> cut E.
  Variables maxsurf maxbracket : Z.
  Variable minSize : Q.
  Variable p : place.
  Variable v : point.
  Variable pin : E -> bool.     (* is [p] in the piece? *)
  Definition rin (r : region E) : bool := match r with RBox b => halfb b p | RPiece e => pin e end.
  Definition count {A} (f : A -> bool) (l : list A) : nat := length (filter f l).

  Hypothesis Hm : (0 < minSize)%Q.
  (** a piece lies in its bounding box; the kernel's answers are right, and no
      intersection has more than one solid *)
  Hypothesis Hbb : forall e, pin e = true -> inside (bb e) p /\ halfb (bb e) p = true.
  Hypothesis Hcom : forall e b, match common e b with
    | Far => pin e && halfb b p = false
    | Whole => (forall a, (0 < len b a)%Q) /\ (halfb b p = true -> pin e = true)
    | Common l => (length l <= 1)%nat /\ pin e && halfb b p = existsb pin l
    end.

  Lemma count_app {A} (f : A -> bool) l l' : count f (l ++ l') = (count f l + count f l')%nat.
  Proof. unfold count. rewrite filter_app, app_length. reflexivity. Qed.

  Lemma piece_split_count e b :
    count rin (match piece_split E common e b with Some x => [x] | None => [] end) = if pin e && halfb b p then 1%nat else 0%nat.
  Proof.
    unfold piece_split, count. pose proof (Hcom e b) as H. destruct (common e b) as [| |l].
    - rewrite H. reflexivity.
    - cbn [filter rin]. destruct H as (_ & H). destruct (halfb b p); [rewrite H by auto|rewrite andb_false_r]; reflexivity.
    - destruct H as (L & ->). destruct l as [|x [|y l]]; [reflexivity| |simpl in L; lia].
      cbn. rewrite orb_false_r. destruct (pin x); reflexivity.
  Qed.

  Lemma split_region_count r l : split_region E bb common minSize r = Some l ->
    count rin l = if rin r then 1%nat else 0%nat.
  Proof.
    unfold split_region. destruct (split minSize (rbox E bb r)) as [[b1 b2]|] eqn:S; [|discriminate].
    destruct (split_half _ _ _ _ p (Qlt_le_weak _ _ Hm) S) as (A & B). intros H. destruct r as [b|e]; injection H as <-; cbn [rbox rin] in *.
    - unfold count. cbn [filter rin]. rewrite A. destruct (halfb b1 p), (halfb b2 p); auto; discriminate.
    - rewrite count_app, !piece_split_count. destruct (pin e) eqn:P; auto. cbn [andb].
      destruct (Hbb e P) as (_ & P'). rewrite P' in A. destruct (halfb b1 p), (halfb b2 p); auto; discriminate.
  Qed.

  Variable sol : bool.      (* is [p] in a solid? *)
  (** a box has a volume *)
  Definition thick (r : region E) : Prop := match r with RBox b => forall a, (0 < len b a)%Q | RPiece _ => True end.
  Lemma split_thick r l : thick r -> split_region E bb common minSize r = Some l -> Forall thick l.
  Proof.
    unfold split_region. destruct (split minSize (rbox E bb r)) as [[b1 b2]|] eqn:S; [|discriminate].
    intros TH H. destruct r as [b|e]; injection H as <-.
    - pose proof (split_pos _ _ _ _ Hm S TH) as P. repeat constructor; intros a; apply (P a).
    - assert (X : forall b, Forall thick (match piece_split E common e b with Some x => [x] | None => [] end)).
      { intros b. unfold piece_split. pose proof (Hcom e b) as H. destruct (common e b) as [| |[|x l]]; repeat constructor; cbn [thick]; try apply (proj1 H). }
      apply Forall_app; auto.
  Qed.
  Definition good (z : vbox E) : Prop :=
    Forall (aligned p v) (vobj z) /\ thick (vreg z) /\ (rin (vreg z) = true -> solid v (vobj z) = sol).
  Definition zin (z : vbox E) : bool := rin (vreg z).

  Lemma rin_inside r : rin r = true -> inside (rbox E bb r) p.
  Proof. destruct r; cbn; [apply half_inside|]. intros H. apply Hbb, H. Qed.

  Lemma mk_vbox_good ms r : Forall (aligned p v) ms -> thick r -> (rin r = true -> solid v ms = sol) ->
    exists z, mk_vbox E bb ms r = Ok z /\ good z /\ vreg z = r.
  Proof.
    intros A TH S. unfold mk_vbox. destruct (box_objects_spec p v (rbox E bb r) ms A) as (os & -> & AO & EV).
    cbn [bind]. eexists; split; [reflexivity|]. split; auto. split; auto. cbn [vobj vreg]. split; auto. intros I.
    rewrite EV, S; auto. apply rin_inside; auto.
  Qed.

  Lemma split_vbox_spec z s : good z -> split_vbox E bb common minSize z = Ok s ->
    match s with
    | Some zs => Forall good zs /\ count zin zs = (if zin z then 1 else 0)%nat /\
                 split_region E bb common minSize (vreg z) = Some (map vreg zs)
    | None => split_region E bb common minSize (vreg z) = None
    end.
  Proof.
    intros (A & TH & S). unfold split_vbox. destruct (split_region E bb common minSize (vreg z)) as [l|] eqn:SR;
      [|intros [= <-]; auto].
    intros H. inv_bind. rename a into zs. injection H as <-.
    assert (SUB : forall r, In r l -> rin r = true -> rin (vreg z) = true).
    { intros r I R. pose proof (split_region_count _ _ SR) as C. destruct (rin (vreg z)); auto.
      unfold count in C. apply length_zero_iff_nil in C.
      assert (In r (filter rin l)) as X by (apply filter_In; auto). rewrite C in X. destruct X. }
    assert (G : Forall good zs /\ map vreg zs = l).
    { pose proof (split_thick _ _ TH SR) as TL. clear SR. revert zs Ha. induction l as [|r l IH]; intros zs H; cbn [mapM] in H; [injection H as <-; auto|].
      inversion TL; subst. destruct (mk_vbox_good (vobj z) r A) as (z' & Ez & Gz & Vz); auto.
      { intros R. apply S. apply (SUB r); simpl; auto. }
      rewrite Ez in H. cbn [bind] in H. inv_bind. injection H as <-.
      destruct (IH (fun r I => SUB r (or_intror I)) ltac:(auto) _ Ha) as (G & M). split; [constructor; auto|]. simpl. congruence. }
    destruct G as (G & M). split; auto. rewrite M. split; auto.
    unfold zin at 2. rewrite <- (split_region_count _ _ SR), <- M. unfold count, zin. clear.
    induction zs as [|z' zs IH]; cbn; auto. destruct (rin (vreg z')); simpl; auto.
  Qed.
  Lemma split_vbox_total z : good z -> exists s, split_vbox E bb common minSize z = Ok s.
  Proof.
    intros (A & TH & S). unfold split_vbox. destruct (split_region E bb common minSize (vreg z)) as [l|] eqn:SR; [|eauto].
    assert (exists zs, mapM (mk_vbox E bb (vobj z)) l = Ok zs) as (zs & ->); [|cbn; eauto].
    clear SR. induction l as [|r l IH]; [cbn; eauto|]. cbn [mapM].
    unfold mk_vbox at 1. destruct (box_objects_spec p v (rbox E bb r) (vobj z) A) as (os & -> & _).
    cbn [bind]. destruct IH as (zs & ->). cbn; eauto.
  Qed.

  (** void cells are right, once the sides of all surfaces of the dictionary
      after the call are known ([Ag]); [Rel]: reachable dictionaries *)
  Variable D : Type.
  Variable void : vbox E -> D -> res (D * option node).
  Variable Rel : D -> Prop.
  Variable Ag : D -> Prop.
  Hypothesis Hvoid : forall z d d' c, good z -> Rel d -> void z d = Ok (d', c) ->
    Rel d' /\ (Ag d' -> Ag d /\
    match c with Some c => eval v c | None => false end = zin z && negb (solid v (vobj z))).

  Definition target (l : list (vbox E)) : nat := if sol then 0%nat else count zin l.
  Let pass := pass E bb common maxsurf maxbracket minSize D void.
  Let turns := turns E bb common maxsurf maxbracket minSize D void.

  Lemma pass_spec : forall l d d' t vs, Forall good l -> Rel d -> pass l d = Ok (d', (t, vs)) ->
    Rel d' /\ Forall good t /\ (Ag d' -> Ag d /\ (count (eval v) vs + target t = target l)%nat).
  Proof.
    unfold target. induction l as [|z l IH]; intros d d' t vs G R H; unfold pass in H; cbn [VoidBoxes.pass] in H; fold pass in H; [injection H as <- <- <-; destruct sol; auto|].
    inversion G as [|? ? Gz G']; subst. inv_bind. rename a into s.
    assert (C1 : forall x, count zin (z :: x) = ((if zin z then 1 else 0) + count zin x)%nat).
    { intros x. unfold count. cbn [filter]. destruct (zin z); reflexivity. }
    assert (LEAF : s = None \/ exists zs, s = Some zs /\ split_vbox E bb common minSize z = Ok (Some zs)).
    { unfold try_split in Ha. destruct (numbers E z) as [ns nb].
      destruct ((maxsurf <? ns) && (maxbracket <? nb)); [|injection Ha as <-; auto].
      destruct s; auto. right. eauto. }
    destruct LEAF as [-> | (zs & -> & SV)].
    - apply bind_ok in H. destruct H as ([d1 c] & Hv & H). apply bind_ok in H. destruct H as ((d2 & t' & vs') & Hp & H).
      injection H as <- <- <-. destruct (Hvoid z _ _ _ Gz R Hv) as (R1 & HV).
      destruct (IH _ _ _ _ G' R1 Hp) as (R2 & GT & C). split; auto. split; auto. intros A2.
      destruct (C A2) as (A1 & C'). destruct (HV A1) as (A0 & HV'). split; auto. clear C HV.
      assert (CV : count (eval v) (match c with Some c => c :: vs' | None => vs' end)
                 = ((if zin z && negb (solid v (vobj z)) then 1 else 0) + count (eval v) vs')%nat).
      { destruct c as [c|]; [unfold count; cbn [filter]; rewrite HV'|rewrite <- HV'; auto].
        destruct (zin z && negb (solid v (vobj z))); reflexivity. }
      rewrite CV, C1. destruct Gz as (_ & _ & Gz). unfold zin in *. destruct (rin (vreg z)); cbn [andb] in *.
      + rewrite Gz by auto. destruct sol; cbn in *; lia.
      + destruct sol; lia.
    - apply bind_ok in H. destruct H as ((d2 & t' & vs') & Hp & H). injection H as <- <- <-.
      destruct (IH _ _ _ _ G' R Hp) as (R2 & GT & C).
      destruct (split_vbox_spec z _ Gz SV) as (GS & CS & _).
      split; auto. split; [apply Forall_app; auto|]. intros A2. destruct (C A2) as (A1 & C'). split; auto.
      rewrite count_app, CS, C1. destruct sol; lia.
  Qed.

  Lemma turns_spec : forall n l d d' vs rest, Forall good l -> Rel d -> turns n l d = Ok (d', (vs, rest)) ->
    Rel d' /\ (Ag d' -> Ag d /\ (count (eval v) vs + target rest = target l)%nat).
  Proof.
    induction n as [|n IH]; intros l d d' vs rest G R H; unfold turns in H; cbn [VoidBoxes.turns] in H; fold pass turns in H; [injection H as <- <- <-; auto|].
    apply bind_ok in H. destruct H as ((d1 & t & w) & Ha & H). destruct (pass_spec _ _ _ _ _ G R Ha) as (R1 & GT & C).
    destruct t as [|z t].
    - injection H as <- <- <-. split; auto.
    - apply bind_ok in H. destruct H as ((d2 & w' & rest') & Hb & H). injection H as <- <- <-.
      destruct (IH _ _ _ _ _ GT R1 Hb) as (R2 & C2). split; auto. intros A2. destruct (C2 A2) as (A1 & C2').
      destruct (C A1) as (A0 & C'). split; auto. rewrite count_app. lia.
  Qed.

  Theorem get_void_def_count ms u d d' vs rest : Forall (aligned p v) ms -> thick u -> (rin u = true -> solid v ms = sol) -> Rel d ->
    get_void_def E bb common maxsurf maxbracket minSize D void ms u d = Ok (d', (vs, rest)) ->
    Rel d' /\ (Ag d' -> Ag d /\
    (count (eval v) vs + (if sol then 0 else count zin rest) = if negb sol && rin u then 1 else 0)%nat).
  Proof.
    intros A TH S R H. unfold get_void_def in H. destruct (mk_vbox_good ms u A TH S) as (z & Ez & Gz & Vz).
    rewrite Ez in H. cbn [bind] in H. pose proof (turns_spec 50 [z] d d' vs rest) as T. unfold target in T.
    destruct T as (R' & T); auto. split; auto. intros AG. destruct (T AG) as (A0 & T'). split; auto.
    rewrite T'; auto. unfold count, zin. cbn [filter]. rewrite Vz. destruct sol, (rin u); reflexivity.
  Qed.

End Loop.

(** ** Boxes only (level 0): the depth of the subdivision *)
Section Boxes.
  Variable E : Type.
  Variable bb : E -> box.
  Variable common : E -> box -> cut E.
  Variables maxsurf maxbracket : Z.
  Variable minSize : Q.
  Variable D : Type.
  Variable void : vbox E -> D -> res (D * option node).
  Hypothesis Hm : (0 < minSize)%Q.
  Variable u : box.
  Definition at_depth (k : nat) (z : vbox E) : Prop := exists b, vreg z = RBox b /\ desc minSize u k b.

  Lemma split_depth k z zs : at_depth k z -> split_vbox E bb common minSize z = Ok (Some zs) ->
    Forall (at_depth (S k)) zs.
  Proof.
    intros (b & V & DD) H. unfold split_vbox, split_region in H. rewrite V in H. cbn [rbox] in H.
    destruct (split minSize b) as [[b1 b2]|] eqn:S; [|discriminate]. inv_bind. injection H as <-.
    cbn [mapM] in Ha. inv_bind. unfold mk_vbox in *. inv_bind.
    repeat match goal with H : Ok _ = Ok _ |- _ => injection H as <- end.
    repeat constructor; eexists; (split; [reflexivity|]); [eapply desc_l; eauto|eapply desc_r; eauto].
  Qed.
  Let pass := pass E bb common maxsurf maxbracket minSize D void.
  Let turns := turns E bb common maxsurf maxbracket minSize D void.
  Lemma pass_depth k : forall l d d' t vs, Forall (at_depth k) l -> pass l d = Ok (d', (t, vs)) -> Forall (at_depth (S k)) t.
  Proof.
    induction l as [|z l IH]; intros d d' t vs A H; unfold pass in H; cbn [VoidBoxes.pass] in H; fold pass in H; [injection H as <- <- <-; auto|].
    inversion A as [|? ? Az A']; subst. inv_bind. destruct a as [zs|].
    - apply bind_ok in H. destruct H as ((d2 & t' & vs') & Hp & H). injection H as <- <- <-. apply Forall_app. split; [|eapply IH; eauto].
      unfold try_split in Ha. destruct (numbers E z). destruct ((maxsurf <? z0) && (maxbracket <? z1)); [|discriminate].
      eapply split_depth; eauto.
    - apply bind_ok in H. destruct H as ([d1 c] & Hv & H). apply bind_ok in H. destruct H as ((d2 & t' & vs') & Hp & H).
      injection H as <- <- <-. eapply IH; eauto.
  Qed.
  Lemma turns_depth : forall n k l d d' vs rest, Forall (at_depth k) l -> turns n l d = Ok (d', (vs, rest)) ->
    Forall (at_depth (k + n)) rest.
  Proof.
    induction n as [|n IH]; intros k l d d' vs rest A H; unfold turns in H; cbn [VoidBoxes.turns] in H; fold pass turns in H; [injection H as <- <- <-; rewrite Nat.add_0_r; auto|].
    apply bind_ok in H. destruct H as ((d1 & t & w) & Ha & H). apply (pass_depth k) in Ha; auto. destruct t as [|z t]; [injection H as <- <- <-; auto|].
    apply bind_ok in H. destruct H as ((d2 & w' & rest') & Hb & H). injection H as <- <- <-. rewrite <- Nat.add_succ_comm. eapply IH; eauto.
  Qed.
  (** Fewer than 2^50 boxes of the smallest size: no box is dropped. *)
  Lemma no_box_dropped ms d d' vs rest : (weight minSize u < inject_Z (2 ^ 50) * (minSize * minSize * minSize))%Q ->
    get_void_def E bb common maxsurf maxbracket minSize D void ms (RBox u) d = Ok (d', (vs, rest)) -> rest = [].
  Proof.
    intros W H. unfold get_void_def in H. inv_bind. apply (turns_depth 50 0) in H.
    - destruct rest as [|z rest]; auto. exfalso. inversion H as [|? ? (b & V & DD) _]; subst.
      apply desc_weight in DD; [|lra]. pose proof (weight_ge minSize b) as G.
      change (Z.of_nat (0 + 50)) with 50 in DD. change (inject_Z (2 ^ 50)) with (1125899906842624 # 1)%Q in *.
      assert (minSize * minSize * minSize <= weight minSize b)%Q by (apply G; lra). lra.
    - unfold mk_vbox in Ha. inv_bind. injection Ha as <-. repeat constructor. eexists; split; [reflexivity|]. constructor.
  Qed.

End Boxes.
