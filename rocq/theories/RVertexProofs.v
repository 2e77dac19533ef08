(** Proofs about RVertex: the choice of the limits from a list of points. *)
From Coq Require Import QArith Qreals Sorted.
From Verif Require Import Prelude BoolSpec BoolSeq RBool Vec3 Prim PrimProofs RBox RBoxSpec RBoxProofs RPlanes RVertex.
Open Scope R_scope.

Lemma nlt_true a b : nlt Rops a b = true <-> a < b.
Proof. unfold nlt; cbn. rewrite negb_true_iff. destruct (rleb b a) eqn:E. - apply rleb_true in E. split; [discriminate|lra]. - apply rleb_false in E. split; auto. Qed.
Lemma nlt_false a b : nlt Rops a b = false <-> b <= a.
Proof. unfold nlt; cbn. rewrite negb_false_iff. apply rleb_true. Qed.
Lemma q0 : n0 Rops = 0.
Proof. unfold n0; cbn. unfold Q2R; cbn. field. Qed.
Lemma q1 : Q2R 1 = 1.
Proof. unfold Q2R; cbn. field. Qed.
Lemma neq0_true a : neq0 Rops a = true <-> a = 0.
Proof. unfold neq0. rewrite q0, andb_true_iff; cbn. rewrite !rleb_true. lra. Qed.
Lemma neq0_false a : neq0 Rops a = false <-> a <> 0.
Proof. rewrite <- not_true_iff_false, neq0_true. reflexivity. Qed.

Notation co := (coord Rops).
Definition asc (a : axis3) : list vec -> Prop := StronglySorted (fun p q => co a p <= co a q).
Definition desc (a : axis3) : list vec -> Prop := StronglySorted (fun p q => co a q <= co a p).
Definition sep (l : list vec) : Prop := forall p q, In p l -> In q l -> p = q \/ near Rops p q = false.

Lemma sep_incl l l' : incl l' l -> sep l -> sep l'.
Proof. intros A S p q P Q. apply S; apply A; assumption. Qed.

Lemma in_ins a p x l : In x (ins Rops a p l) <-> x = p \/ In x l.
Proof. induction l as [|q r IH]; cbn; [intuition|]. destruct (rleb _ _); cbn; [intuition|]. rewrite IH. intuition. Qed.
Lemma in_sorted a x l : In x (sorted Rops a l) <-> In x l.
Proof. induction l as [|q r IH]; cbn; [intuition|]. rewrite in_ins, IH. intuition. Qed.
Lemma ins_asc a p l : asc a l -> asc a (ins Rops a p l).
Proof.
  induction 1 as [|q r A IH F]; cbn.
  - repeat constructor.
  - destruct (rleb (co a p) (co a q)) eqn:E.
    + apply rleb_true in E. constructor; [constructor; auto|]. constructor; [exact E|]. rewrite Forall_forall in *. intros y Y. specialize (F y Y). lra.
    + apply rleb_false in E. constructor; auto. rewrite Forall_forall in *. intros y Y. apply in_ins in Y. destruct Y as [->|Y]; [lra|auto].
Qed.
Lemma sorted_asc a l : asc a (sorted Rops a l).
Proof. induction l; cbn; [constructor|apply ins_asc; assumption]. Qed.
Lemma strong_app {A} (R : A -> A -> Prop) l l' : StronglySorted R l -> StronglySorted R l' -> (forall x y, In x l -> In y l' -> R x y) -> StronglySorted R (l ++ l').
Proof.
  induction 1 as [|x l S IH F]; cbn; intros S' C; auto. constructor.
  - apply IH; auto.
  - rewrite Forall_forall in *. intros y Y. apply in_app_or in Y. destruct Y; auto.
Qed.
Lemma strong_rev {A} (R : A -> A -> Prop) l : StronglySorted R l -> StronglySorted (fun x y => R y x) (rev l).
Proof.
  induction 1 as [|x l S IH F]; cbn; [constructor|]. apply strong_app; auto.
  - repeat constructor.
  - rewrite Forall_forall in F. intros a b X Y. destruct Y as [<-|[]]. apply F. apply in_rev. exact X.
Qed.
Lemma thin_incl l : forall p x, In x (thin Rops p l) -> In x l.
Proof. induction l as [|q r IH]; intros p x; cbn; auto. destruct (near Rops p q); cbn; intuition eauto. Qed.
Lemma thin_desc a l : forall p, desc a (p :: l) -> desc a (p :: thin Rops p l).
Proof.
  induction l as [|q r IH]; intros p D; cbn; auto. inversion D as [|? ? D1 F1]; subst. inversion D1 as [|? ? D2 F2]; subst. inversion F1; subst.
  destruct (near Rops p q).
  - apply IH. constructor; auto.
  - constructor.
    + apply IH. constructor; auto.
    + constructor; auto. rewrite Forall_forall in *. intros y Y. apply thin_incl in Y. auto.
Qed.
Lemma thin_in l : forall p, sep (p :: l) -> forall x, In x (p :: l) -> In x (p :: thin Rops p l).
Proof.
  induction l as [|q r IH]; intros p S x X; cbn; auto.
  destruct (near Rops p q) eqn:E.
  - destruct (S p q) as [Q|Q]; cbn; auto; [|congruence]. apply IH; [eapply sep_incl; [|exact S]; intros y [->|Y]; cbn; auto|]. destruct X as [->|[->|X]]; cbn; auto.
  - destruct X as [->|X]; auto. right. apply IH; auto. eapply sep_incl; [|exact S]. intros y Y; cbn; auto.
Qed.
Lemma remove_close_in l x : sep l -> (In x (remove_close Rops l) <-> In x l).
Proof.
  intros S. unfold remove_close. change (vect Rops) with vec in *. rewrite (in_rev l). destruct (rev l) as [|p r] eqn:E; [reflexivity|].
  assert (S' : sep (p :: r)). { rewrite <- E. eapply sep_incl; [|exact S]. intros y Y. now apply in_rev. }
  rewrite <- in_rev. split; [|apply thin_in; auto]. intros [->|X]; [left; auto|right; eapply thin_incl; eauto].
Qed.
Lemma remove_close_asc a l : asc a l -> asc a (remove_close Rops l).
Proof.
  intros S. apply strong_rev in S. unfold remove_close. change (vect Rops) with vec in *. destruct (rev l) as [|p r]; [constructor|].
  apply (thin_desc a) in S. apply strong_rev in S. exact S.
Qed.
Lemma sort_point_in a l x : sep l -> (In x (sort_point Rops a l) <-> In x l).
Proof. intros S. unfold sort_point. rewrite remove_close_in, in_sorted; [reflexivity|]. eapply sep_incl; [|exact S]. intros y. apply in_sorted. Qed.
Lemma sort_point_asc a l : asc a (sort_point Rops a l).
Proof. apply remove_close_asc, sorted_asc. Qed.

Lemma keep_desc a v l x : desc a l -> (In x (keep Rops a v true l) <-> In x l /\ v <= co a x).
Proof.
  induction 1 as [|p r D IH F]; cbn [keep]; [cbn; tauto|]. destruct (nlt Rops (co a p) v) eqn:E.
  - apply nlt_true in E. split; [intros []|]. rewrite Forall_forall in F. intros [[->|X] Y]; [lra|]. specialize (F x X). lra.
  - apply nlt_false in E. cbn [In]. rewrite IH. intuition (subst; auto).
Qed.
Lemma keep_asc a v l x : asc a l -> (In x (keep Rops a v false l) <-> In x l /\ co a x <= v).
Proof.
  induction 1 as [|p r D IH F]; cbn [keep]; [cbn; tauto|]. destruct (nlt Rops v (co a p)) eqn:E.
  - apply nlt_true in E. split; [intros []|]. rewrite Forall_forall in F. intros [[->|X] Y]; [lra|]. specialize (F x X). lra.
  - apply nlt_false in E. cbn [In]. rewrite IH. intuition (subst; auto).
Qed.
Lemma keep_sorted R a v lo l : StronglySorted R l -> StronglySorted R (keep Rops a v lo l).
Proof.
  induction 1 as [|p r D IH F]; cbn [keep]; [constructor|]. destruct (if lo then _ else _); [constructor|]. constructor; auto.
  rewrite Forall_forall in *. intros y Y. apply F. clear -Y. induction r as [|q r IH]; cbn in Y; [destruct Y|]. destruct (if lo then _ else _); [destruct Y|]. destruct Y as [->|Y]; [left; auto|right; auto].
Qed.

Section Lim.
  Variable tol : R.
  Variable planes : list (Z * pl).
  Variable def : node.
  Variable bin : bool.
  Notation isin := (fun x => is_inside Rops tol planes def x bin).
  Lemma first_spec l : forall r, first_in Rops tol planes def bin l = Ok r ->
    match r with
    | None => l = []
    | Some (p, true) => In p l /\ isin p = Ok true /\ exists l1 l2, l = l1 ++ p :: l2 /\ forall q, In q l1 -> isin q = Ok false
    | Some (p, false) => In p l /\ forall q, In q l -> isin q = Ok false
    end.
  Proof.
    induction l as [|p l IH]; intros r H; cbn in H; [now inversion H|].
    destruct (isin p) as [b| |] eqn:E; try discriminate. cbn [bind] in H. destruct b.
    - injection H as <-. split; [now left|]. split; auto. exists [], l. split; auto. intros q [].
    - destruct l as [|q l].
      + injection H as <-. split; [now left|]. intros y [<-|[]]. exact E.
      + specialize (IH _ H). destruct r as [[y []]|]; [| |discriminate].
        * destruct IH as (A & B & l1 & l2 & C & D). split; [now right|]. split; auto. exists (p :: l1), l2. rewrite C. split; auto. intros z [<-|Z]; auto.
        * destruct IH as (A & B). split; [now right|]. intros z [<-|Z]; auto.
  Qed.
  Lemma axis_spec a l lims l' : sep l -> axis_limits Rops tol planes def bin a l = Ok (lims, l') ->
    incl l' l /\
    ((exists v, In v l /\ isin v = Ok true) ->
       exists p q, In p l /\ In q l /\ isin p = Ok true /\ isin q = Ok true /\ lims = [co a p; co a q] /\
         forall v, In v l -> isin v = Ok true -> co a p <= co a v <= co a q /\ In v l') /\
    ((forall v, In v l -> isin v <> Ok true) -> lims = []).
  Proof.
    intros S H. unfold axis_limits in H. pose proof (sort_point_asc a l) as SA. pose proof (fun x => sort_point_in a l x S) as SI. set (s := sort_point Rops a l) in *.
    destruct (first_in _ _ _ _ _ s) as [r1| |] eqn:E1; try discriminate. cbn [bind] in H. apply first_spec in E1. destruct r1 as [[p f]|]; [|discriminate].
    pose proof (fun x => keep_desc a (co a p) (rev s) x (strong_rev _ _ SA)) as S2. unfold remove_points in H at 1. set (s2 := keep Rops a (co a p) true (rev s)) in *.
    destruct (first_in _ _ _ _ _ s2) as [r2| |] eqn:E2; try discriminate. cbn [bind] in H. apply first_spec in E2. destruct r2 as [[q g]|]; [|discriminate].
    assert (D2 : desc a s2) by (apply keep_sorted, strong_rev, SA).
    assert (A2 : asc a (rev s2)) by (apply strong_rev in D2; exact D2).
    unfold remove_points in H. pose proof (fun x => keep_asc a (co a q) (rev s2) x A2) as S3. set (s3 := keep Rops a (co a q) false (rev s2)) in *.
    injection H as <- <-.
    assert (I2 : forall x, In x s2 -> In x l). { intros x X. apply S2 in X. apply SI. apply in_rev. tauto. }
    assert (I3 : incl s3 l). { intros x X. apply S3 in X. apply I2. apply in_rev. tauto. }
    split; auto. split.
    - intros (v & V & T).
      assert (F : f = true). { destruct f; auto. destruct E1 as (_ & E1). specialize (E1 v (proj2 (SI v) V)). cbn in *. congruence. } subst f.
      destruct E1 as (P1 & P2 & l1 & l2 & P3 & P4).
      assert (M : forall w, In w l -> isin w = Ok true -> co a p <= co a w).
      { intros w X Y. apply SI in X. rewrite P3 in X, SA. apply in_app_or in X. destruct X as [X|X]; [specialize (P4 w X); cbn in *; congruence|].
        clear -SA X. induction l1 as [|z l1 IH]; cbn in SA; inversion SA; subst; auto. destruct X as [->|X]; [lra|]. rewrite Forall_forall in *. auto. }
      assert (G : g = true). { destruct g; auto. destruct E2 as (_ & E2). assert (X : In p s2) by (apply S2; split; [rewrite <- in_rev; exact P1|lra]). specialize (E2 p X). cbn in *. congruence. } subst g.
      destruct E2 as (Q1 & Q2 & k1 & k2 & Q3 & Q4).
      exists p, q. split; [now apply SI|]. split; [now apply I2|]. split; auto. split; auto. split; auto. intros w X Y.
      pose proof (M w X Y) as M1.
      assert (X2 : In w s2). { apply S2. split; [rewrite <- in_rev; now apply SI|exact M1]. }
      assert (M2 : co a w <= co a q).
      { rewrite Q3 in X2, D2. apply in_app_or in X2. destruct X2 as [X2|X2]; [specialize (Q4 w X2); cbn in *; congruence|].
        clear -D2 X2. induction k1 as [|z k1 IH]; cbn in D2; inversion D2; subst; auto. destruct X2 as [->|X2]; [lra|]. rewrite Forall_forall in *. auto. }
      split; [lra|]. apply S3. split; [rewrite <- in_rev; exact X2|exact M2].
    - intros Z. destruct f; [destruct E1 as (A & B & _); elim (Z p); auto; now apply SI|]. destruct g; [destruct E2 as (A & B & _); elim (Z q); auto|]. reflexivity.
  Qed.
  Lemma tiny_q : Q2R (1 # 1000000000000) = / 10 ^ 12.
  Proof. unfold Q2R. cbn [Qnum Qden]. replace (10 ^ 12) with (IZR 1000000000000) by (rewrite (pow_IZR 10 12); reflexivity). field. Qed.
  Lemma limits_spec l r : sep l -> limits Rops tol planes def bin l = Ok r ->
    match r with
    | Some b => (forall v, In v l -> isin v = Ok true -> in_box b v) /\
                / 10 ^ 12 <= xmax b - xmin b /\ / 10 ^ 12 <= ymax b - ymin b /\ / 10 ^ 12 <= zmax b - zmin b /\
                (forall a : axis3, exists p q, In p l /\ In q l /\ isin p = Ok true /\ isin q = Ok true /\
                    match a with AX => xmin b = vx p /\ xmax b = vx q | AY => ymin b = vy p /\ ymax b = vy q | AZ => zmin b = vz p /\ zmax b = vz q end)
    | None => (List.length l < 6)%nat \/ (forall v, In v l -> isin v <> Ok true) \/
              exists a, forall v w, In v l -> isin v = Ok true -> In w l -> isin w = Ok true -> co a w - co a v < / 10 ^ 12
    end.
  Proof.
    intros S H. unfold limits in H. change (vect Rops) with vec in *. change (box Rops) with bbox in *. destruct (List.length l <? 6)%nat eqn:EL; [injection H as <-; left; now apply Nat.ltb_lt|].
    destruct (axis_limits Rops _ _ _ _ AX l) as [[lx l1]| |] eqn:EX; try discriminate. cbn [bind] in H.
    destruct (axis_limits Rops _ _ _ _ AY l1) as [[ly l2]| |] eqn:EY; try discriminate. cbn [bind] in H.
    destruct (axis_limits Rops _ _ _ _ AZ l2) as [[lz l3]| |] eqn:EZ; try discriminate. cbn [bind] in H.
    apply axis_spec in EX; auto. destruct EX as (IX & AX1 & AX2).
    assert (S1 : sep l1) by (eapply sep_incl; eauto). apply axis_spec in EY; auto. destruct EY as (IY & AY1 & AY2).
    assert (S2 : sep l2) by (eapply sep_incl; eauto). apply axis_spec in EZ; auto. destruct EZ as (IZ & AZ1 & AZ2).
    assert (DEC : (exists v, In v l /\ isin v = Ok true) \/ forall v, In v l -> isin v <> Ok true).
    { clear. induction l as [|p l IH]; [right; intros v []|]. destruct (isin p) as [[]| |] eqn:E.
      - left. exists p. split; [now left|exact E].
      - destruct IH as [(v & A & B)|IH]; [left; exists v; split; [now right|auto]|]. right. intros v [<-|V]; [cbn in E; congruence|auto].
      - destruct IH as [(v & A & B)|IH]; [left; exists v; split; [now right|auto]|]. right. intros v [<-|V]; [cbn in E; congruence|auto].
      - destruct IH as [(v & A & B)|IH]; [left; exists v; split; [now right|auto]|]. right. intros v [<-|V]; [cbn in E; congruence|auto]. }
    destruct DEC as [D|D].
    - destruct (AX1 D) as (px & qx & X1 & X2 & X3 & X4 & -> & X5). destruct D as (v0 & V0 & T0).
      destruct (AY1 (ex_intro _ v0 (conj (proj2 (X5 v0 V0 T0)) T0))) as (py & qy & Y1 & Y2 & Y3 & Y4 & -> & Y5).
      destruct (AZ1 (ex_intro _ v0 (conj (proj2 (Y5 v0 (proj2 (X5 v0 V0 T0)) T0)) T0))) as (pz & qz & Z1 & Z2 & Z3 & Z4 & -> & Z5).
      cbn [app] in H. cbn [nsub nq Rops num mkb] in H. rewrite tiny_q in H.
      assert (ALL : forall v, In v l -> isin v = Ok true -> co AX px <= co AX v <= co AX qx /\ co AY py <= co AY v <= co AY qy /\ co AZ pz <= co AZ v <= co AZ qz).
      { intros v V T. destruct (X5 v V T) as (A1 & A2). destruct (Y5 v A2 T) as (B1 & B2). destruct (Z5 v B2 T) as (C1 & _). auto. }
      destruct (nlt Rops (co AX qx - co AX px) (/ 10 ^ 12)) eqn:NX.
      { cbn [orb] in H. injection H as <-. apply nlt_true in NX. right; right. exists AX. intros v w V1 V2 W1 W2. pose proof (ALL v V1 V2). pose proof (ALL w W1 W2). lra. }
      destruct (nlt Rops (co AY qy - co AY py) (/ 10 ^ 12)) eqn:NY.
      { cbn [orb] in H. injection H as <-. apply nlt_true in NY. right; right. exists AY. intros v w V1 V2 W1 W2. pose proof (ALL v V1 V2). pose proof (ALL w W1 W2). lra. }
      destruct (nlt Rops (co AZ qz - co AZ pz) (/ 10 ^ 12)) eqn:NZ.
      { cbn [orb] in H. injection H as <-. apply nlt_true in NZ. right; right. exists AZ. intros v w V1 V2 W1 W2. pose proof (ALL v V1 V2). pose proof (ALL w W1 W2). lra. }
      cbn [orb] in H. injection H as <-. apply nlt_false in NX, NY, NZ. cbn [xmin xmax ymin ymax zmin zmax]. split; [|split; [exact NX|split; [exact NY|split; [exact NZ|]]]].
      + intros v V T. pose proof (ALL v V T) as A. unfold in_box; cbn [xmin xmax ymin ymax zmin zmax]. cbn in A. tauto.
      + intros []; [exists px, qx|exists py, qy|exists pz, qz]; repeat split; auto.
    - rewrite (AX2 D), (AY2 (fun v V => D v (IX v V))), (AZ2 (fun v V => D v (IX v (IY v V)))) in H. cbn in H. injection H as <-. right; left. exact D.
  Qed.
End Lim.
