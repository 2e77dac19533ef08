(** The box of a one-level part bounds its region. *)
From Coq Require Import QArith Qreals.
From Verif Require Import Prelude BoolSpec BoolSeq BoolProofs BoolProofs2 RBool RBoolSpec RBoolProofs Vec3 Prim PrimProofs RBox RBoxSpec RBoxProofs RPlanes RPlaneSpec RPlaneQuad RVertex RVertexSpec RVertexProofs RVertexGeo RVertexList RVertexList2.
Open Scope R_scope.

(** ** three-valued values of literals *)
Section Part.
  Variable tol : R.
  Variable TP : 0 < tol.
  Variable planes : list (Z * pl).
  Variable op : bop.
  Variable l : list Z.
  Variable order : list Z.
  Hypothesis NZ : ~ In 0%Z l.
  Hypothesis ORD : forall z, In z l -> In (Z.abs z) order.
  Hypothesis ORD2 : forall k, In k order -> exists z, In z l /\ k = Z.abs z.
  Hypothesis DG : forall z, In z l -> dget (Z.abs z) planes <> None.
  Let pp := part_planes planes order.
  Let n := Seq op 0 (map Lit l).
  Let vs (x : vec) : vset := point_sides Rops tol pp x.
  Definition sgn (z : Z) (d : R) : R := if (z <? 0)%Z then - d else d.

  Lemma pp_in k p : In (k, p) pp <-> In k order /\ dget k planes = Some p.
  Proof.
    unfold pp, part_planes. rewrite in_flat_map. split.
    - intros (z & I & H). destruct (dget z planes) as [q|] eqn:E; [|destruct H]. destruct H as [H|[]]. injection H as <- <-. auto.
    - intros (I & E). exists k. rewrite E. split; auto. now left.
  Qed.
  Lemma vs_in x k b : In (k, b) (vs x) <-> exists p, In (k, p) pp /\ tol <= Rabs (pl_dist p x) /\ (b = true <-> 0 < pl_dist p x).
  Proof.
    unfold vs, point_sides. rewrite in_flat_map.
    assert (X : forall q, match gdot Rops (pax Rops q) (gsub Rops x (ppos Rops q)) with d => nlt Rops d tol && nlt Rops (nsub Rops (n0 Rops) d) tol end = false <-> tol <= Rabs (pl_dist q x)).
    { intros q. rewrite andb_false_iff, !nlt_false, q0. change (gdot Rops (pax Rops q) (gsub Rops x (ppos Rops q))) with (pl_dist q x). cbn [nsub Rops]. unfold Rabs. destruct (Rcase_abs (pl_dist q x)); split; lra. }
    split.
    - intros ((k' & p) & I & H). cbn [fst snd] in H. destruct (_ && _)%bool eqn:E in H; [destruct H|]. apply X in E. destruct H as [H|[]]. assert (K1 : k' = k) by congruence. assert (K2 : b = nlt Rops (n0 Rops) (pl_dist p x)) by (injection H; intros K _; rewrite <- K; reflexivity). subst k'. exists p. split; auto. split; auto. rewrite K2, nlt_true, q0. reflexivity.
    - intros (p & I & T & B). exists (k, p). split; auto. cbn [fst snd]. apply X in T. cbn beta iota in T. change (num Rops) with R. match goal with |- In _ (if ?c then _ else _) => replace c with false end. left. f_equal.
      change (gdot Rops (pax Rops p) (gsub Rops x (ppos Rops p))) with (pl_dist p x). destruct (nlt Rops (n0 Rops) (pl_dist p x)) eqn:N.
      + apply nlt_true in N. rewrite q0 in N. symmetry. now apply B.
      + apply nlt_false in N. rewrite q0 in N. destruct b; auto. destruct B as (B & _). specialize (B eq_refl). lra.
  Qed.
  Lemma side_in (d : vset) k b : side d k = Some b -> In (k, b) d.
  Proof. induction d as [|[k' c] d IH]; cbn; [discriminate|]. destruct (Z.eqb_spec k' k) as [->|N]; [intros E; injection E as ->; now left|right; auto]. Qed.
  Lemma side_none (d : vset) k b : side d k = None -> ~ In (k, b) d.
  Proof. induction d as [|[k' c] d IH]; cbn; [intros _ []|]. destruct (Z.eqb_spec k' k) as [->|N]; [discriminate|]. intros H [E|I]; [congruence|]. now apply IH. Qed.
  Lemma plane_of z : In z l -> exists p, dget (Z.abs z) planes = Some p /\ In (Z.abs z, p) pp.
  Proof. intros Z1. destruct (dget (Z.abs z) planes) as [p|] eqn:E; [|now elim (DG z Z1)]. exists p. split; auto. apply pp_in. split; auto. Qed.
  (** the value of a literal: unknown near the plane, else the side *)
  Lemma lit_k z p x : In z l -> dget (Z.abs z) planes = Some p ->
    match kleene (vs x) (Lit z) with
    | None => Rabs (pl_dist p x) < tol
    | Some true => tol <= sgn z (pl_dist p x)
    | Some false => sgn z (pl_dist p x) <= - tol
    end.
  Proof.
    intros I D. cbn [kleene]. assert (IP : In (Z.abs z, p) pp) by (apply pp_in; auto). destruct (side (vs x) (Z.abs z)) as [b|] eqn:S.
    - apply side_in, vs_in in S. destruct S as (q & Q & T & B). apply pp_in in Q. destruct Q as (_ & Q). rewrite D in Q. injection Q as <-.
      unfold sgn. unfold Rabs in T. destruct (Rcase_abs (pl_dist p x)) as [RC|RC], b, (z <? 0)%Z; cbn [negb]; try lra;
        try (assert (0 < pl_dist p x) by now apply B); try lra; exfalso; assert (0 < pl_dist p x) by lra; apply B in H; discriminate.
    - destruct (Rlt_or_le (Rabs (pl_dist p x)) tol) as [L|L]; auto. exfalso. destruct (Rlt_or_le 0 (pl_dist p x)) as [K|K].
      + apply (side_none _ _ true S). apply vs_in. exists p. split; auto. split; auto. tauto.
      + apply (side_none _ _ false S). apply vs_in. exists p. split; auto. split; auto. split; [discriminate|lra].
  Qed.
  Lemma closed_sgn z p x : dget (Z.abs z) planes = Some p -> (closed_side planes z x <-> 0 <= sgn z (pl_dist p x)).
  Proof. intros E. unfold closed_side, sgn. rewrite E. destruct (z <? 0)%Z; lra. Qed.
  Lemma sgn_opp z d : z <> 0%Z -> sgn (- z) d = - sgn z d.
  Proof. intros H. unfold sgn. destruct (Z.ltb_spec z 0), (Z.ltb_spec (- z) 0); try lia; lra. Qed.
  Lemma nonz z : In z l -> z <> 0%Z.
  Proof. intros H ->. auto. Qed.
  Lemma closed_k z x : In z l -> closed_side planes z x -> kleene (vs x) (Lit z) <> Some false.
  Proof. intros I C E. destruct (plane_of z I) as (p & D & _). pose proof (lit_k z p x I D) as K. rewrite E in K. apply (closed_sgn z p x D) in C. lra. Qed.
  Lemma closed_k' z x : In z l -> closed_side planes (- z) x -> kleene (vs x) (Lit z) <> Some true.
  Proof. intros I C E. destruct (plane_of z I) as (p & D & _). pose proof (lit_k z p x I D) as K. rewrite E in K. rewrite <- (Z.abs_opp z) in D. apply (closed_sgn (- z) p x D) in C. rewrite sgn_opp in C by now apply nonz. lra. Qed.
  (** two-valued *)
  Lemma lit_true z p x : In z l -> dget (Z.abs z) planes = Some p ->
    (lit_val (plane_sides planes x) z = true -> 0 <= sgn z (pl_dist p x)) /\ (0 < sgn z (pl_dist p x) -> lit_val (plane_sides planes x) z = true) /\
    (lit_val (plane_sides planes x) z = false -> sgn z (pl_dist p x) <= 0) /\ (sgn z (pl_dist p x) < 0 -> lit_val (plane_sides planes x) z = false).
  Proof.
    intros I D. apply nonz in I. unfold lit_val, plane_sides, sgn, pl_pos_side. destruct (Z.ltb_spec z 0); [replace (- z)%Z with (Z.abs z) by lia|rewrite (Z.abs_eq z) in D by lia]; rewrite D;
      (destruct (rltb 0 (pl_dist p x)) eqn:E; [apply rltb_true in E|apply rltb_false in E]); cbn [negb]; repeat split; intros; try discriminate; try lra; auto.
  Qed.
  Lemma true_closed z x : In z l -> lit_val (plane_sides planes x) z = true -> closed_side planes z x.
  Proof. intros I E. destruct (plane_of z I) as (p & D & _). apply (closed_sgn z p x D). now apply (lit_true z p x I D). Qed.
  Lemma false_closed z x : In z l -> lit_val (plane_sides planes x) z = false -> closed_side planes (- z) x.
  Proof. intros I E. destruct (plane_of z I) as (p & D & _). assert (D' := D). rewrite <- (Z.abs_opp z) in D. apply (closed_sgn (- z) p x D). rewrite sgn_opp by now apply nonz. apply (lit_true z p x I D') in E. lra. Qed.

  (** ** the value of the part *)
  Lemma k_cons d o lev z m : kleene d (Seq o lev (map Lit (z :: m))) = kop o (kleene d (Lit z)) (kleene d (Seq o lev (map Lit m))).
  Proof. reflexivity. Qed.
  Lemma k_and_false d m lev : kleene d (Seq AND lev (map Lit m)) <> Some false <-> forall z, In z m -> kleene d (Lit z) <> Some false.
  Proof.
    induction m as [|z m IH].
    - split; [intros _ z []|intros _; discriminate].
    - rewrite k_cons. generalize dependent (kleene d (Seq AND lev (map Lit m))). intros k IH. split.
      + intros H z' [<-|I]; [intros E; apply H; rewrite E; reflexivity|]. apply IH; auto. intros E. apply H. rewrite E. destruct (kleene d (Lit z)) as [[]|]; reflexivity.
      + intros H. assert (A := H z (or_introl eq_refl)). assert (B : k <> Some false) by (apply IH; intros z' I; apply H; now right).
        generalize dependent (kleene d (Lit z)). intros [[]|] A; destruct k as [[]|]; cbn [kop]; congruence.
  Qed.
  Lemma k_or_true d m lev : kleene d (Seq OR lev (map Lit m)) <> Some true <-> forall z, In z m -> kleene d (Lit z) <> Some true.
  Proof.
    induction m as [|z m IH].
    - split; [intros _ z []|intros _; discriminate].
    - rewrite k_cons. generalize dependent (kleene d (Seq OR lev (map Lit m))). intros k IH. split.
      + intros H z' [<-|I]; [intros E; apply H; rewrite E; reflexivity|]. apply IH; auto. intros E. apply H. rewrite E. destruct (kleene d (Lit z)) as [[]|]; reflexivity.
      + intros H. assert (A := H z (or_introl eq_refl)). assert (B : k <> Some true) by (apply IH; intros z' I; apply H; now right).
        generalize dependent (kleene d (Lit z)). intros [[]|] A; destruct k as [[]|]; cbn [kop]; congruence.
  Qed.
  Lemma k_or_false d m lev : kleene d (Seq OR lev (map Lit m)) = Some false <-> forall z, In z m -> kleene d (Lit z) = Some false.
  Proof.
    induction m as [|z m IH].
    - split; [intros _ z []|reflexivity].
    - rewrite k_cons. generalize dependent (kleene d (Seq OR lev (map Lit m))). intros k IH. split.
      + intros H. assert (A : kleene d (Lit z) = Some false) by (generalize dependent (kleene d (Lit z)); intros [[]|] H; destruct k as [[]|]; cbn [kop] in H; congruence).
        rewrite A in H. intros z' [<-|I]; auto. apply IH; auto. destruct k as [[]|]; cbn [kop] in H; congruence.
      + intros H. rewrite (H z (or_introl eq_refl)). assert (B : k = Some false) by (apply IH; intros z' I; apply H; now right). rewrite B. reflexivity.
  Qed.
  Lemma inside_total x bin : exists b, is_inside Rops tol pp n x bin = Ok b /\
    (b = true <-> kleene (vs x) n <> Some (negb bin)).
  Proof.
    assert (W : wf n). { cbn. split; [lia|]. split; [intros _; apply Forall_forall; intros y Y; apply in_map_iff in Y; destruct Y as (z & <- & _); exact Logic.I|]. clear -NZ. induction l as [|z m IH]; cbn; auto. split; [intros ->; apply NZ; now left|]. apply IH. intros I. apply NZ. now right. }
    assert (C : no_const n). { unfold n. apply no_const_seq. apply Forall_forall. intros y Y. apply in_map_iff in Y. destruct Y as (z & <- & _). exact Logic.I. }
    destruct (reval_total (vs x) (Datatypes.S (height n)) n) as (r & n' & E); auto; [exact Logic.I|].
    pose proof (reval_kleene _ _ _ _ _ E) as K. unfold is_inside, revaluate. fold (vs x). rewrite E. cbn [bind]. eexists. split; [reflexivity|]. rewrite <- K. destruct bin, r as [[]|]; cbn; split; intros; congruence.
  Qed.
  Lemma inside_true x bin : kleene (vs x) n <> Some (negb bin) -> is_inside Rops tol pp n x bin = Ok true.
  Proof. intros H. destruct (inside_total x bin) as (b & E & B). rewrite E. f_equal. now apply B. Qed.
  Lemma inside_iff x bin : is_inside Rops tol pp n x bin = Ok true -> kleene (vs x) n <> Some (negb bin).
  Proof. intros H. destruct (inside_total x bin) as (b & E & B). rewrite E in H. injection H as ->. now apply B. Qed.
  Lemma inside_false x bin : is_inside Rops tol pp n x bin = Ok false -> kleene (vs x) n = Some (negb bin).
  Proof. intros H. destruct (inside_total x bin) as (b & E & B). rewrite E in H. injection H as ->. destruct (kleene (vs x) n) as [c|]; [destruct (Bool.bool_dec c (negb bin)) as [->|N]; auto|]; exfalso; assert (X : false = true) by (apply B; congruence); discriminate. Qed.

  (** ** orientation *)
  Lemma count_spec L c : count_in Rops tol pp n L = Ok c ->
    (c <= List.length L)%nat /\ (c = List.length L -> forall x, In x L -> kleene (vs x) n <> Some false) /\ (c = 0%nat -> forall x, In x L -> kleene (vs x) n = Some false).
  Proof.
    revert c. induction L as [|x L IH]; intros c H; cbn [count_in] in H; [injection H as <-; repeat split; [auto|intros _ x []|intros _ x []]|].
    destruct (is_inside Rops tol pp n x true) as [b| |] eqn:E; try discriminate. cbn [bind] in H. destruct (count_in Rops tol pp n L) as [m| |]; try discriminate. cbn [bind] in H. injection H as <-.
    destruct (IH m eq_refl) as (A & B & C). cbn [List.length]. destruct b.
    - apply inside_iff in E. split; [lia|]. split; [|discriminate]. intros EQ y [<-|Y]; [exact E|]. apply B; [lia|auto].
    - apply inside_false in E. split; [lia|]. split; [lia|]. intros -> y [<-|Y]; [exact E|]. now apply C.
  Qed.

  (** ** limits *)
  Variables O U : bbox.
  Hypothesis SO : solid_box O.
  Definition six_dirs := [ex; vopp ex; ey; vopp ey; ez; vopp ez].
  Lemma box_dirs b x : (forall e, In e six_dirs -> exists v, in_box b v /\ dot e v <= dot e x) -> in_box b x.
  Proof.
    intros H. unfold in_box.
    destruct (H ex) as (v1 & V1 & L1); [cbn; tauto|]. destruct (H (vopp ex)) as (v2 & V2 & L2); [cbn; tauto|].
    destruct (H ey) as (v3 & V3 & L3); [cbn; tauto|]. destruct (H (vopp ey)) as (v4 & V4 & L4); [cbn; tauto|].
    destruct (H ez) as (v5 & V5 & L5); [cbn; tauto|]. destruct (H (vopp ez)) as (v6 & V6 & L6); [cbn; tauto|].
    unfold in_box, dot, vopp, ex, ey, ez in *; cbn in *. lra.
  Qed.
  Definition reaches (L : list vec) (bin : bool) (T : vec -> Prop) : Prop :=
    forall x e, in_box O x -> T x -> In e six_dirs -> exists v, In v L /\ is_inside Rops tol pp n v bin = Ok true /\ dot e v <= dot e x.
  Lemma limits_bounds L bin T r : sep L -> reaches L bin T -> thick O T -> limits Rops tol pp n bin L = Ok r ->
    match r with
    | Some b => (forall x, in_box O x -> T x -> in_box b x) /\ ((exists x, in_box O x /\ T x) -> / 10 ^ 12 < xmax b - xmin b /\ / 10 ^ 12 < ymax b - ymin b /\ / 10 ^ 12 < zmax b - zmin b)
    | None => (List.length L < 6)%nat \/ forall x, in_box O x -> ~ T x
    end.
  Proof.
    intros S RE TH H. apply limits_spec in H; auto. destruct r as [b|].
    - destruct H as (A & _). assert (B : forall x, in_box O x -> T x -> in_box b x). { intros x X TX. apply box_dirs. intros e E. destruct (RE x e X TX E) as (v & V1 & V2 & V3). exists v. split; auto. }
      split; auto. intros (x & X & TX). destruct TH as [TH|TH]; [now elim (TH x X)|].
      destruct (TH vx) as (p1 & q1' & P1 & Q1 & T1 & T1' & D1); [cbn; tauto|]. destruct (TH vy) as (p2 & q2 & P2 & Q2 & T2 & T2' & D2); [cbn; tauto|]. destruct (TH vz) as (p3 & q3 & P3 & Q3 & T3 & T3' & D3); [cbn; tauto|].
      pose proof (B _ P1 T1) as B1. pose proof (B _ Q1 T1') as B1'. pose proof (B _ P2 T2) as B2. pose proof (B _ Q2 T2') as B2'. pose proof (B _ P3 T3) as B3. pose proof (B _ Q3 T3') as B3'. unfold in_box in *. lra.
    - destruct H as [H|[H|(a & H)]]; auto.
      + right. intros x X TX. destruct (RE x ex X TX) as (v & V1 & V2 & _); [cbn; tauto|]. now apply (H v).
      + right. intros x X TX. destruct TH as [TH|TH]; [now elim (TH x X)|].
        assert (K : forall f e e', In e six_dirs -> In e' six_dirs -> In f [vx; vy; vz] -> (forall y, dot e y = f y) -> (forall y, dot e' y = - f y) -> exists v w, In v L /\ is_inside Rops tol pp n v bin = Ok true /\ In w L /\ is_inside Rops tol pp n w bin = Ok true /\ / 10 ^ 12 < f w - f v).
        { intros f e e' E E' F E1 E2. destruct (TH f F) as (p & q & P & Q & T1 & T2 & D). destruct (RE p e P T1 E) as (v & V1 & V2 & V3). destruct (RE q e' Q T2 E') as (w & W1 & W2 & W3). exists v, w. rewrite !E1 in V3. rewrite !E2 in W3. repeat split; auto. lra. }
        destruct a.
        * destruct (K vx ex (vopp ex)) as (v & w & A1 & A2 & A3 & A4 & A5); [cbn; tauto|cbn; tauto|cbn; tauto|intros; unfold dot, ex; cbn; ring|intros; unfold dot, vopp, ex; cbn; ring|]. specialize (H v w A1 A2 A3 A4). cbn in H. lra.
        * destruct (K vy ey (vopp ey)) as (v & w & A1 & A2 & A3 & A4 & A5); [cbn; tauto|cbn; tauto|cbn; tauto|intros; unfold dot, ey; cbn; ring|intros; unfold dot, vopp, ey; cbn; ring|]. specialize (H v w A1 A2 A3 A4). cbn in H. lra.
        * destruct (K vz ez (vopp ez)) as (v & w & A1 & A2 & A3 & A4 & A5); [cbn; tauto|cbn; tauto|cbn; tauto|intros; unfold dot, ez; cbn; ring|intros; unfold dot, vopp, ez; cbn; ring|]. specialize (H v w A1 A2 A3 A4). cbn in H. lra.
  Qed.
  Lemma mk_box_keeps b s : / 10 ^ 12 < xmax b - xmin b /\ / 10 ^ 12 < ymax b - ymin b /\ / 10 ^ 12 < zmax b - zmin b -> mk_box (Some b) s = MB (Some b) s.
  Proof.
    intros (A & B & C). unfold mk_box, tiny. rewrite (proj2 (rleb_false (xmax b - xmin b) (/ 10 ^ 12)) A), (proj2 (rleb_false (ymax b - ymin b) (/ 10 ^ 12)) B), (proj2 (rleb_false (zmax b - zmin b) (/ 10 ^ 12)) C). reflexivity.
  Qed.

  (** ** the planes of the part *)
  Variable ps : list pl.
  Hypothesis PS : forall p, In p ps <-> exists z, In z l /\ dget (Z.abs z) planes = Some p.
  Definition orient_pl (z : Z) : list pl := match dget (Z.abs z) planes with Some p => [if (z <? 0)%Z then flip p else p] | None => [] end.
  Lemma orient_sat z p x c : dget (Z.abs z) planes = Some p -> In c (orient_pl z) -> (sat c x <-> closed_side planes z x).
  Proof. intros D I. unfold orient_pl in I. rewrite D in I. destruct I as [<-|[]]. rewrite (closed_sgn z p x D). unfold sat, sgn. destruct (z <? 0)%Z; [rewrite flip_dist; lra|lra]. Qed.
  (** from a point of the closed convex set of [m] down to a vertex of it *)
  Lemma descend (m : list Z) x e : (forall z, In z m -> exists z', In z' l /\ Z.abs z = Z.abs z') -> in_box O x -> (forall z, In z m -> closed_side planes z x) -> e <> vzero ->
    exists v p q r, in_box O v /\ (forall z, In z m -> closed_side planes z v) /\ dot e v <= dot e x /\
      In p (ps ++ faces O) /\ In q (ps ++ faces O) /\ In r (ps ++ faces O) /\ indep p q r /\ on p v /\ on q v /\ on r v.
  Proof.
    intros M X C E. set (cs := flat_map orient_pl m ++ inward O).
    assert (SC : forall y, (forall c, In c cs -> sat c y) <-> in_box O y /\ forall z, In z m -> closed_side planes z y).
    { intros y. split.
      - intros H. split; [apply inward_sat; intros c I; apply H; apply in_or_app; now right|]. intros z Z1. destruct (M z Z1) as (z' & L & EQ). destruct (plane_of z' L) as (p & D & _). rewrite <- EQ in D.
        assert (I : In (if (z <? 0)%Z then flip p else p) (orient_pl z)) by (unfold orient_pl; rewrite D; now left). apply (orient_sat z p y _ D I). apply H. apply in_or_app. left. apply in_flat_map. exists z. auto.
      - intros (B & H) c I. apply in_app_or in I. destruct I as [I|I]; [|now apply (proj2 (inward_sat O y) B)]. apply in_flat_map in I. destruct I as (z & Z1 & I). destruct (M z Z1) as (z' & L & EQ). destruct (plane_of z' L) as (p & D & _). rewrite <- EQ in D. apply (orient_sat z p y c D I). auto. }
    assert (SP : forall c, In c cs -> exists p, In p (ps ++ faces O) /\ same_pl c p).
    { intros c I. apply in_app_or in I. destruct I as [I|I].
      - apply in_flat_map in I. destruct I as (z & Z1 & I). destruct (M z Z1) as (z' & L & EQ). destruct (plane_of z' L) as (p & D & _). exists p. split; [apply in_or_app; left; apply PS; exists z'; auto|]. rewrite <- EQ in D. unfold orient_pl in I. rewrite D in I. destruct I as [<-|[]]. destruct (z <? 0)%Z; [right|left]; reflexivity.
      - destruct (inward_face O c I) as (f & F & SF). exists f. split; auto. apply in_or_app. now right. }
    destruct (purify O cs x e) as (v & c1 & c2 & c3 & V & LE & I1 & I2 & I3 & D & A1 & A2 & A3); [intros c I; apply in_or_app; now right|apply SC; auto|exact E|].
    destruct (SP c1 I1) as (p & P & SP1). destruct (SP c2 I2) as (q & Q & SP2). destruct (SP c3 I3) as (r & R3 & SP3).
    exists v, p, q, r. apply SC in V. destruct V as (V1 & V2). repeat split; auto; try (apply V1); [eapply same_indep; [| | |exact D]; auto|eapply same_on; eauto|eapply same_on; eauto|eapply same_on; eauto].
  Qed.
  Lemma six_nz e : In e six_dirs -> e <> vzero.
  Proof. unfold six_dirs. intros [<-|[<-|[<-|[<-|[<-|[<-|[]]]]]]] Z; injection Z; unfold ex, ey, ez; cbn; lra. Qed.

  Hypothesis SPR : spread O ps.
  Hypothesis EF : edge_free O ps.
  Hypothesis CL : clear U tol ps.
  Hypothesis SU : solid_box U.
  Hypothesis OU : box_in O U.

  Lemma no_edges p q : In p ps -> In q ps -> no_edge O p q.
  Proof. intros P Q f g v. intros. eapply (EF p q f g v); eauto. Qed.
  (** all the vertices of the universe on one side: all its points too *)
  Lemma low_vertex p x : in_box U x -> exists v, vertex U v /\ pl_dist p v <= pl_dist p x.
  Proof.
    intros X. unfold in_box in X. set (a := pl_axis p). exists (V (if Rle_dec 0 (vx a) then xmin U else xmax U) (if Rle_dec 0 (vy a) then ymin U else ymax U) (if Rle_dec 0 (vz a) then zmin U else zmax U)). split.
    - unfold vertex; cbn. destruct (Rle_dec 0 (vx a)), (Rle_dec 0 (vy a)), (Rle_dec 0 (vz a)); auto.
    - unfold pl_dist. fold a. unfold dot, vsub; cbn. destruct (Rle_dec 0 (vx a)), (Rle_dec 0 (vy a)), (Rle_dec 0 (vz a)); nra.
  Qed.
  Lemma all_positive z p : In z l -> dget (Z.abs z) planes = Some p -> (forall v, vertex U v -> 0 < sgn z (pl_dist p v)) -> forall x, in_box U x -> 0 < sgn z (pl_dist p x).
  Proof.
    intros I D H x X. unfold sgn in *. destruct (z <? 0)%Z.
    - destruct (low_vertex (flip p) x X) as (v & V1 & V2). rewrite !flip_dist in V2. specialize (H v V1). lra.
    - destruct (low_vertex p x X) as (v & V1 & V2). specialize (H v V1). lra.
  Qed.
  Lemma all_negative z p : In z l -> dget (Z.abs z) planes = Some p -> (forall v, vertex U v -> sgn z (pl_dist p v) < 0) -> forall x, in_box U x -> sgn z (pl_dist p x) < 0.
  Proof.
    intros I D H x X. unfold sgn in *. destruct (z <? 0)%Z.
    - destruct (low_vertex p x X) as (v & V1 & V2). specialize (H v V1). lra.
    - destruct (low_vertex (flip p) x X) as (v & V1 & V2). rewrite !flip_dist in V2. specialize (H v V1). lra.
  Qed.
  Lemma clear_k z p v : In z l -> dget (Z.abs z) planes = Some p -> vertex U v -> kleene (vs v) (Lit z) = Some (rltb 0 (sgn z (pl_dist p v))).
  Proof.
    intros I D V1. assert (C : tol <= Rabs (pl_dist p v)) by (apply CL; auto; apply PS; exists z; auto). pose proof (lit_k z p v I D) as K. destruct (kleene (vs v) (Lit z)) as [[]|].
    - symmetry. f_equal. apply rltb_true. lra.
    - symmetry. f_equal. apply rltb_false. lra.
    - lra.
  Qed.
  Lemma in_OU x : in_box O x -> in_box U x.
  Proof. unfold in_box, box_in in *. lra. Qed.
  Notation reg x := (eval (plane_sides planes x) n).

  Lemma reg_and x : op = AND -> (reg x = true <-> forall z, In z l -> lit_val (plane_sides planes x) z = true).
  Proof. intros E. unfold n. rewrite E. cbn [eval]. rewrite forallb_forall. split; [intros H z Z1; apply (H (Lit z)); apply in_map; auto|intros H y Y; apply in_map_iff in Y; destruct Y as (z & <- & Z1); now apply H]. Qed.
  Lemma reg_or x : op = OR -> (reg x = false <-> forall z, In z l -> lit_val (plane_sides planes x) z = false).
  Proof.
    intros E. unfold n. rewrite E. cbn [eval]. rewrite <- not_true_iff_false, existsb_exists. split.
    - intros H z Z1. apply not_true_iff_false. intros T. apply H. exists (Lit z). split; [now apply in_map|exact T].
    - intros H (y & Y & T). apply in_map_iff in Y. destruct Y as (z & <- & Z1). cbn [eval] in T. rewrite (H z Z1) in T. discriminate.
  Qed.
  (** the full and the empty part *)
  Lemma and_full : op = AND -> (forall v, vertex U v -> kleene (vs v) n <> Some false) -> forall x, in_box O x -> reg x = true.
  Proof.
    intros E H x X. apply reg_and; auto. intros z Z1. destruct (plane_of z Z1) as (p & D & _). apply (lit_true z p x Z1 D). apply (all_positive z p); auto using in_OU.
    intros v V1. specialize (H v V1). unfold n in H. rewrite E in H. pose proof (proj1 (k_and_false _ _ _) H z Z1) as K. rewrite (clear_k z p v Z1 D V1) in K. destruct (rltb 0 _) eqn:RL; [now apply rltb_true|congruence].
  Qed.
  Lemma or_empty : op = OR -> (forall v, vertex U v -> kleene (vs v) n = Some false) -> forall x, in_box O x -> reg x = false.
  Proof.
    intros E H x X. apply reg_or; auto. intros z Z1. destruct (plane_of z Z1) as (p & D & _). apply (lit_true z p x Z1 D). apply (all_negative z p); auto using in_OU.
    intros v V1. specialize (H v V1). unfold n in H. rewrite E in H. pose proof (proj1 (k_or_false _ _ _) H z Z1) as K. pose proof (lit_k z p v Z1 D) as Q. rewrite K in Q. lra.
  Qed.
  (** the convex set of the part: where it is, what it counts as *)
  Lemma op_cases : op = AND \/ op = OR.
  Proof. clear. destruct op; auto. Qed.
  Definition target (x : vec) : Prop := match op with AND => reg x = true | OR => reg x = false end.
  Definition tbin : bool := match op with AND => true | OR => false end.
  Lemma target_convex x : target x -> convex_part planes op l x.
  Proof.
    unfold target, convex_part. destruct op_cases as [E|E]; rewrite E; intros H z Z1.
    - apply true_closed; auto. apply reg_and; auto.
    - apply false_closed; auto. apply reg_or; auto.
  Qed.
  Lemma convex_inside v : convex_part planes op l v -> is_inside Rops tol pp n v tbin = Ok true.
  Proof.
    intros H. apply inside_true. unfold n, tbin, convex_part in *. destruct op_cases as [E|E]; rewrite E in *; cbn [negb].
    - apply k_and_false. intros z Z1. apply closed_k; auto.
    - apply k_or_true. intros z Z1. apply closed_k'; auto. 
  Qed.
  Definition lits_op : list Z := match op with AND => l | OR => map Z.opp l end.
  Lemma lits_op_in x : (forall z, In z lits_op -> closed_side planes z x) <-> convex_part planes op l x.
  Proof.
    unfold lits_op, convex_part. destruct op; [reflexivity|]. split; intros H z Z1; [apply H; now apply in_map|]. apply in_map_iff in Z1. destruct Z1 as (y & <- & Y). now apply H.
  Qed.
  Lemma lits_op_abs z : In z lits_op -> exists z', In z' l /\ Z.abs z = Z.abs z'.
  Proof. unfold lits_op. destruct op; intros H; [exists z; auto|]. apply in_map_iff in H. destruct H as (y & <- & Y). exists y. split; auto. apply Z.abs_opp. Qed.
  Lemma reach_cut : reaches (plane_intersect Rops true O ps) tbin target.
  Proof.
    intros x e X T E. apply target_convex in T. pose proof (proj2 (lits_op_in x) T) as T'. destruct (descend lits_op x e lits_op_abs X T' (six_nz e E)) as (v & p & q & r & V1 & V2 & V3 & P & Q & R3 & D & A1 & A2 & A3).
    exists v. split; [|split; auto; apply convex_inside; exact (proj1 (lits_op_in v) V2)]. apply corner_in_list; auto; [apply no_edges|]. split; auto. exists p, q, r. auto 10.
  Qed.
  Lemma reach_free : (forall x f, in_box O x -> convex_part planes op l x -> In f (faces O) -> ~ on f x) -> reaches (plane_intersect Rops false O ps) tbin target.
  Proof.
    intros NF x e X T E. apply target_convex in T. pose proof (proj2 (lits_op_in x) T) as T'. destruct (descend lits_op x e lits_op_abs X T' (six_nz e E)) as (v & p & q & r & V1 & V2 & V3 & P & Q & R3 & D & A1 & A2 & A3).
    pose proof (proj1 (lits_op_in v) V2) as V2'. assert (K : forall f, In f (ps ++ faces O) -> on f v -> In f ps). { intros f F OF. apply in_app_or in F. destruct F as [F|F]; auto. elim (NF v f V1 V2' F OF). }
    exists v. split; [|split; auto; now apply convex_inside]. unfold plane_intersect. apply (inter_free_in O v ps p q r); auto. split; auto.
  Qed.
  (** a union cut by the box: its region is reached too *)
  Lemma reach_or : op = OR -> reaches (plane_intersect Rops true O ps) true (fun x => reg x = true).
  Proof.
    intros EO x e X T E. assert (Z0 : exists z, In z l /\ lit_val (plane_sides planes x) z = true).
    { unfold n in T. rewrite EO in T. cbn [eval] in T. apply existsb_exists in T. destruct T as (y & Y & T). apply in_map_iff in Y. destruct Y as (z & <- & Z1). exists z. auto. }
    destruct Z0 as (z & Z1 & TZ). apply true_closed in TZ; auto.
    destruct (descend [z] x e) as (v & p & q & r & V1 & V2 & V3 & P & Q & R3 & D & A1 & A2 & A3); [intros y [<-|[]]; exists z; auto|exact X|intros y [<-|[]]; exact TZ|now apply six_nz|].
    exists v. split; [|split; auto].
    - apply corner_in_list; auto; [apply no_edges|]. split; auto. exists p, q, r. auto 10.
    - apply inside_true. cbn [negb]. intros K. unfold n in K. rewrite EO in K. pose proof (proj1 (k_or_false _ _ _) K z Z1) as K1. apply (closed_k z v Z1) in K1; auto. apply V2. now left.
  Qed.
  Lemma long_cut : (6 <= List.length (plane_intersect Rops true O ps))%nat.
  Proof. unfold plane_intersect. rewrite app_length. cbn. lia. Qed.

  Hypothesis WR : within_reach O U planes op l ps.
  Hypothesis T1 : thick O (fun x => reg x = true).
  Hypothesis T2 : thick O (fun x => reg x = false).
  Lemma vertex_points c : count_in Rops tol pp n (box_points Rops U) = Ok c ->
    (c = 8%nat -> forall v, vertex U v -> kleene (vs v) n <> Some false) /\ (c = 0%nat -> forall v, vertex U v -> kleene (vs v) n = Some false).
  Proof. intros H. apply count_spec in H. destruct H as (_ & A & B). split; intros E v V1; apply box_points_vertex in V1; auto. Qed.
  (** a vertex of the universe in the convex set *)
  Lemma vertex_convex_and v : op = AND -> vertex U v -> convex_part planes op l v -> kleene (vs v) n <> Some false.
  Proof. intros E V1 C. apply convex_inside, inside_iff in C. unfold tbin in C. rewrite E in C. exact C. Qed.
  Lemma vertex_convex_or v : op = OR -> vertex U v -> convex_part planes op l v -> kleene (vs v) n = Some false.
  Proof.
    intros E V1 C. unfold n. rewrite E. apply k_or_false. intros z Z1. destruct (plane_of z Z1) as (p & D & _). rewrite (clear_k z p v Z1 D V1). f_equal. apply rltb_false.
    unfold convex_part in C. rewrite E in C. specialize (C z Z1). assert (D' := D). rewrite <- (Z.abs_opp z) in D'. apply (closed_sgn _ p v D') in C. rewrite sgn_opp in C by now apply nonz. lra.
  Qed.
  (** bounds from limits *)
  Lemma bounds_limits s bin T L r : sep L -> reaches L bin T -> thick O T -> limits Rops tol pp n bin L = Ok r ->
    (r = None -> (6 <= List.length L)%nat) -> (forall x, T x <-> match s with Fwd => reg x = true | Rev => reg x = false end) ->
    bounds O (mk_box r s) (fun x => reg x = true).
  Proof.
    intros S RE TH H LN TS. pose proof (limits_bounds L bin T r S RE TH H) as B. intros x X. destruct r as [b|].
    - destruct B as (B1 & B2). destruct (Bool.bool_dec (match s with Fwd => reg x | Rev => negb (reg x) end) true) as [TX|TX].
      + assert (TT : T x). { apply TS. destruct s; auto. now apply negb_true_iff. } rewrite mk_box_keeps by (apply B2; exists x; auto). destruct s; cbn [mb_or mb_box]; intros _; now apply B1.
      + unfold mk_box. destruct (_ || _ || _)%bool; destruct s; cbn [mb_or mb_box]; try congruence.
        * destruct (reg x); auto.
        * intros N. exfalso. apply TX. apply negb_true_iff. now apply not_true_is_false.
    - specialize (LN eq_refl). destruct B as [B|B]; [lia|]. specialize (B x X). rewrite TS in B. destruct s; cbn; auto. now apply not_false_is_true.
  Qed.
  Lemma part_bounds r s : part_box Rops tol pp n O U order = Ok (r, s) ->
    (forall qs, mapM (fun z => match dget z pp with Some p => Ok p | None => Err KeyError end) order = Ok qs -> qs = ps) ->
    bounds O (mk_box r s) (fun x => reg x = true).
  Proof.
    intros H Q. unfold part_box in H. unfold box_orientation in H. destruct (count_in Rops tol pp n (box_points Rops U)) as [c| |] eqn:EC; try discriminate. cbn [bind] in H. apply vertex_points in EC. destruct EC as (C8 & C0).
    destruct (mapM _ order) as [qs| |] eqn:EM in H; try discriminate. apply Q in EM. subst qs. cbn [bind] in H.
    assert (SEP : forall cut, sep (plane_intersect Rops cut O ps)) by (intros cut; apply points_sep; auto).
    assert (FULL : (forall x, in_box O x -> reg x = true) -> forall m, mb_or m = Rev -> bounds O m (fun x => reg x = true)). { intros F m M x X. rewrite M. destruct (mb_box m); [intros N; elim N|]; auto. }
    assert (EMPTY : (forall x, in_box O x -> reg x = false) -> forall m, mb_or m = Fwd -> bounds O m (fun x => reg x = true)). { intros F m M x X. rewrite M, (F x X). destruct (mb_box m); intros; discriminate. }
    assert (MOR : forall b t, mb_or (mk_box b t) = t). { intros b t. unfold mk_box. destruct b as [b|]; [destruct (_ || _ || _)%bool|]; reflexivity. }
    assert (CUT : forall t bin, (do r0 <- limits Rops tol pp n bin (plane_intersect Rops true O ps); Ok (r0, t)) = Ok (r, s) -> limits Rops tol pp n bin (plane_intersect Rops true O ps) = Ok r /\ t = s).
    { intros t bin E. destruct (limits _ _ _ _ bin _) as [r0| |]; try discriminate. cbn [bind] in E. injection E as -> ->. auto. }
    assert (RUN : forall t bin, (do r0 <- limits Rops tol pp n bin (plane_intersect Rops false O ps); match r0 with Some b => Ok (Some b, t) | None => do r1 <- limits Rops tol pp n bin (plane_intersect Rops true O ps); Ok (r1, t) end) = Ok (r, s) ->
        t = s /\ ((exists b, r = Some b /\ limits Rops tol pp n bin (plane_intersect Rops false O ps) = Ok r) \/ limits Rops tol pp n bin (plane_intersect Rops true O ps) = Ok r)).
    { intros t bin E. destruct (limits _ _ _ _ bin (plane_intersect Rops false O ps)) as [[b|]| |]; try discriminate; cbn [bind] in E.
      - injection E as <- <-. split; auto. left. exists b. auto.
      - apply CUT in E. destruct E; auto. }
    assert (NOFREE : (forall p q r0, In p ps -> In q ps -> In r0 ps -> ~ indep p q r0) -> forall bin b, limits Rops tol pp n bin (plane_intersect Rops false O ps) = Ok (Some b) -> False).
    { intros N3 bin b L. apply limits_spec in L; auto. destruct L as (_ & _ & _ & _ & L). destruct (L AX) as (p & _ & I & _). unfold plane_intersect in I. apply inter_free_corner in I. destruct I as (p1 & q1' & r1 & I1 & I2 & I3 & (D & _) & _). now apply (N3 p1 q1' r1). }
    assert (GO : forall g, g <> OUnd -> (match op with AND => g = OFwd | OR => g = ORev end) -> (forall v, vertex U v -> convex_part planes op l v -> False) ->
       (do r0 <- limits Rops tol pp n tbin (plane_intersect Rops false O ps); match r0 with Some b => Ok (Some b, match g with ORev => Rev | _ => Fwd end) | None => do r1 <- limits Rops tol pp n tbin (plane_intersect Rops true O ps); Ok (r1, match g with ORev => Rev | _ => Fwd end) end) = Ok (r, s) -> bounds O (mk_box r s) (fun x => reg x = true)).
    { intros g NU G NV E. apply RUN in E. destruct E as (<- & E).
      assert (TT : thick O target) by (unfold target; destruct op_cases as [E1|E1]; rewrite E1; auto).
      assert (TS : forall x, target x <-> match (match g with ORev => Rev | _ => Fwd end) with Fwd => reg x = true | Rev => reg x = false end) by (intros x; unfold target; destruct op_cases as [E1|E1]; rewrite E1 in *; rewrite G; reflexivity).
      destruct E as [(b & -> & E)|E].
      - destruct WR as [W|[(v & V1 & V2)|W]]; [|elim (NV v V1 V2)|elim (NOFREE W _ _ E)].
        eapply bounds_limits; [apply SEP|apply reach_free; exact W|exact TT|exact E|discriminate|exact TS].
      - eapply bounds_limits; [apply SEP|apply reach_cut|exact TT|exact E|intros _; apply long_cut|exact TS]. }
    destruct op_cases as [EO|EO].
    - (* intersection *)
      destruct (c =? 8)%nat eqn:E8; [apply Nat.eqb_eq in E8|destruct (c =? 0)%nat eqn:E0; [apply Nat.eqb_eq in E0|]].
      + assert (S2 : s = Rev) by (apply RUN in H; now destruct H). subst s. apply FULL; auto. apply and_full; auto.
      + refine (GO OFwd _ _ _ _); [discriminate|now rewrite EO| |unfold tbin; rewrite EO; exact H]. intros v V1 CV. exact (vertex_convex_and v EO V1 CV (C0 E0 v V1)).
      + apply CUT in H. destruct H as (H & <-). pose proof reach_cut as RC. unfold tbin in RC. rewrite EO in RC. eapply bounds_limits; [apply (SEP true)|exact RC|unfold target; rewrite EO; exact T1|exact H|intros _; apply long_cut|]. intros x. unfold target. rewrite EO. reflexivity.
    - (* union *)
      destruct (c =? 8)%nat eqn:E8; [apply Nat.eqb_eq in E8|destruct (c =? 0)%nat eqn:E0; [apply Nat.eqb_eq in E0|]].
      + refine (GO ORev _ _ _ _); [discriminate|now rewrite EO| |unfold tbin; rewrite EO; exact H]. intros v V1 CV. apply (C8 E8 v V1). apply vertex_convex_or; auto.
      + assert (S2 : s = Fwd) by (apply RUN in H; now destruct H). subst s. apply EMPTY; auto. apply or_empty; auto.
      + apply CUT in H. destruct H as (H & <-). eapply bounds_limits; [apply (SEP true)|apply reach_or; auto|exact T1|exact H|intros _; apply long_cut|]. reflexivity.
  Qed.
End Part.

Lemma lits_flat op lev l : lits (Seq op lev (map Lit l)) = l.
Proof. cbn. induction l as [|y l IH]; cbn; [reflexivity|now rewrite IH]. Qed.
Lemma corner_mono O ps qs v : incl ps qs -> corner O ps v -> corner O qs v.
Proof.
  intros I (B & p & q & r & P & Q & R3 & T). split; auto. exists p, q, r.
  assert (K : forall y, In y (ps ++ faces O) -> In y (qs ++ faces O)) by (intros y Y; apply in_app_or in Y; apply in_or_app; destruct Y; auto). auto 10.
Qed.
Lemma part_dget {A} (planes : list (Z * A)) ids z : In z ids -> dget z (part_planes planes ids) = dget z planes.
Proof.
  unfold part_planes. induction ids as [|k ids IH]; cbn [flat_map]; intros I; [destruct I|].
  assert (N : dget z planes = None -> forall m, dget z (flat_map (fun z0 => match dget z0 planes with Some p => [(z0, p)] | None => [] end) m) = None).
  { intros E m. induction m as [|y m IHm]; cbn [flat_map]; auto. destruct (dget y planes) as [p|] eqn:EY; cbn [app dget]; auto. destruct (Z.eqb_spec y z) as [->|]; [congruence|auto]. }
  destruct (Z.eq_dec k z) as [->|NE].
  - destruct (dget z planes) as [p|] eqn:E; cbn [app dget]; [now rewrite Z.eqb_refl|]. now apply N.
  - destruct I as [I|I]; [congruence|]. destruct (dget k planes) as [p|]; cbn [app dget]; auto. destruct (Z.eqb_spec k z); [congruence|auto].
Qed.
Lemma mapM_dget (d : list (Z * pl)) ids qs : mapM (fun z => match dget z d with Some p => Ok p | None => Err KeyError end) ids = Ok qs ->
  forall p, In p qs <-> exists z, In z ids /\ dget z d = Some p.
Proof.
  revert qs. induction ids as [|k ids IH]; intros qs H p; cbn [mapM] in H.
  - injection H as <-. split; [intros []|intros (z & [] & _)].
  - destruct (dget k d) as [q|] eqn:E; [|discriminate]. cbn [bind] in H. destruct (mapM _ ids) as [rs| |] eqn:M; try discriminate. cbn [bind] in H. injection H as <-. specialize (IH rs eq_refl p). cbn [In]. rewrite IH. split.
    + intros [<-|(z & A & B)]; [exists k; auto|exists z; auto].
    + intros (z & [<-|A] & B); [left; congruence|right; exists z; auto].
Qed.
Lemma component_bounds tol O U order planes n m : 0 < tol -> solid_box O -> solid_box U -> box_in O U ->
  (forall z, In z (order n) <-> In z (surfs n)) -> good_part tol O U planes n ->
  component tol O U order planes n = Ok m -> bounds O m (fun x => eval (plane_sides planes x) n = true).
Proof.
  intros TP SO SU OU OR' G H. unfold component in H. destruct (part_box Rops tol (part_planes planes (order n)) n O U (order n)) as [[r s]| |] eqn:E; try discriminate. cbn [bind] in H. injection H as <-.
  assert (MOR : forall b t, mb_or (mk_box b t) = t). { intros b t. unfold mk_box. destruct b as [b|]; [destruct (_ || _ || _)%bool|]; reflexivity. }
  destruct n as [z|o lev b|op lev c]; [destruct G| |].
  - assert (S1 : s = if b then Rev else Fwd).
    { clear -E. unfold part_box, box_orientation in E.
      assert (K : forall L, count_in Rops tol (part_planes planes (order (Cst o lev b))) (Cst o lev b) L = Ok (if b then List.length L else 0%nat)). { induction L as [|x L IH]; cbn [count_in]; [destruct b; reflexivity|]. rewrite IH. cbn. destruct b; reflexivity. }
      rewrite K in E. cbn [bind] in E. destruct (mapM _ _) as [qs| |] in E; try discriminate. cbn [bind] in E. destruct b; cbn [List.length box_points Nat.eqb] in E.
      - destruct (limits Rops _ _ _ _ (plane_intersect Rops false O qs)) as [[?|]| |] in E; try discriminate; cbn [bind] in E; [congruence|]. destruct (limits Rops _ _ _ _ (plane_intersect Rops true O qs)) as [?| |] in E; try discriminate; cbn [bind] in E; congruence.
      - destruct (limits Rops _ _ _ _ (plane_intersect Rops false O qs)) as [[?|]| |] in E; try discriminate; cbn [bind] in E; [congruence|]. destruct (limits Rops _ _ _ _ (plane_intersect Rops true O qs)) as [?| |] in E; try discriminate; cbn [bind] in E; congruence. }
    intros x X. rewrite MOR, S1. cbn [eval]. destruct b; destruct (mb_box _); intros; try congruence; auto.
  - destruct G as (-> & l & -> & NZ & DG & SPR & EF & CL & WR & T1 & T2).
    assert (SU2 : forall k, In k (order (Seq op 0 (map Lit l))) <-> exists z, In z l /\ k = Z.abs z).
    { intros k. rewrite OR'. unfold surfs. rewrite nodup_In, in_map_iff. rewrite lits_flat. split; intros (z & A & B); exists z; auto. }
    set (ord := order (Seq op 0 (map Lit l))) in *.
    destruct (mapM (fun z => match dget z (part_planes planes ord) with Some p => Ok p | None => Err KeyError end) ord) as [ps| |] eqn:EM.
    2, 3: exfalso; unfold part_box in E; destruct (box_orientation _ _ _ _ _) in E; try discriminate; cbn [bind] in E; change (plane Rops) with pl in E; rewrite EM in E; discriminate.
    assert (PS : forall p, In p ps <-> exists z, In z l /\ dget (Z.abs z) planes = Some p).
    { intros p. rewrite (mapM_dget _ _ _ EM). split.
      - intros (k & K & D). rewrite part_dget in D by auto. apply SU2 in K. destruct K as (z & Z1 & ->). exists z. auto.
      - intros (z & Z1 & D). assert (K : In (Z.abs z) ord) by (apply SU2; exists z; auto). exists (Z.abs z). split; auto. rewrite part_dget; auto. }
    assert (PO : forall p, In p ps <-> In p (planes_of planes l)).
    { intros p. rewrite PS. unfold planes_of. rewrite in_flat_map. split; intros (z & Z1 & D); exists z; split; auto; [rewrite D; now left|]. destruct (dget (Z.abs z) planes); [destruct D as [->|[]]; reflexivity|destruct D]. }
    assert (PI : incl ps (planes_of planes l)) by (intros p P; now apply PO).
    eapply (part_bounds tol TP planes op l ord NZ) with (ps := ps) (U := U); eauto.
    + intros z Z1. apply SU2. exists z; auto.
    + intros v w A B. apply SPR; eapply corner_mono; eauto.
    + intros p q f g v P Q. apply EF; now apply PI.
    + intros v p V1 P. apply CL; auto.
    + destruct WR as [W|[W|W]]; [left; exact W|right; left; exact W|right; right; intros p q r0 P Q R3; apply W; now apply PI].
    + intros qs Q. change (plane Rops) with pl in Q. rewrite EM in Q. congruence.
Qed.
