(** C53: the auxiliary planes added next to concave curved faces. *)
From Verif Require Import Prelude Vec3 Geom Prim PrimProofs SurfCards SameProofs AddPlane AddPlaneSpec AddPlaneProofs AddPlaneProofs2 AddPlaneProofs3 AddPlaneProofs4.
From Coq Require Import List Relations Sorted Permutation.
Open Scope R_scope.

(** *** The angular ranges *)

(** Any non-empty family of angular ranges is split into ranges that are in order and at
    least 1e-5 apart; every face is in one, two faces are in the same one exactly when a
    chain of near faces joins them, and the ends of a range are the least and greatest
    ends of its faces, each labelled with a face that has it. *)
Theorem C53_ranges (us : nat -> R * R) (ks : list nat) :
  NoDup ks -> ks <> [] -> (forall k, In k ks -> fst (us k) <= snd (us k)) ->
  exists rs, get_intervals (sort_nodes (flat_map (fun k => [(fst (us k), k); (snd (us k), k)]) ks)) = Ok rs
  /\ StronglySorted (fun r r' => fst (r_max r) + 1 / 100000 <= fst (r_min r')) rs
  /\ (forall k, In k ks -> exists r, In r rs /\ In k (r_idx r))
  /\ (forall r k, In r rs -> In k (r_idx r) -> In k ks
        /\ fst (r_min r) <= fst (us k) /\ snd (us k) <= fst (r_max r)
        /\ (forall k', joined (1 / 100000) us ks k k' <-> In k' (r_idx r)))
  /\ (forall r, In r rs -> (exists k, In k (r_idx r) /\ r_min r = (fst (us k), k)) /\ (exists k, In k (r_idx r) /\ r_max r = (snd (us k), k))).
Proof.
  intros Hnd Hne Hle. destruct (intervals_ranges us ks Hnd Hle Hne) as [rs [E Hrs]].
  exists rs. split; [exact E|]. destruct Hrs as [HF [SS HT]].
  split; [exact SS|]. split; [exact HT|]. rewrite Forall_forall in HF. split.
  - intros r k Hr Hk. destruct (HF r Hr) as (k0 & c & A1 & A2 & A3 & A4 & A5).
    destruct (A5 k Hk) as (B1 & B2 & B3 & B4). rewrite A3, A4. cbn [fst]. split; auto. split; auto. split; auto.
    intros k'. split.
    + intros J. apply in_split in Hr as (l1 & l2 & ->).
      assert (G : forall a b, joined gap us ks a b -> In a (r_idx r) -> In b (r_idx r)).
      { induction 1 as [a b [Ha [Hb [N1 N2]]]|a|a b d _ IH1 _ IH2]; auto. intros Hi.
        destruct (A5 a Hi) as (D1 & D2 & D3 & D4). destruct (HT b Hb) as [r' [Hr' Hi']].
        destruct (HF r' Hr') as (k1 & c1 & E1 & E2 & E3 & E4 & E5). destruct (E5 b Hi') as (G1 & G2 & G3 & G4).
        pose proof (ss_split _ _ _ _ SS) as [S1 S2]. apply in_app_or in Hr' as [Hr'|[<-|Hr']]; auto; exfalso.
        - specialize (S1 r' Hr'). unfold before in S1. rewrite E4, A3 in S1. cbn [fst] in S1. lra.
        - specialize (S2 r' Hr'). unfold before in S2. rewrite A4, E3 in S2. cbn [fst] in S2. lra. }
      eapply G; eauto.
    + intros Hk'. destruct (A5 k' Hk') as (_ & _ & _ & D4). eapply rt_trans; [apply conn_sym; exact B4|exact D4].
  - intros r Hr. destruct (HF r Hr) as (k0 & c & A1 & A2 & A3 & A4 & A5). split; eauto.
Qed.

(** *** Cylinders *)

(** a face on the same cylinder as the one with axis [A] through [C], radius [r] *)
Definition on_cylinder (A C : vec) (r : R) (f : gface) : Prop := exists h, gf_surf f = FCyl A (vadd C (vscale h A)) r.

(** The solid [fs] has the cylindrical face [my]; the faces that the code takes for faces of the same
    cylinder really are on it, are parametrised from the same direction [X], and their
    angular ranges lie in one turn from [w]. *)
Definition cylinder_faces (ma : R) (fs : list gface) (my : nat) (X Y A C : vec) (r w : R) : Prop :=
  frame X Y A /\ 0 < r /\
  exists f, nth_error fs my = Some f /\ gf_surf f = FCyl A C r /\
  forall k f', nth_error fs k = Some f' -> k = my \/ (ma <= gf_area f' /\ same_cyl f f' = true) ->
    gf_u0 f' < gf_u1 f' /\ w <= gf_u0 f' /\ gf_u1 f' <= w + 2 * PI
    /\ exists h, forall u v, gf_value f' u v = cyl_point X Y A C r u (h + v).

(** the faces of that cylinder *)
Definition cylinder_group (ma : R) (fs : list gface) (my : nat) (A C : vec) (r : R) (k : nat) (f : gface) : Prop :=
  nth_error fs k = Some f /\ (k = my \/ (ma <= gf_area f /\ on_cylinder A C r f)).

(** faces of the same cylinder are recognised *)
Lemma on_cylinder_same A C r f f' : dot A A = 1 -> gf_surf f = FCyl A C r -> on_cylinder A C r f' -> same_cyl f f' = true.
Proof.
  intros HA E [h E']. unfold same_cyl. rewrite E, E'. 
  assert (HL : vlen A = 1) by (unfold vlen; rewrite HA; apply sqrt_1).
  assert (E1 : vsub A A = vzero) by (destruct A; unfold vsub, vzero; cbn; apply vec_eq; cbn; ring).
  unfold is_equal. rewrite E1, vlen_zero. destruct (Rle_dec 0 (1 / 100000)); [|lra]. cbn [andb].
  destruct (Req_EM_T r r); [|congruence]. cbn [andb]. unfold is_in_line.
  assert (E2 : vsub (vadd C (vscale h A)) C = vscale h A) by (destruct A, C; unfold vsub, vadd, vscale; cbn; apply vec_eq; cbn; ring).
  rewrite E2, vlen_scale, HL. apply orb_true_iff. destruct (Rlt_dec (Rabs h) (1 / 10 ^ 6)) as [L|L]; [right; apply rltb_true; lra|left].
  unfold parallel_tol, get_angle. rewrite vlen_scale, HL.
  destruct (Rle_lt_dec _ _) as [B|B]; [exfalso; lra|].
  assert (Hh : Rabs h <> 0) by lra.
  assert (D : dot A (vscale h A) = h) by (transitivity (h * dot A A); [destruct A; unfold dot, vscale; cbn; ring|rewrite HA; ring]).
  rewrite D. destruct (Rle_dec 0 h) as [P|P].
  - rewrite (Rabs_right h) in * by lra. replace (h / (1 * (h * 1))) with 1 by (field; auto).
    assert (Cl : clip 1 = 1) by (unfold clip; rewrite Rmin_left, Rmax_right; lra).
    rewrite Cl, acos_1, Rabs_R0. apply orb_true_iff. left. apply rltb_true. lra.
  - rewrite (Rabs_left h) in * by lra. replace (h / (1 * (- h * 1))) with (-1) by (field; lra).
    assert (Cl : clip (-1) = -1) by (unfold clip; rewrite Rmin_right, Rmax_left; lra).
    rewrite Cl. replace (-1) with (- (1)) by ring. rewrite acos_opp, acos_1. apply orb_true_iff. right. apply rltb_true.
    rewrite (Rabs_right (PI - 0)) by (pose proof PI_RGT_0; lra). replace (PI - 0 - PI) with 0 by ring. rewrite Rabs_R0. lra.
Qed.

Definition G_cyl ma fs f my := face_group same_cyl ma fs f my.

Lemma cyl_turn X Y A C r u v : cyl_point X Y A C r (u - 2 * PI) v = cyl_point X Y A C r u v.
Proof. unfold cyl_point. rewrite cos_minus, sin_minus, cos_2PI, sin_2PI. replace (cos u * 1 + sin u * 0) with (cos u) by ring. replace (sin u * 1 - cos u * 0) with (sin u) by ring. reflexivity. Qed.

(** The plane leaves the face, and every face of the cylinder joined to it by a chain of
    near faces, on its positive side, through both ends of that run; every face of the
    cylinder that is not joined to it is strictly on the other side.  No plane is made
    only when the run goes all round or its ends (almost) coincide. *)
Theorem C53_cylinder_partial ma fs my X Y A C r w f :
  nth_error fs my = Some f -> cylinder_faces ma fs my X Y A C r w ->
  let us := u_range fs in
  let G := face_group same_cyl ma fs f my in
  exists o, gen_plane_cylinder ma fs my = Ok o /\
  match o with
  | Some (p, n) =>
      (forall k f', cylinder_group ma fs my A C r k f' ->
        (joined_turn (1/100000) (1/100) us G my k
         /\ (forall u v, gf_u0 f' <= u <= gf_u1 f' -> 0 <= side p n (gf_value f' u v))
         /\ (forall u v, gf_u0 f' < u < gf_u1 f' -> 0 < side p n (gf_value f' u v)))
        \/ (~ joined (1/100000) us G my k
            /\ forall u v, gf_u0 f' <= u <= gf_u1 f' -> side p n (gf_value f' u v) < 0))
      /\ (exists k1 k2 f1 f2, nth_error fs k1 = Some f1 /\ nth_error fs k2 = Some f2
          /\ joined_turn (1/100000) (1/100) us G my k1 /\ joined_turn (1/100000) (1/100) us G my k2
          /\ forall v, side p n (gf_value f1 (gf_u0 f1) v) = 0 /\ side p n (gf_value f2 (gf_u1 f2) v) = 0)
  | None =>
      (forall k f', cylinder_group ma fs my A C r k f' -> joined_turn (1/100000) (1/100) us G my k)
      \/ (exists k1 k2 f1 f2 v1 v2, nth_error fs k1 = Some f1 /\ nth_error fs k2 = Some f2
          /\ let p1 := gf_value f1 (gf_u0 f1) v1 in let p2 := gf_value f2 (gf_u1 f2) v2 in
             vlen (vsub p1 p2) <= 1 / 100000 \/ vlen (cross (vsub p2 p1) A) < 1 / 10 ^ 10)
  end.
Proof.
  intros Hf (HFr & Hr & f0 & Hf0 & Hs & Hall). cbn zeta. rewrite Hf in Hf0. injection Hf0 as <-.
  set (us := u_range fs). set (G := face_group same_cyl ma fs f my).
  assert (HA : dot A A = 1) by apply HFr.
  assert (HG : forall k, In k G -> exists f', nth_error fs k = Some f' /\ (k = my \/ (ma <= gf_area f' /\ same_cyl f f' = true))).
  { intros k Hk. apply group_in in Hk as [->|(f2 & E & H1 & _ & H2)]; [eauto|]. exists f2. auto. }
  assert (Hin : forall k f', cylinder_group ma fs my A C r k f' -> In k G /\ (k = my \/ (ma <= gf_area f' /\ same_cyl f f' = true))).
  { intros k f' [E [->|[H1 H2]]]; [split; [apply group_in; auto|auto]|]. pose proof (on_cylinder_same A C r f f' HA Hs H2) as S.
    split; [|auto]. apply group_in. destruct (Nat.eq_dec k my); [auto|]. right. exists f'. auto. }
  assert (Hus : forall k f', nth_error fs k = Some f' -> us k = (gf_u0 f', gf_u1 f')) by (intros k f' E; unfold us, u_range; rewrite E; auto).
  destruct (boundary_total us G (group_nodup _ _ _ _ _)) with (w := w) (my := my) as [b [Eb Hb]].
  - intros k Hk. destruct (HG k Hk) as (f' & E & H). rewrite (Hus k f' E). cbn. apply (Hall k f' E H).
  - intros k Hk. destruct (HG k Hk) as (f' & E & H). rewrite (Hus k f' E). cbn. destruct (Hall k f' E H) as (_ & H1 & H2 & _). lra.
  - apply group_in. auto.
  - unfold gen_plane_cylinder. rewrite Hf. cbn [look bind]. rewrite Hs. fold us. fold G. rewrite Eb. cbn [bind].
    destruct b as [[n1 n2]|]; cbn [boundary_ok] in Hb.
    2:{ exists None. split; auto. left. intros k f' Hk. apply Hb. apply (Hin k f' Hk). }
    destruct Hb as (I1 & I2 & E1 & E2 & Hsm & Hfaces & Hmyin).
    destruct (HG _ I1) as (f1 & F1 & C1). destruct (HG _ I2) as (f2 & F2 & C2).
    destruct (Hall _ f1 F1 C1) as (L1 & _ & _ & h1 & V1). destruct (Hall _ f2 F2 C2) as (L2 & _ & _ & h2 & V2).
    unfold end_point. rewrite F1, F2. cbn [look bind].
    assert (Ev1 : gf_value f1 (fst n1) (gf_v0 f1) = gf_value f1 (gf_u0 f1) (gf_v0 f1)).
    { rewrite !V1. rewrite (Hus _ f1 F1) in E1. cbn [fst] in E1. destruct E1 as [-> | ->]; auto. apply cyl_turn. }
    assert (Ev2 : gf_value f2 (fst n2) (gf_v0 f2) = gf_value f2 (gf_u1 f2) (gf_v0 f2)).
    { rewrite (Hus _ f2 F2) in E2. cbn [snd] in E2. rewrite E2. auto. }
    unfold is_equal. destruct (Rle_dec _ _) as [Q|Q].
    { exists None. split; auto. right. exists (snd n1), (snd n2), f1, f2, (gf_v0 f1), (gf_v0 f2). cbn zeta. rewrite <- Ev1, <- Ev2. auto. }
    destruct (rltb _ _) eqn:QN.
    { exists None. split; auto. right. apply rltb_true in QN. exists (snd n1), (snd n2), f1, f2, (gf_v0 f1), (gf_v0 f2). cbn zeta. rewrite <- Ev1, <- Ev2. auto. }
    eexists. split; [reflexivity|]. cbn beta iota.
    assert (Hside : forall k f' u v, nth_error fs k = Some f' -> (k = my \/ (ma <= gf_area f' /\ same_cyl f f' = true)) ->
      side (gf_value f1 (fst n1) (gf_v0 f1)) (cross (vsub (gf_value f2 (fst n2) (gf_v0 f2)) (gf_value f1 (fst n1) (gf_v0 f1))) A) (gf_value f' u v)
      = r * r * chord (fst n1) (fst n2) u).
    { intros k f' u v E H. destruct (Hall k f' E H) as (_ & _ & _ & h & V). rewrite V, V1, V2. apply cyl_side. auto. }
    assert (Hrr : 0 < r * r) by nra.
    split.
    + intros k f' Hk. destruct (Hin k f' Hk) as [Ik Ck]. destruct Hk as [Ek _].
      destruct (Hfaces k Ik) as [[J Hi]|[J Ho]].
      * left. split; [exact J|]. split; intros u v Hu; rewrite (Hside k f' u v Ek Ck).
        -- apply Rmult_le_pos; [lra|]. eapply inside_chord; eauto. rewrite (Hus k f' Ek). auto.
        -- apply Rmult_lt_0_compat; [lra|]. eapply inside_chord_strict; eauto. rewrite (Hus k f' Ek). auto.
      * right. split; [exact J|]. intros u v Hu. rewrite (Hside k f' u v Ek Ck).
        assert (chord (fst n1) (fst n2) u < 0) by (eapply outside_chord; eauto; rewrite (Hus k f' Ek); auto). nra.
    + assert (Cz : chord (fst n1) (fst n2) (fst n1) = 0 /\ chord (fst n1) (fst n2) (fst n2) = 0).
      { unfold chord. split; [replace ((fst n1 - fst n1) / 2) with 0 by field|replace ((fst n2 - fst n2) / 2) with 0 by field]; rewrite sin_0; ring. }
      destruct Cz as [Z1 Z2].
      assert (J1 : joined_turn (1/100000) (1/100) us G my (snd n1)).
      { destruct (Hfaces _ I1) as [[J _]|[_ [z [O1 O2]]]]; [exact J|exfalso].
        assert (X0 : chord (fst n1) (fst n2) (fst n1) < 0); [|lra]. 
        rewrite (Hus _ f1 F1) in *. cbn [fst snd] in *.
        destruct E1 as [E1|E1]; rewrite E1.
        - rewrite E1 in *. rewrite (chord_turns _ _ (gf_u0 f1) z). apply chord_out; auto. lra.
        - rewrite E1 in *. rewrite (chord_turns _ _ (gf_u0 f1 - 2 * PI) (z + 1)%Z). rewrite plus_IZR. apply chord_out; auto. lra. }
      assert (J2 : joined_turn (1/100000) (1/100) us G my (snd n2)).
      { destruct (Hfaces _ I2) as [[J _]|[_ [z [O1 O2]]]]; [exact J|exfalso].
        assert (X0 : chord (fst n1) (fst n2) (fst n2) < 0); [|lra].
        rewrite (Hus _ f2 F2) in *. cbn [fst snd] in *. rewrite E2 in *.
        rewrite (chord_turns _ _ (gf_u1 f2) z). apply chord_out; auto. lra. }
      exists (snd n1), (snd n2), f1, f2. split; [exact F1|]. split; [exact F2|]. split; [exact J1|]. split; [exact J2|]. intros v.
      rewrite (Hside _ f1 _ _ F1 C1), (Hside _ f2 _ _ F2 C2).
      rewrite (Hus _ f1 F1) in E1. rewrite (Hus _ f2 F2) in E2. cbn [fst snd] in *. rewrite <- E2, Z2.
      split; [|ring]. destruct E1 as [E1|E1]; [rewrite <- E1, Z1; ring|].
      replace (gf_u0 f1) with (fst n1 + 2 * PI) by lra. rewrite <- chord_turn, Z1. ring.
Qed.

(** *** Cones *)

(** as [cylinder_faces]; the faces keep away from the tip: their parameter is positive
    from its least value on *)
Definition cone_faces (ma : R) (fs : list gface) (my : nat) (X Y A P : vec) (s w : R) : Prop :=
  frame X Y A /\ 0 < s < PI / 2 /\
  exists f, nth_error fs my = Some f /\ gf_surf f = FCone A P s /\
  forall k f', nth_error fs k = Some f' -> k = my \/ (ma <= gf_area f' /\ same_cone f f' = true) ->
    gf_u0 f' < gf_u1 f' /\ w <= gf_u0 f' /\ gf_u1 f' <= w + 2 * PI
    /\ exists t0, 0 < t0 + gf_v0 f' /\ forall u v, gf_value f' u v = cone_point X Y A P s u (t0 + v).
Definition cone_group (ma : R) (fs : list gface) (my : nat) (A P : vec) (s : R) (k : nat) (f : gface) : Prop :=
  nth_error fs k = Some f /\ (k = my \/ (ma <= gf_area f /\ gf_surf f = FCone A P s)).

Lemma on_cone_same A P s f f' : gf_surf f = FCone A P s -> gf_surf f' = FCone A P s -> same_cone f f' = true.
Proof.
  intros E E'. unfold same_cone. rewrite E, E'. unfold is_equal.
  assert (Z : forall a, vsub a a = vzero) by (intros [x y z]; unfold vsub, vzero; cbn; apply vec_eq; cbn; ring).
  rewrite !Z, vlen_zero. destruct (Rle_dec 0 (1 / 100000)); [|lra]. cbn [andb]. apply rltb_true. replace (s - s) with 0 by ring. lra.
Qed.
Lemma cone_turn X Y A P s u t : cone_point X Y A P s (u - 2 * PI) t = cone_point X Y A P s u t.
Proof. unfold cone_point. rewrite cos_minus, sin_minus, cos_2PI, sin_2PI. replace (cos u * 1 + sin u * 0) with (cos u) by ring. replace (sin u * 1 - cos u * 0) with (sin u) by ring. reflexivity. Qed.

Theorem C53_cone_partial ma fs my X Y A P s w f :
  nth_error fs my = Some f -> cone_faces ma fs my X Y A P s w ->
  let us := u_range fs in
  let G := face_group same_cone ma fs f my in
  exists o, gen_plane_cone ma fs my = Ok o /\
  match o with
  | Some (p, n) =>
      side p n P = 0
      /\ (forall k f', cone_group ma fs my A P s k f' ->
        (joined_turn (1/100000) (1/100) us G my k
         /\ (forall u v, gf_u0 f' <= u <= gf_u1 f' -> gf_v0 f' <= v -> side p n (gf_value f' u v) <= 0)
         /\ (forall u v, gf_u0 f' < u < gf_u1 f' -> gf_v0 f' <= v -> side p n (gf_value f' u v) < 0))
        \/ (~ joined (1/100000) us G my k
            /\ forall u v, gf_u0 f' <= u <= gf_u1 f' -> gf_v0 f' <= v -> 0 < side p n (gf_value f' u v)))
      /\ (exists k1 k2 f1 f2, nth_error fs k1 = Some f1 /\ nth_error fs k2 = Some f2
          /\ joined_turn (1/100000) (1/100) us G my k1 /\ joined_turn (1/100000) (1/100) us G my k2
          /\ forall v, side p n (gf_value f1 (gf_u0 f1) v) = 0 /\ side p n (gf_value f2 (gf_u1 f2) v) = 0)
  | None =>
      (forall k f', cone_group ma fs my A P s k f' -> joined_turn (1/100000) (1/100) us G my k)
      \/ (exists k1 k2 f1 f2, nth_error fs k1 = Some f1 /\ nth_error fs k2 = Some f2
          /\ vlen (vsub (gf_value f1 (gf_u0 f1) (gf_v0 f1)) (gf_value f2 (gf_u1 f2) (gf_v0 f2))) <= 1 / 100000)
  end.
Proof.
  intros Hf (HFr & Hsr & f0 & Hf0 & Hs & Hall). cbn zeta. rewrite Hf in Hf0. injection Hf0 as <-.
  set (us := u_range fs). set (G := face_group same_cone ma fs f my).
  assert (HG : forall k, In k G -> exists f', nth_error fs k = Some f' /\ (k = my \/ (ma <= gf_area f' /\ same_cone f f' = true))).
  { intros k Hk. apply group_in in Hk as [->|(f2 & E & H1 & _ & H2)]; [eauto|]. exists f2. auto. }
  assert (Hin : forall k f', cone_group ma fs my A P s k f' -> In k G /\ (k = my \/ (ma <= gf_area f' /\ same_cone f f' = true))).
  { intros k f' [E [->|[H1 H2]]]; [split; [apply group_in; auto|auto]|]. pose proof (on_cone_same A P s f f' Hs H2) as S.
    split; [|auto]. apply group_in. destruct (Nat.eq_dec k my); [auto|]. right. exists f'. auto. }
  assert (Hus : forall k f', nth_error fs k = Some f' -> us k = (gf_u0 f', gf_u1 f')) by (intros k f' E; unfold us, u_range; rewrite E; auto).
  destruct (boundary_total us G (group_nodup _ _ _ _ _)) with (w := w) (my := my) as [b [Eb Hb]].
  - intros k Hk. destruct (HG k Hk) as (f' & E & H). rewrite (Hus k f' E). cbn. apply (Hall k f' E H).
  - intros k Hk. destruct (HG k Hk) as (f' & E & H). rewrite (Hus k f' E). cbn. destruct (Hall k f' E H) as (_ & H1 & H2 & _). lra.
  - apply group_in. auto.
  - unfold gen_plane_cone. rewrite Hf. cbn [look bind]. rewrite Hs. fold us. fold G. rewrite Eb. cbn [bind].
    destruct b as [[n1 n2]|]; cbn [boundary_ok] in Hb.
    2:{ exists None. split; auto. left. intros k f' Hk. apply Hb. apply (Hin k f' Hk). }
    destruct Hb as (I1 & I2 & E1 & E2 & Hsm & Hfaces & Hmyin).
    destruct (HG _ I1) as (f1 & F1 & C1). destruct (HG _ I2) as (f2 & F2 & C2).
    destruct (Hall _ f1 F1 C1) as (L1 & _ & _ & h1 & T1 & V1). destruct (Hall _ f2 F2 C2) as (L2 & _ & _ & h2 & T2 & V2).
    unfold end_point. rewrite F1, F2. cbn [look bind].
    assert (Ev1 : gf_value f1 (fst n1) (gf_v0 f1) = gf_value f1 (gf_u0 f1) (gf_v0 f1)).
    { rewrite !V1. rewrite (Hus _ f1 F1) in E1. cbn [fst] in E1. destruct E1 as [-> | ->]; auto. apply cone_turn. }
    assert (Ev2 : gf_value f2 (fst n2) (gf_v0 f2) = gf_value f2 (gf_u1 f2) (gf_v0 f2)).
    { rewrite (Hus _ f2 F2) in E2. cbn [snd] in E2. rewrite E2. auto. }
    unfold is_equal. destruct (Rle_dec _ _) as [Q|Q].
    { exists None. split; auto. right. exists (snd n1), (snd n2), f1, f2. rewrite <- Ev1, <- Ev2. auto. }
    set (p1 := gf_value f1 (fst n1) (gf_v0 f1)) in *. set (p2 := gf_value f2 (fst n2) (gf_v0 f2)) in *.
    set (c0 := (h1 + gf_v0 f1) * (h2 + gf_v0 f2) * (sin s * sin s * cos s)).
    assert (Hc0 : 0 < c0).
    { assert (0 < sin s) by (apply sin_gt_0; lra). assert (0 < cos s) by (apply cos_gt_0; lra). unfold c0. repeat apply Rmult_lt_0_compat; auto. }
    assert (Hcs : forall u t, side p1 (cross (vsub p2 p1) (vsub P p1)) (cone_point X Y A P s u t) = - (c0 * t * chord (fst n1) (fst n2) u)).
    { intros u t. unfold p1, p2. rewrite V1, V2, cone_side by auto. unfold c0. ring. }
    destruct (Req_EM_T _ 0) as [QN|QN].
    { exfalso. assert (Zn : cross (vsub p2 p1) (vsub P p1) = vzero) by (apply dot_zero; rewrite <- vlen_sq, QN; ring).
      specialize (Hcs ((fst n1 + fst n2) / 2) 1). rewrite Zn in Hcs. unfold side in Hcs.
      assert (D0 : forall x, dot vzero x = 0) by (intros [a b c]; unfold dot, vzero; cbn; ring). rewrite D0 in Hcs.
      assert (0 < chord (fst n1) (fst n2) ((fst n1 + fst n2) / 2)) by (apply chord_in_strict; auto; lra).
      assert (0 < c0 * 1 * chord (fst n1) (fst n2) ((fst n1 + fst n2) / 2)) by (apply Rmult_lt_0_compat; [lra|assumption]). lra. }
    eexists. split; [reflexivity|]. cbn beta iota.
    assert (Hside : forall k f', nth_error fs k = Some f' -> (k = my \/ (ma <= gf_area f' /\ same_cone f f' = true)) ->
      exists t0, 0 < t0 + gf_v0 f' /\ forall u v, side p1 (cross (vsub p2 p1) (vsub P p1)) (gf_value f' u v) = - (c0 * (t0 + v) * chord (fst n1) (fst n2) u)).
    { intros k f' E H. destruct (Hall k f' E H) as (_ & _ & _ & t0 & T & V). exists t0. split; auto. intros u v. rewrite V. apply Hcs. }
    split; [|split].
    + unfold side.
      assert (EP : P = cone_point X Y A P s 0 0) by (unfold cone_point; destruct P, X, Y, A; unfold vadd, vscale; cbn; apply vec_eq; cbn; ring).
      pose proof (Hcs 0 0) as Z. rewrite <- EP in Z. unfold side in Z. rewrite Z. ring.
    + intros k f' Hk. destruct (Hin k f' Hk) as [Ik Ck]. destruct Hk as [Ek _].
      destruct (Hside k f' Ek Ck) as (t0 & T0 & HS).
      destruct (Hfaces k Ik) as [[J Hi]|[J Ho]].
      * left. split; [exact J|]. split; intros u v Hu Hv; rewrite HS.
        -- assert (0 <= chord (fst n1) (fst n2) u) by (eapply inside_chord; eauto; rewrite (Hus k f' Ek); auto).
           assert (0 <= c0 * (t0 + v) * chord (fst n1) (fst n2) u) by (apply Rmult_le_pos; [apply Rmult_le_pos; lra|assumption]). lra.
        -- assert (0 < chord (fst n1) (fst n2) u) by (eapply inside_chord_strict; eauto; rewrite (Hus k f' Ek); auto).
           assert (0 < c0 * (t0 + v) * chord (fst n1) (fst n2) u) by (apply Rmult_lt_0_compat; [apply Rmult_lt_0_compat; lra|assumption]). lra.
      * right. split; [exact J|]. intros u v Hu Hv. rewrite HS.
        assert (chord (fst n1) (fst n2) u < 0) by (eapply outside_chord; eauto; rewrite (Hus k f' Ek); auto).
        assert (0 < c0 * (t0 + v)) by (apply Rmult_lt_0_compat; lra). nra.
    + assert (Cz : chord (fst n1) (fst n2) (fst n1) = 0 /\ chord (fst n1) (fst n2) (fst n2) = 0).
      { unfold chord. split; [replace ((fst n1 - fst n1) / 2) with 0 by field|replace ((fst n2 - fst n2) / 2) with 0 by field]; rewrite sin_0; ring. }
      destruct Cz as [Z1 Z2].
      assert (J1 : joined_turn (1/100000) (1/100) us G my (snd n1)).
      { destruct (Hfaces _ I1) as [[J _]|[_ [z [O1 O2]]]]; [exact J|exfalso].
        assert (X0 : chord (fst n1) (fst n2) (fst n1) < 0); [|lra].
        rewrite (Hus _ f1 F1) in *. cbn [fst snd] in *.
        destruct E1 as [E1|E1]; rewrite E1.
        - rewrite E1 in *. rewrite (chord_turns _ _ (gf_u0 f1) z). apply chord_out; auto. lra.
        - rewrite E1 in *. rewrite (chord_turns _ _ (gf_u0 f1 - 2 * PI) (z + 1)%Z). rewrite plus_IZR. apply chord_out; auto. lra. }
      assert (J2 : joined_turn (1/100000) (1/100) us G my (snd n2)).
      { destruct (Hfaces _ I2) as [[J _]|[_ [z [O1 O2]]]]; [exact J|exfalso].
        assert (X0 : chord (fst n1) (fst n2) (fst n2) < 0); [|lra].
        rewrite (Hus _ f2 F2) in *. cbn [fst snd] in *. rewrite E2 in *.
        rewrite (chord_turns _ _ (gf_u1 f2) z). apply chord_out; auto. lra. }
      destruct (Hside _ f1 F1 C1) as (t1 & _ & S1). destruct (Hside _ f2 F2 C2) as (t2 & _ & S2).
      exists (snd n1), (snd n2), f1, f2. split; [exact F1|]. split; [exact F2|]. split; [exact J1|]. split; [exact J2|]. intros v.
      rewrite S1, S2.
      rewrite (Hus _ f1 F1) in E1. rewrite (Hus _ f2 F2) in E2. cbn [fst snd] in *. rewrite <- E2, Z2.
      split; [|ring]. destruct E1 as [E1|E1]; [rewrite <- E1, Z1; ring|].
      replace (gf_u0 f1) with (fst n1 + 2 * PI) by lra. rewrite <- chord_turn, Z1. ring.
Qed.

(** *** Spheres *)

(** The plane leaves strictly on its positive side every face of the group (the face
    itself and those found to touch it), whatever the shape of the faces. *)
Theorem C53_sphere (dist : nat -> nat -> R) (pdist : vec -> vec -> nat -> R) (fs : list sface) (my : nat)
    (pts : nat -> vec -> Prop) f p n :
  (forall j g, nth_error fs j = Some g -> piece_of_surface (pts j) (sf_com g) /\ 0 < sf_area g) ->
  (forall i j, dist i j < 1 / 10 ^ 6 -> exists x y, pts i x /\ pts j y /\ vlen (vsub x y) < 1 / 10 ^ 6) ->
  (forall c n j x, pts j x -> vlen n = 1 -> pdist c n j <= Rabs (side c n x)) ->
  nth_error fs my = Some f ->
  gen_plane_sphere dist pdist fs my = Ok (Some (p, n)) ->
  vlen n = 1 /\ (forall x, pts my x -> 0 < side p n x)
  /\ forall j x, In j (sphere_group dist fs f my 0 fs [my]) -> pts j x -> 0 < side p n x.
Proof.
  intros H1 H2 H3 Hf H.
  destruct (sphere_plane_ok dist pdist fs my pts) with (f := f) (p := p) (n := n) as [U K]; auto.
  - intros j g Hg. apply (H1 j g Hg).
  - intros j g Hg. apply (H1 j g Hg).
  - split; auto. split; auto. intros x Hx. apply (K my x); auto.
    apply (group_chain dist fs f my fs 0%nat [my]); [|left; auto|left; auto].
    intros l1 i l2 E Hne. destruct l1 as [|a [|b l1]]; [congruence| |]; discriminate.
Qed.

(** *** Chains of touching faces in the decomposition *)

(** Every face that is returned is joined to the first by a chain of touching faces *)
Theorem C53_same_faces (touch : nat -> nat -> bool) (n : nat) l :
  same_faces touch n = Ok l -> forall x, In x l -> (0 < x < n)%nat
  /\ clos_refl_trans nat (fun i j => (i < n)%nat /\ (j < n)%nat /\ (touch i j = true \/ touch j i = true)) 0%nat x.
Proof. apply same_faces_sound. Qed.

(** ... but a face joined to the first by such a chain may be missing *)
Theorem C53_same_faces_refuted : exists touch n x, (0 < x < n)%nat
  /\ (forall i j, touch i j = touch j i)
  /\ clos_refl_trans nat (fun i j => (i < n)%nat /\ (j < n)%nat /\ (touch i j = true \/ touch j i = true)) 0%nat x
  /\ exists l, same_faces touch n = Ok l /\ ~ In x l.
Proof.
  set (tt := fun i j : nat => match i, j with 0, 3 | 3, 0 | 1, 2 | 2, 1 | 1, 3 | 3, 1 => true | _, _ => false end%nat).
  exists tt, 4%nat, 2%nat. split; [lia|]. split.
  { intros [|[|[|[|i]]]] [|[|[|[|j]]]]; reflexivity. }
  split.
  - apply rt_trans with 3%nat; [apply rt_step; repeat split; auto; lia|].
    apply rt_trans with 1%nat; apply rt_step; repeat split; auto; lia.
  - exists [3; 1]%nat. split; [reflexivity|]. intros [H|[H|[]]]; discriminate.
Qed.

(** *** Examples and counterexamples *)

Definition cf (u0 u1 : R) : gface := GFace (FCyl EZ vzero 1) 1 u0 u1 0 (cyl_point EX EY EZ vzero 1).
Lemma frame_xyz : frame EX EY EZ.
Proof. unfold frame, EX, EY, EZ, dot, cross. cbn. repeat split; try ring. apply vec_eq; cbn; ring. Qed.

Example C53_cylinder_example : cylinder_faces 0 [cf 0 (PI/2); cf (PI/2) PI; cf (5/4*PI) (3/2*PI)] 0 EX EY EZ vzero 1 0.
Proof.
  pose proof PI_RGT_0. split; [apply frame_xyz|]. split; [lra|]. exists (cf 0 (PI/2)). split; auto. split; auto.
  intros [|[|[|k]]] f' E _; cbn in E; try (injection E as <-; cbn; repeat split; try lra; exists 0; intros u v; f_equal; lra).
  destruct k; discriminate.
Qed.

Lemma gap_def : gap = 1 / 100000. Proof. reflexivity. Qed.
Ltac rl := pose proof gap_def; repeat match goal with
  | |- context [rltb ?a ?b] => let H := fresh in
      first [assert (H : rltb a b = true) by (apply rltb_true; lra) | assert (H : rltb a b = false) by (apply rltb_false; lra)]; rewrite H; clear H
  end.

Lemma node_leb_t a b i j : a < b -> node_leb (a, i) (b, j) = true.
Proof. intros H. apply node_leb_spec. left. auto. Qed.
Lemma node_leb_f a b i j : b < a -> node_leb (a, i) (b, j) = false.
Proof. intros H. destruct (node_leb (a, i) (b, j)) eqn:E; auto. apply node_leb_spec in E as [E|[E _]]; cbn in E; lra. Qed.
Lemma node_leb_e a i j : node_leb (a, i) (a, j) = Nat.leb i j.
Proof. unfold node_leb. cbn. destruct (Rlt_dec a a); [lra|]. auto. Qed.
Ltac nl := repeat (cbn [insert_node]; match goal with
  | |- context [node_leb (?a, ?i) (?b, ?j)] =>
      first [rewrite (node_leb_e a i j); cbn [Nat.leb] | rewrite (node_leb_t a b i j) by lra | rewrite (node_leb_f a b i j) by lra]
  end).

(** one half cylinder *)
Lemma group1 u0 u1 : face_group same_cyl 0 [cf u0 u1] (cf u0 u1) 0 = [0%nat].
Proof. unfold face_group. cbn. rewrite andb_false_r. auto. Qed.
Lemma same_cf a b c d : same_cyl (cf a b) (cf c d) = true.
Proof.
  apply (on_cylinder_same EZ vzero 1); [apply frame_xyz|auto|]. exists 0. cbn. f_equal.
  unfold vadd, vscale, vzero, EZ. cbn. apply vec_eq; cbn; ring.
Qed.

Lemma half_plane : let p1 := cyl_point EX EY EZ vzero 1 0 0 in let p2 := cyl_point EX EY EZ vzero 1 PI 0 in
  p1 = V 1 0 0 /\ p2 = V (-1) 0 0.
Proof.
  cbn zeta. unfold cyl_point, EX, EY, EZ, vzero, vadd, vscale. rewrite cos_0, sin_0, cos_PI, sin_PI. cbn. split; apply vec_eq; cbn; ring.
Qed.
Lemma half_len : is_equal (1 / 100000) (V 1 0 0) (V (-1) 0 0) = false /\ rltb (vlen (V 0 2 0)) (1 / 10 ^ 10) = false.
Proof.
  unfold is_equal, vlen, dot, vsub. cbn [vx vy vz]. replace ((1 - -1) * (1 - -1) + (0 - 0) * (0 - 0) + (0 - 0) * (0 - 0)) with (2 * 2) by ring.
  replace (0 * 0 + 2 * 2 + 0 * 0) with (2 * 2) by ring. rewrite sqrt_square by lra. split.
  - destruct (Rle_dec 2 (1 / 100000)); auto; lra.
  - apply rltb_false. lra.
Qed.

Lemma ft_false a b : b - a - 2 * PI <= - (1/100) \/ 1/100 <= b - a - 2 * PI -> full_turn a b = false.
Proof. intros H. apply full_turn_false. destruct H; [rewrite Rabs_left1 by lra|rewrite Rabs_right by lra]; lra. Qed.

Ltac kk := cbn -[rltb full_turn gap Rminus Rplus Rmult PI Rdiv IZR]; rl.

Lemma bnd_half : get_u_value_boundary (u_range [cf 0 PI]) [0%nat] 0 = Ok (Some ((0, 0%nat), (PI, 0%nat))).
Proof.
  pose proof PI_RGT_0 as PP. pose proof PI2_3_2 as P3.
  unfold get_u_value_boundary, get_closed_ranges, u_range. cbn [nth_error fst snd flat_map app gf_u0 gf_u1 cf sort_nodes]. nl.
  unfold get_intervals. do 5 kk. rewrite ft_false by lra. do 3 kk. auto.
Qed.

Example C53_half_example : gen_plane_cylinder 0 [cf 0 PI] 0 = Ok (Some (V 1 0 0, V 0 2 0)).
Proof.
  unfold gen_plane_cylinder. cbn [nth_error look bind gf_surf cf]. fold (cf 0 PI).
  rewrite group1, bnd_half. cbn [bind end_point nth_error look snd fst gf_value gf_v0 cf].
  destruct half_plane as [-> ->]. destruct half_len as [E1 E2]. rewrite E1.
  replace (cross (vsub (V (-1) 0 0) (V 1 0 0)) EZ) with (V 0 2 0) by (unfold cross, vsub, EZ; cbn; apply vec_eq; cbn; ring).
  rewrite E2. auto.
Qed.

Lemma group2 (same : gface -> gface -> bool) f0 f1 : 0 <= gf_area f1 -> same f0 f1 = true -> face_group same 0 [f0; f1] f0 0 = [0; 1]%nat.
Proof. intros A S. unfold face_group. cbn. rewrite andb_false_r. cbn. rewrite S. apply rltb_false in A. rewrite A. auto. Qed.

(** Two faces that share an edge are put on opposite sides when their angular ranges are
    given in different turns. *)
Theorem C53_turn_refuted : exists fs f0 f1 p n,
  fs = [f0; f1] /\ gf_surf f0 = FCyl EZ vzero 1 /\ gf_surf f1 = FCyl EZ vzero 1
  /\ (forall u v, gf_value f0 u v = cyl_point EX EY EZ vzero 1 u v /\ gf_value f1 u v = cyl_point EX EY EZ vzero 1 u v)
  /\ (forall v, gf_value f0 (gf_u1 f0) v = gf_value f1 (gf_u0 f1) v)
  /\ gen_plane_cylinder 0 fs 0 = Ok (Some (p, n))
  /\ (forall u v, gf_u0 f0 < u < gf_u1 f0 -> 0 < side p n (gf_value f0 u v))
  /\ (forall u v, gf_u0 f1 < u < gf_u1 f1 -> side p n (gf_value f1 u v) < 0).
Proof.
  pose proof PI_RGT_0 as PP. pose proof PI2_3_2 as P3.
  exists [cf 0 PI; cf (3 * PI) (7/2 * PI)], (cf 0 PI), (cf (3 * PI) (7/2 * PI)), (V 1 0 0), (V 0 2 0).
  assert (Sd : forall u v, side (V 1 0 0) (V 0 2 0) (cyl_point EX EY EZ vzero 1 u v) = 2 * sin u).
  { intros u v. unfold side, cyl_point, EX, EY, EZ, vzero, vadd, vscale, vsub, dot. cbn. ring. }
  split; auto. split; auto. split; auto. split; [auto|]. split; [|split; [|split]].
  - intros v. cbn [gf_value cf gf_u0 gf_u1]. rewrite <- (cyl_turn EX EY EZ vzero 1 (3 * PI)). f_equal. ring.
  - unfold gen_plane_cylinder. cbn [nth_error look bind]. rewrite group2; [|cbn; lra|apply same_cf].
    assert (B : get_u_value_boundary (u_range [cf 0 PI; cf (3 * PI) (7/2 * PI)]) [0; 1]%nat 0 = Ok (Some ((0, 0%nat), (PI, 0%nat)))).
    { unfold get_u_value_boundary, get_closed_ranges, u_range. cbn [nth_error fst snd flat_map app gf_u0 gf_u1 cf sort_nodes]. nl.
      unfold get_intervals. do 5 kk. rewrite ft_false by lra. do 3 kk. auto. }
    rewrite B. cbn [bind end_point nth_error look snd fst gf_value gf_v0 gf_surf cf].
    destruct half_plane as [-> ->]. destruct half_len as [E1 E2]. rewrite E1.
    replace (cross (vsub (V (-1) 0 0) (V 1 0 0)) EZ) with (V 0 2 0) by (unfold cross, vsub, EZ; cbn; apply vec_eq; cbn; ring).
    rewrite E2. auto.
  - cbn [gf_value cf gf_u0 gf_u1]. intros u v Hu. rewrite Sd. pose proof (sin_gt_0 u). lra.
  - cbn [gf_value cf gf_u0 gf_u1]. intros u v Hu. rewrite Sd.
    assert (E : sin u = - sin (u - 3 * PI)).
    { replace (u - 3 * PI) with ((u - PI) - 2 * PI) by ring. rewrite sin_minus, sin_2PI, cos_2PI, sin_minus, sin_PI, cos_PI. ring. }
    pose proof (sin_gt_0 (u - 3 * PI)). lra.
Qed.

(** Faces of one cylinder whose angles are measured from different directions are
    joined as if they touched: the plane of a face that touches no other does not pass
    through its edge. *)
Definition cf' (u0 u1 : R) : gface := GFace (FCyl EZ vzero 1) 1 u0 u1 0 (cyl_point (vopp EX) (vopp EY) EZ vzero 1).
Theorem C53_direction_refuted : exists f0 f1 p n,
  gf_surf f0 = FCyl EZ vzero 1 /\ gf_surf f1 = FCyl EZ vzero 1
  /\ (forall u v, gf_value f0 u v = cyl_point EX EY EZ vzero 1 u v)
  /\ (forall u v, gf_value f1 u v = cyl_point (vopp EX) (vopp EY) EZ vzero 1 u v)
  /\ (forall u v, gf_u0 f0 <= u <= gf_u1 f0 -> 0 < side vzero (V 1 1 0) (gf_value f0 u v))
  /\ (forall u v, gf_u0 f1 <= u <= gf_u1 f1 -> side vzero (V 1 1 0) (gf_value f1 u v) < 0)
  /\ gen_plane_cylinder 0 [f0; f1] 0 = Ok (Some (p, n))
  /\ (forall v, side p n (gf_value f0 (gf_u1 f0) v) <> 0).
Proof.
  pose proof PI_RGT_0 as PP. pose proof PI2_3_2 as P3.
  exists (cf 0 (PI/2)), (cf' 0 (PI/2)), (V 1 0 0), (V (-1) 1 0).
  assert (Q : forall u, 0 <= u <= PI / 2 -> 0 < cos u + sin u).
  { intros u Hu. assert (0 <= sin u) by (apply sin_ge_0; lra). assert (0 <= cos u) by (apply cos_ge_0; lra).
    pose proof (sin2_cos2 u) as E. unfold Rsqr in E. destruct (Rlt_dec 0 (cos u + sin u)); auto.
    assert (cos u = 0) by lra. assert (sin u = 0) by lra. rewrite H1, H2 in E. lra. }
  split; auto. split; auto. split; auto. split; auto. split; [|split; [|split]].
  - intros u v Hu. cbn [cf gf_value gf_u0 gf_u1] in *. specialize (Q u Hu).
    replace (side vzero (V 1 1 0) (cyl_point EX EY EZ vzero 1 u v)) with (cos u + sin u); auto.
    unfold side, cyl_point, EX, EY, EZ, vzero, vadd, vscale, vsub, dot. cbn. ring.
  - intros u v Hu. cbn [cf' gf_value gf_u0 gf_u1] in *. specialize (Q u Hu).
    replace (side vzero (V 1 1 0) (cyl_point (vopp EX) (vopp EY) EZ vzero 1 u v)) with (- (cos u + sin u)); [lra|].
    unfold side, cyl_point, EX, EY, EZ, vzero, vadd, vscale, vsub, dot, vopp. cbn. ring.
  - unfold gen_plane_cylinder. cbn [nth_error look bind]. rewrite group2; [|cbn; lra|].
    2:{ apply (on_cylinder_same EZ vzero 1); [apply frame_xyz|auto|]. exists 0. cbn. f_equal.
        unfold vadd, vscale, vzero, EZ. cbn. apply vec_eq; cbn; ring. }
    assert (B : get_u_value_boundary (u_range [cf 0 (PI/2); cf' 0 (PI/2)]) [0; 1]%nat 0 = Ok (Some ((0, 0%nat), (PI/2, 1%nat)))).
    { unfold get_u_value_boundary, get_closed_ranges, u_range. cbn [nth_error fst snd flat_map app gf_u0 gf_u1 cf cf' sort_nodes]. nl.
      unfold get_intervals. do 5 kk. rewrite ft_false by lra. do 3 kk. auto. }
    rewrite B. cbn [bind end_point nth_error look snd fst gf_value gf_v0 gf_surf cf cf'].
    destruct half_plane as [-> _].
    replace (cyl_point (vopp EX) (vopp EY) EZ vzero 1 (PI / 2) 0) with (V 0 (-1) 0)
      by (unfold cyl_point, EX, EY, EZ, vzero, vadd, vscale, vopp; rewrite cos_PI2, sin_PI2; cbn; apply vec_eq; cbn; ring).
    assert (L : 1 <= sqrt 2) by (rewrite <- sqrt_1; apply sqrt_le_1; lra).
    unfold is_equal, vlen, dot, vsub. cbn [vx vy vz].
    replace ((1 - 0) * (1 - 0) + (0 - -1) * (0 - -1) + (0 - 0) * (0 - 0)) with 2 by ring.
    destruct (Rle_dec (sqrt 2) (1 / 100000)); [lra|].
    replace (cross (V (0 - 1) (-1 - 0) (0 - 0)) EZ) with (V (-1) 1 0) by (unfold cross, EZ; cbn; apply vec_eq; cbn; ring).
    cbn [vx vy vz]. replace (-1 * -1 + 1 * 1 + 0 * 0) with 2 by ring.
    assert (E : rltb (sqrt 2) (1 / 10 ^ 10) = false) by (apply rltb_false; lra). rewrite E. auto.
  - intros v. cbn [cf gf_value gf_u1].
    replace (side (V 1 0 0) (V (-1) 1 0) (cyl_point EX EY EZ vzero 1 (PI / 2) v)) with 2; [lra|].
    unfold side, cyl_point, EX, EY, EZ, vzero, vadd, vscale, vsub, dot. rewrite cos_PI2, sin_PI2. cbn. ring.
Qed.

(** Cones *)
Definition kf (s u0 u1 v0 : R) : gface := GFace (FCone EZ vzero s) 1 u0 u1 v0 (cone_point EX EY EZ vzero s).

Example C53_cone_example : cone_faces 0 [kf (PI/4) 0 (PI/2) 1; kf (PI/4) (PI/2) PI 1; kf (PI/4) (5/4*PI) (3/2*PI) 2] 0 EX EY EZ vzero (PI/4) 0.
Proof.
  pose proof PI_RGT_0. split; [apply frame_xyz|]. split; [lra|]. exists (kf (PI/4) 0 (PI/2) 1). split; auto. split; auto.
  intros [|[|[|k]]] f' E _; cbn in E; try (injection E as <-; cbn; repeat split; try lra; exists 0; split; [lra|]; intros u v; f_equal; lra).
  destruct k; discriminate.
Qed.

(** A face on another, narrower cone with the same apex and axis is taken for a face of
    the same cone: the plane does not pass through the edge of the face it is made for. *)
Theorem C53_narrow_refuted : exists f0 f1 p n s0 s1,
  gf_surf f0 = FCone EZ vzero s0 /\ gf_surf f1 = FCone EZ vzero s1 /\ s1 < s0 - 1/2
  /\ (forall u v, gf_value f0 u v = cone_point EX EY EZ vzero s0 u v)
  /\ (forall u v, gf_value f1 u v = cone_point EX EY EZ vzero s1 u v)
  /\ gen_plane_cone 0 [f0; f1] 0 = Ok (Some (p, n))
  /\ side p n (gf_value f0 (gf_u1 f0) (gf_v0 f0)) <> 0.
Proof.
  pose proof PI_RGT_0 as PP. pose proof PI2_3_2 as P3. pose proof (sqrt_sqrt 3 ltac:(lra)) as SQ. pose proof (sqrt_pos 3) as SP.
  exists (kf (PI/3) 0 (PI/2) 1), (kf (PI/6) (PI/2) PI 1), (V (sqrt 3 / 2) 0 (1/2)), (V 0 (-1) 0), (PI/3), (PI/6).
  split; auto. split; auto. split; [lra|]. split; auto. split; auto. split.
  - unfold gen_plane_cone. cbn [nth_error look bind]. rewrite group2; [|cbn; lra|].
    2:{ unfold same_cone. cbn [gf_surf kf]. unfold is_equal.
        assert (Z : forall a, vsub a a = vzero) by (intros [x y z]; unfold vsub, vzero; cbn; apply vec_eq; cbn; ring).
        rewrite !Z, vlen_zero. destruct (Rle_dec 0 (1 / 100000)); [|lra]. cbn [andb]. apply rltb_true. lra. }
    assert (B : get_u_value_boundary (u_range [kf (PI/3) 0 (PI/2) 1; kf (PI/6) (PI/2) PI 1]) [0; 1]%nat 0 = Ok (Some ((0, 0%nat), (PI, 1%nat)))).
    { unfold get_u_value_boundary, get_closed_ranges, u_range. cbn [nth_error fst snd flat_map app gf_u0 gf_u1 kf sort_nodes]. nl.
      unfold get_intervals. do 5 kk. rewrite ft_false by lra. do 3 kk. auto. }
    rewrite B. cbn [bind end_point nth_error look snd fst gf_value gf_v0 gf_surf kf].
    replace (cone_point EX EY EZ vzero (PI / 3) 0 1) with (V (sqrt 3 / 2) 0 (1/2))
      by (unfold cone_point, EX, EY, EZ, vzero, vadd, vscale; rewrite cos_0, sin_0, sin_PI3, cos_PI3; cbn; apply vec_eq; cbn; field).
    replace (cone_point EX EY EZ vzero (PI / 6) PI 1) with (V (-1/2) 0 (sqrt 3 / 2))
      by (unfold cone_point, EX, EY, EZ, vzero, vadd, vscale; rewrite cos_PI, sin_PI, sin_PI6, cos_PI6; cbn; apply vec_eq; cbn; field).
    unfold is_equal, vlen. 
    replace (dot (vsub (V (sqrt 3 / 2) 0 (1 / 2)) (V (-1 / 2) 0 (sqrt 3 / 2))) (vsub (V (sqrt 3 / 2) 0 (1 / 2)) (V (-1 / 2) 0 (sqrt 3 / 2))))
      with 2 by (unfold dot, vsub; cbn; nra).
    assert (L : 1 <= sqrt 2) by (rewrite <- sqrt_1; apply sqrt_le_1; lra).
    destruct (Rle_dec (sqrt 2) (1 / 100000)); [lra|].
    replace (cross (vsub (V (-1 / 2) 0 (sqrt 3 / 2)) (V (sqrt 3 / 2) 0 (1 / 2))) (vsub vzero (V (sqrt 3 / 2) 0 (1 / 2)))) with (V 0 (-1) 0)
      by (unfold cross, vsub, vzero; cbn; apply vec_eq; cbn; nra).
    unfold dot. cbn [vx vy vz]. replace (0 * 0 + -1 * -1 + 0 * 0) with 1 by ring. rewrite sqrt_1.
    destruct (Req_EM_T 1 0); [lra|]. auto.
  - cbn [gf_value kf gf_u1 gf_v0].
    replace (side (V (sqrt 3 / 2) 0 (1 / 2)) (V 0 (-1) 0) (cone_point EX EY EZ vzero (PI / 3) (PI / 2) 1)) with (- (sqrt 3 / 2)).
    + assert (1 <= sqrt 3) by (rewrite <- sqrt_1 at 1; apply sqrt_le_1; lra). lra.
    + unfold side, cone_point, EX, EY, EZ, vzero, vadd, vscale, vsub, dot. rewrite cos_PI2, sin_PI2, sin_PI3. cbn. field.
Qed.

(** A conical face that reaches the tip gets no plane, although it spans a quarter turn *)
Theorem C53_tip_refuted : forall s, exists f,
  gf_surf f = FCone EZ vzero s /\ gf_u0 f = 0 /\ gf_u1 f = PI / 2
  /\ (forall u v, gf_value f u v = cone_point EX EY EZ vzero s u v) /\ gf_value f 0 (gf_v0 f) = vzero
  /\ gen_plane_cone 0 [f] 0 = Ok None.
Proof.
  intros s. pose proof PI_RGT_0 as PP. pose proof PI2_3_2 as P3.
  assert (T : forall u, cone_point EX EY EZ vzero s u 0 = vzero).
  { intros u. unfold cone_point, EX, EY, EZ, vzero, vadd, vscale; cbn; apply vec_eq; cbn; ring. }
  exists (kf s 0 (PI/2) 0). split; auto. split; auto. split; auto. split; auto. split; [cbn; apply T|].
  unfold gen_plane_cone. cbn [nth_error look bind gf_surf kf]. fold (kf s 0 (PI/2) 0).
  assert (G : face_group same_cone 0 [kf s 0 (PI / 2) 0] (kf s 0 (PI / 2) 0) 0 = [0%nat]) by (unfold face_group; cbn; rewrite andb_false_r; auto).
  rewrite G.
  assert (B : get_u_value_boundary (u_range [kf s 0 (PI/2) 0]) [0%nat] 0 = Ok (Some ((0, 0%nat), (PI/2, 0%nat)))).
  { unfold get_u_value_boundary, get_closed_ranges, u_range. cbn [nth_error fst snd flat_map app gf_u0 gf_u1 kf sort_nodes]. nl.
    unfold get_intervals. do 5 kk. rewrite ft_false by lra. do 3 kk. auto. }
  rewrite B. cbn [bind end_point nth_error look snd fst gf_value gf_v0 kf]. rewrite !T.
  unfold is_equal. replace (vsub vzero vzero) with vzero by (unfold vsub, vzero; cbn; apply vec_eq; cbn; ring).
  rewrite vlen_zero. destruct (Rle_dec 0 (1 / 100000)); [auto|lra].
Qed.

(** Spheres: the order of the faces matters.  Face 1 touches face 2, which touches face
    0; it is left out. *)
Theorem C53_sphere_refuted : exists (fs : list sface) (dist : nat -> nat -> R) f,
  nth_error fs 0 = Some f /\ List.length fs = 3%nat
  /\ (forall g, In g fs -> sf_sphere g = true /\ sf_center g = vzero /\ sf_radius g = 1)
  /\ (forall i j, dist i j = dist j i) /\ dist 0%nat 2%nat = 0 /\ dist 2%nat 1%nat = 0
  /\ ~ In 1%nat (sphere_group dist fs f 0 0 fs [0%nat]).
Proof.
  set (g := SFace true vzero 1 1 EX).
  exists [g; g; g], (fun i j => match i, j with 0%nat, 1%nat | 1%nat, 0%nat => 1 | _, _ => 0 end), g.
  split; auto. split; auto. split; [intros x [<-|[<-|[<-|[]]]]; auto|].
  split; [intros [|[|i]] [|[|j]]; auto|]. split; auto. split; auto.
  cbn -[rltb vec_eqb]. assert (E : vec_eqb vzero vzero = true) by (apply vec_eqb_true; auto). rewrite E.
  destruct (Req_EM_T 1 1); [|lra]. cbn -[rltb].
  assert (E1 : rltb 1 (1 / (10 * (10 * (10 * (10 * (10 * (10 * 1))))))) = false) by (apply rltb_false; lra). rewrite E1. cbn -[rltb].
  assert (E2 : rltb 0 (1 / (10 * (10 * (10 * (10 * (10 * (10 * 1))))))) = true) by (apply rltb_true; lra). rewrite E2. cbn.
  intros [H|[H|[]]]; discriminate.
Qed.

(** A face of the unit sphere, given by a quarter of its equator *)
Definition arc (x : vec) : Prop := exists t, - (PI / 4) <= t <= PI / 4 /\ x = V (cos t) (sin t) 0.
Lemma arc_piece : piece_of_surface arc (V (9/10) 0 0).
Proof.
  pose proof PI_RGT_0 as PP.
  assert (SC : forall c n t, side c n (V (cos t) (sin t) 0) = vx n * cos t + vy n * sin t + side c n vzero).
  { intros c n t. unfold side, dot, vsub, vzero. cbn. ring. }
  assert (C4 : 0 < cos (PI/4) < 9/10).
  { rewrite cos_PI4. assert (S2 : 12/10 < sqrt 2). { rewrite <- (sqrt_square (12/10)) by lra. apply sqrt_lt_1; lra. }
    split; [apply Rdiv_lt_0_compat; lra|]. apply Rmult_lt_reg_r with (sqrt 2); [lra|]. unfold Rdiv. rewrite Rmult_assoc, Rinv_l by lra. lra. }
  assert (HC : forall c n, exists a b, 0 <= a /\ 0 <= b /\ a + b = 1 /\
     side c n (V (9/10) 0 0) = a * side c n (V (cos 0) (sin 0) 0) + b / 2 * (side c n (V (cos (PI/4)) (sin (PI/4)) 0) + side c n (V (cos (-(PI/4))) (sin (-(PI/4))) 0))).
  { intros c n. set (k := cos (PI/4)) in *. exists ((9/10 - k) / (1 - k)), ((1/10) / (1 - k)).
    assert (0 < 1 - k) by lra. split; [apply Rlt_le, Rdiv_lt_0_compat; lra|]. split; [apply Rlt_le, Rdiv_lt_0_compat; lra|]. split; [field; lra|].
    unfold k. rewrite !SC, cos_neg, sin_neg, cos_0, sin_0. fold k.
    replace (side c n (V (9/10) 0 0)) with (vx n * (9/10) + side c n vzero) by (unfold side, dot, vsub, vzero; cbn; ring).
    field. lra. }
  split.
  - exists (V (cos 0) (sin 0) 0). exists 0. split; [lra|auto].
  - intros c n H. set (g := fun t => vx n * cos t + vy n * sin t + side c n vzero).
    assert (Cg : continuity g) by (unfold g; reg).
    assert (Hg : forall t, - (PI/4) <= t <= PI/4 -> g t <> 0).
    { intros t Ht. unfold g. rewrite <- SC. apply H. exists t. auto. }
    assert (Hs : forall t t', - (PI/4) <= t -> t <= t' -> t' <= PI/4 -> 0 < g t * g t').
    { intros t t' H1 H2 H3. destruct (Rlt_dec 0 (g t * g t')) as [|N]; auto. exfalso.
      destruct (IVT_cor g t t' Cg H2) as [z [Hz1 Hz2]]; [lra|]. apply (Hg z); auto. lra. }
    destruct (Rlt_dec 0 (g 0)) as [P0|P0].
    + left. intros x [t [Ht ->]]. rewrite SC. change (0 < g t).
      destruct (Rle_dec t 0) as [L|L]; [pose proof (Hs t 0)|pose proof (Hs 0 t)]; (assert (0 < g t * g 0) by (try rewrite Rmult_comm; lra)); nra.
    + right. intros x [t [Ht ->]]. rewrite SC. change (g t < 0). assert (g 0 <> 0) by (apply Hg; lra).
      destruct (Rle_dec t 0) as [L|L]; [pose proof (Hs t 0)|pose proof (Hs 0 t)]; (assert (0 < g t * g 0) by (try rewrite Rmult_comm; lra)); nra.
  - intros c n H. destruct (HC c n) as (a & b & A & B & E & ->).
    assert (X0 : 0 < side c n (V (cos 0) (sin 0) 0)) by (apply H; exists 0; split; [lra|auto]).
    assert (X1 : 0 < side c n (V (cos (PI/4)) (sin (PI/4)) 0)) by (apply H; exists (PI/4); split; [lra|auto]).
    assert (X2 : 0 < side c n (V (cos (-(PI/4))) (sin (-(PI/4))) 0)) by (apply H; exists (-(PI/4)); split; [lra|auto]).
    set (s0 := side c n (V (cos 0) (sin 0) 0)) in *. set (s1 := side c n (V (cos (PI/4)) (sin (PI/4)) 0)) in *. set (s2 := side c n (V (cos (-(PI/4))) (sin (-(PI/4))) 0)) in *.
    destruct (Rlt_dec 0 a); [assert (0 < a * s0) by (apply Rmult_lt_0_compat; lra); assert (0 <= b / 2 * (s1 + s2)) by (apply Rmult_le_pos; lra); lra|].
    assert (a = 0) by lra. assert (b = 1) by lra. subst a b. lra.
  - intros c n H. destruct (HC c n) as (a & b & A & B & E & ->).
    assert (X0 : side c n (V (cos 0) (sin 0) 0) < 0) by (apply H; exists 0; split; [lra|auto]).
    assert (X1 : side c n (V (cos (PI/4)) (sin (PI/4)) 0) < 0) by (apply H; exists (PI/4); split; [lra|auto]).
    assert (X2 : side c n (V (cos (-(PI/4))) (sin (-(PI/4))) 0) < 0) by (apply H; exists (-(PI/4)); split; [lra|auto]).
    set (s0 := side c n (V (cos 0) (sin 0) 0)) in *. set (s1 := side c n (V (cos (PI/4)) (sin (PI/4)) 0)) in *. set (s2 := side c n (V (cos (-(PI/4))) (sin (-(PI/4))) 0)) in *.
    destruct (Rlt_dec 0 a); [assert (0 < a * - s0) by (apply Rmult_lt_0_compat; lra); assert (0 <= b / 2 * (- s1 + - s2)) by (apply Rmult_le_pos; lra); lra|].
    assert (a = 0) by lra. assert (b = 1) by lra. subst a b. lra.
Qed.

Example C53_sphere_example :
  let fs := [SFace true vzero 1 1 (V (9/10) 0 0)] in
  let pdist := fun (c n : vec) (_ : nat) => if vec_eqb c vzero && vec_eqb n EX then 1/2 else 0 in
  piece_of_surface arc (V (9/10) 0 0)
  /\ (forall c n j x, arc x -> vlen n = 1 -> pdist c n j <= Rabs (side c n x))
  /\ gen_plane_sphere (fun _ _ => 1) pdist fs 0 = Ok (Some (V (95/200) 0 0, EX)).
Proof.
  cbn zeta. split; [apply arc_piece|]. split.
  - intros c n j x [t [Ht ->]] _. pose proof PI_RGT_0 as PP. destruct (vec_eqb c vzero) eqn:E1; [|apply Rabs_pos].
    destruct (vec_eqb n EX) eqn:E2; [|apply Rabs_pos]. cbn [andb]. apply vec_eqb_true in E1, E2. subst.
    replace (side vzero EX (V (cos t) (sin t) 0)) with (cos t) by (unfold side, EX, vzero, dot, vsub; cbn; ring).
    assert (H : cos (PI/3) <= cos t).
    { destruct (Rle_dec 0 t).
      - apply cos_decr_1; lra.
      - rewrite <- (cos_neg t). apply cos_decr_1; lra. }
    rewrite cos_PI3 in H. pose proof (Rle_abs (cos t)). lra.
  - unfold gen_plane_sphere. cbn [nth_error look bind sphere_group mapM sf_sphere negb orb Nat.eqb sf_area sf_com sf_center vsum].
    set (N := vadd _ vzero). assert (EN : N = vscale (9/10) EX) by (unfold N, vadd, vscale, vsub, vzero, EX; cbn; apply vec_eq; cbn; ring).
    rewrite EN. assert (LE : vlen EX = 1) by (unfold vlen, dot, EX; cbn; replace (1*1+0*0+0*0) with 1 by ring; apply sqrt_1).
    rewrite vlen_scale, LE, Rabs_right by lra.
    assert (P52 : 1 <= 2 ^ 52) by (apply pow_R1_Rle; lra).
    assert (E1 : rltb (9 / 10 * 1) eps_len = false).
    { apply rltb_false. unfold eps_len. apply Rle_trans with (/ 2 ^ 1); [apply Rinv_le_contravar; [lra|apply Rle_pow; [lra|lia]]|lra]. }
    rewrite E1.
    replace (vscale (/ (9 / 10 * 1)) (vscale (9 / 10) EX)) with EX by (unfold vscale, EX; cbn; apply vec_eq; cbn; field).
    cbn [map]. assert (EE : forall a, vec_eqb a a = true) by (intros; apply vec_eqb_true; auto). rewrite !EE. cbn [andb rmin_list sf_radius].
    rewrite Rmin_right by lra. assert (E2 : rltb (1 / 10 ^ 6) (1 / 2) = true) by (apply rltb_true; lra). rewrite E2.
    do 3 f_equal. unfold vadd, vscale, EX, vzero. cbn. apply vec_eq; cbn; field.
Qed.
