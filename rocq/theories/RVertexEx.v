(** Planes parallel to the axes: conditions of RVertexSpec. *)
From Verif Require Import Prelude BoolSpec Vec3 PrimProofs RBox RBoxSpec RPlanes RPlaneSpec RVertexSpec.
Open Scope R_scope.

Section Aligned.
  Variables X Y Z : list R.
  Definition aligned (p : pl) : Prop :=
    (vx (pl_axis p) <> 0 /\ vy (pl_axis p) = 0 /\ vz (pl_axis p) = 0 /\ In (vx (pl_pos p)) X) \/
    (vx (pl_axis p) = 0 /\ vy (pl_axis p) <> 0 /\ vz (pl_axis p) = 0 /\ In (vy (pl_pos p)) Y) \/
    (vx (pl_axis p) = 0 /\ vy (pl_axis p) = 0 /\ vz (pl_axis p) <> 0 /\ In (vz (pl_pos p)) Z).
  Definition has (v : vec) (p : pl) : Prop :=
    (vy (pl_axis p) = 0 /\ vz (pl_axis p) = 0 /\ vx v = vx (pl_pos p) /\ In (vx v) X) \/
    (vx (pl_axis p) = 0 /\ vz (pl_axis p) = 0 /\ vy v = vy (pl_pos p) /\ In (vy v) Y) \/
    (vx (pl_axis p) = 0 /\ vy (pl_axis p) = 0 /\ vz v = vz (pl_pos p) /\ In (vz v) Z).
  Lemma on_has p v : aligned p -> on p v -> has v p.
  Proof.
    unfold aligned, has, on, pl_dist, dot, vsub; cbn. intros [(A & B & C & I) | [(A & B & C & I) | (A & B & C & I)]] H.
    - left. assert (E : vx v = vx (pl_pos p)). { rewrite B, C in H. assert (H' : vx (pl_axis p) * (vx v - vx (pl_pos p)) = 0) by lra. apply Rmult_integral in H'. lra. } rewrite E. auto.
    - right; left. assert (E : vy v = vy (pl_pos p)). { rewrite A, C in H. assert (H' : vy (pl_axis p) * (vy v - vy (pl_pos p)) = 0) by lra. apply Rmult_integral in H'. lra. } rewrite E. auto.
    - right; right. assert (E : vz v = vz (pl_pos p)). { rewrite A, B in H. assert (H' : vz (pl_axis p) * (vz v - vz (pl_pos p)) = 0) by lra. apply Rmult_integral in H'. lra. } rewrite E. auto.
  Qed.
  Lemma corner_coords O ps v : Forall aligned (ps ++ faces O) -> corner O ps v -> In (vx v) X /\ In (vy v) Y /\ In (vz v) Z.
  Proof.
    intros F (_ & p & q & r & Ip & Iq & Ir & D & Op & Oq & Or). rewrite Forall_forall in F.
    apply (on_has p v (F p Ip)) in Op. apply (on_has q v (F q Iq)) in Oq. apply (on_has r v (F r Ir)) in Or. unfold indep, dot, cross in D; cbn in D.
    destruct Op as [(A1 & A2 & _ & A3) | [(A1 & A2 & _ & A3) | (A1 & A2 & _ & A3)]], Oq as [(B1 & B2 & _ & B3) | [(B1 & B2 & _ & B3) | (B1 & B2 & _ & B3)]],
      Or as [(C1 & C2 & _ & C3) | [(C1 & C2 & _ & C3) | (C1 & C2 & _ & C3)]]; first [solve [auto] | exfalso; apply D; rewrite ?A1, ?A2, ?B1, ?B2, ?C1, ?C2; ring].
  Qed.
  Definition apart (l : list R) : Prop := forall a b, In a l -> In b l -> a = b \/ 1 <= Rabs (a - b).
  Lemma far a b : 1 <= Rabs (a - b) -> 1 <= (a - b) * (a - b).
  Proof. intros H. unfold Rabs in H. destruct (Rcase_abs _) in H; nra. Qed.
  Lemma vlen_far d : 1 <= dot d d -> 1 / 10 <= vlen d.
  Proof. intros H. unfold vlen. apply Rle_trans with (sqrt 1); [rewrite sqrt_1; lra|]. apply sqrt_le_1; lra. Qed.
  Lemma aligned_spread O ps : Forall aligned (ps ++ faces O) -> apart X -> apart Y -> apart Z -> spread O ps.
  Proof.
    intros F AX AY AZ v w V W. destruct (corner_coords _ _ _ F V) as (V1 & V2 & V3), (corner_coords _ _ _ F W) as (W1 & W2 & W3).
    assert (S : forall a, 0 <= a * a) by (intros; nra).
    destruct (AX _ _ V1 W1) as [E1|E1]; [destruct (AY _ _ V2 W2) as [E2|E2]; [destruct (AZ _ _ V3 W3) as [E3|E3]|]|].
    - left. now apply vec_eq.
    - right. apply vlen_far. apply far in E3. unfold dot, vsub; cbn. pose proof (S (vx v - vx w)). pose proof (S (vy v - vy w)). lra.
    - right. apply vlen_far. apply far in E2. unfold dot, vsub; cbn. pose proof (S (vx v - vx w)). pose proof (S (vz v - vz w)). lra.
    - right. apply vlen_far. apply far in E1. unfold dot, vsub; cbn. pose proof (S (vy v - vy w)). pose proof (S (vz v - vz w)). lra.
  Qed.
  Lemma aligned_edge O ps : Forall aligned ps -> solid_box O -> edge_free O ps.
  Proof.
    intros F (S1 & S2 & S3) p q f g v Ip Iq If Ig NE D1 D2 _ Op Oq Of Og. rewrite Forall_forall in F. apply (on_has p v (F p Ip)) in Op. apply (on_has q v (F q Iq)) in Oq. clear F.
    unfold indep, dot, cross in D1, D2; cbn in D1, D2. unfold faces in If, Ig. unfold on, pl_dist, dot, vsub in Of, Og.
    destruct Op as [(A1 & A2 & _ & A3) | [(A1 & A2 & _ & A3) | (A1 & A2 & _ & A3)]], Oq as [(B1 & B2 & _ & B3) | [(B1 & B2 & _ & B3) | (B1 & B2 & _ & B3)]];
    rewrite ?A1, ?A2, ?B1, ?B2 in D1, D2; cbn in If, Ig;
    destruct If as [<- | [<- | [<- | [<- | [<- | [<- | []]]]]]]; cbn in D1, Of; try (apply D1; ring);
    destruct Ig as [<- | [<- | [<- | [<- | [<- | [<- | []]]]]]]; cbn in D2, Og; try (apply D2; ring); first [now apply NE | lra].
  Qed.
End Aligned.

From Coq Require Import QArith Qreals.
Open Scope R_scope.
Lemma apart_q (l : list Q) : forallb (fun a => forallb (fun b => Qeq_bool a b || Qle_bool 1 (a - b) || Qle_bool 1 (b - a)) l) l = true -> apart (map Q2R l).
Proof.
  intros H x y X Y. apply in_map_iff in X, Y. destruct X as (a & <- & A), Y as (b & <- & B). rewrite forallb_forall in H. specialize (H a A). rewrite forallb_forall in H. specialize (H b B).
  assert (O1 : Q2R 1 = 1) by (unfold Q2R; cbn; lra).
  apply orb_prop in H. destruct H as [H|H]; [apply orb_prop in H; destruct H as [H|H]|].
  - left. apply Qeq_eqR. now apply Qeq_bool_iff.
  - right. apply Qle_bool_iff, Qle_Rle in H. rewrite Q2R_minus, O1 in H. rewrite Rabs_right; lra.
  - right. apply Qle_bool_iff, Qle_Rle in H. rewrite Q2R_minus, O1 in H. rewrite Rabs_minus_sym, Rabs_right; lra.
Qed.
