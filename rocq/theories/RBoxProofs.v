From Verif Require Import Prelude BoolSpec BoolSeq Vec3 Prim RBox RBoxSpec.
Open Scope R_scope.

Lemma rleb_true a b : rleb a b = true <-> a <= b.
Proof. unfold rleb. destruct (Rle_dec a b); split; intros; auto; try discriminate; contradiction. Qed.
Lemma rleb_false a b : rleb a b = false <-> b < a.
Proof. unfold rleb. destruct (Rle_dec a b); split; intros; auto; try discriminate; lra. Qed.
Lemma hull_l a b x : in_box a x -> in_box (hull a b) x.
Proof.
  unfold in_box, hull; cbn. intros ((A & B) & (C & D) & (E & F)).
  repeat split; first [eapply Rle_trans; [apply Rmin_l|assumption] | eapply Rle_trans; [eassumption|apply Rmax_l]].
Qed.
Lemma hull_r a b x : in_box b x -> in_box (hull a b) x.
Proof.
  unfold in_box, hull; cbn. intros ((A & B) & (C & D) & (E & F)).
  repeat split; first [eapply Rle_trans; [apply Rmin_r|assumption] | eapply Rle_trans; [eassumption|apply Rmax_r]].
Qed.
Lemma meet_in a b x : in_box a x -> in_box b x -> in_box (meet a b) x.
Proof.
  unfold in_box, meet; cbn. intros H1 H2.
  repeat split; first [apply Rmax_lub | apply Rmin_glb]; tauto.
Qed.
Lemma in_valid b x : in_box b x -> valid b = true.
Proof. unfold in_box, valid. intros H. rewrite !andb_true_iff, !rleb_true. lra. Qed.

Section Bounds.
  Variable U : bbox.
  Ltac bstart s t := intros HS HT x XU; specialize (HS x XU); specialize (HT x XU);
    destruct s as [[a|] []], t as [[b|] []]; cbn in *.
  Lemma mult_bounds s t (S T : vec -> Prop) : (forall x, S x \/ ~ S x) -> (forall x, T x \/ ~ T x) ->
    bounds U s S -> bounds U t T -> bounds U (box_mult s t) (fun x => S x /\ T x).
  Proof.
    intros DS DT. bstart s t; destruct (DS x), (DT x); intros;
      try (destruct (valid (meet a b)) eqn:V; cbn in *; intros); intuition auto using hull_l, hull_r, meet_in.
    rewrite (in_valid (meet a b) x) in V by auto using meet_in. discriminate.
  Qed.
  Lemma add_bounds s t (S T : vec -> Prop) : (forall x, S x \/ ~ S x) -> (forall x, T x \/ ~ T x) ->
    bounds U s S -> bounds U t T -> bounds U (box_add s t) (fun x => S x \/ T x).
  Proof.
    intros DS DT. bstart s t; destruct (DS x), (DT x); intros; intuition auto using hull_l, hull_r.
  Qed.
  Lemma bounds_ext m S T : (forall x, S x <-> T x) -> bounds U m S -> bounds U m T.
  Proof. intros E H x XU. specialize (H x XU). specialize (E x). destruct (mb_or m), (mb_box m); tauto. Qed.
  Lemma bounds_fwd_none S : bounds U (MB None Fwd) S <-> forall x, in_box U x -> ~ S x.
  Proof. reflexivity. Qed.

  Variable side : vec -> point.
  Notation reg n := (fun x => eval (side x) n = true).
  Lemma reg_dec n x : reg n x \/ ~ reg n x.
  Proof. cbv beta. destruct (eval (side x) n); [left; reflexivity|right; discriminate]. Qed.
  Lemma loop_bounds op l : forall m bs n0, bounds U m (reg n0) ->
    Forall2 (fun n b => bounds U b (reg n)) l bs -> bounds U (box_loop op m bs) (reg (Seq op 0%Z (n0 :: l))).
  Proof.
    induction l as [|n l IH]; intros m bs n0 H F; inversion F; subst; cbn [box_loop].
    - eapply bounds_ext; [|exact H]. intros x. cbn. destruct op; cbn; destruct (eval (side x) n0); cbn; intuition.
    - assert (M : bounds U (match op with AND => box_mult m y | OR => box_add m y end) (reg (Seq op 0%Z [n0; n]))).
      { destruct op.
        - eapply bounds_ext; [|apply mult_bounds; [apply (reg_dec n0)|apply (reg_dec n)|exact H|assumption]].
          intros x. cbn. rewrite andb_true_r, andb_true_iff. reflexivity.
        - eapply bounds_ext; [|apply add_bounds; [apply (reg_dec n0)|apply (reg_dec n)|exact H|assumption]].
          intros x. cbn. rewrite orb_false_r, orb_true_iff. reflexivity. }
      assert (E : forall x, reg (Seq op 0%Z (n0 :: n :: l)) x <-> reg (Seq op 0%Z (Seq op 0%Z [n0; n] :: l)) x).
      { intros x. cbn. destruct op; cbn; [rewrite andb_true_r, andb_assoc|rewrite orb_false_r, orb_assoc]; reflexivity. }
      specialize (IH _ l' _ M ltac:(assumption)).
      set (m' := match op with AND => box_mult m y | OR => box_add m y end) in *.
      assert (K : forall z : mybox, (z = m' -> mb_box m' = None -> mb_or m' = (match op with AND => Fwd | OR => Rev end) -> bounds U z (reg (Seq op 0%Z (n0 :: n :: l))))).
      { intros z -> B O x XU. specialize (M x XU). rewrite B, O in *. specialize (E x). cbn in E, M |- *. destruct op; cbn in *.
        - rewrite andb_true_r in M. intros H0. apply M. rewrite andb_assoc in H0. apply andb_true_iff in H0. tauto.
        - rewrite orb_false_r in M. rewrite orb_assoc, M. reflexivity. }
      destruct op, (mb_box m') eqn:B, (mb_or m') eqn:O; cbn;
        first [ apply K; reflexivity | eapply bounds_ext; [intros x; symmetry; apply E | exact IH] ].
  Qed.

  (** all the parts whose box is computed directly *)
  Fixpoint simple_parts (n : node) : list node :=
    match n with
    | Lit _ => []
    | Cst _ lev _ => if (lev =? 0)%Z then [n] else []
    | Seq _ lev l => if (lev =? 0)%Z then [n] else flat_map simple_parts l
    end.
  Lemma depth_bounds comp n : forall m, box_depth comp n = Ok m ->
    (forall p b, In p (simple_parts n) -> comp p = Ok b -> bounds U b (reg p)) -> bounds U m (reg n).
  Proof.
    induction n as [z|op lev b|op lev l IH] using node_ind'; intros m H C; cbn [box_depth] in H; [discriminate| |].
    - cbn [simple_parts] in C. destruct (lev =? 0)%Z; [apply C; [left; auto|exact H]|].
      injection H as <-. intros x XU. destruct b; cbn; [reflexivity|discriminate].
    - cbn [simple_parts] in C. destruct (lev =? 0)%Z; [apply C; [left; auto|exact H]|].
      destruct (mapM (box_depth comp) l) as [bs|e|] eqn:E; try discriminate. cbn [bind] in H.
      assert (F : Forall2 (fun n b => bounds U b (reg n)) l bs).
      { clear H. revert bs E C. induction IH as [|n l Hn Hl IHl]; intros bs E C.
        - cbn in E. injection E as <-. constructor.
        - cbn [mapM] in E. destruct (box_depth comp n) as [b|?|] eqn:Eb; try discriminate. cbn [bind] in E.
          destruct (mapM (box_depth comp) l) as [bs'|?|]; try discriminate. cbn [bind] in E. injection E as <-.
          constructor.
          + apply Hn; auto. intros p b0 I. apply C. cbn [flat_map]. apply in_or_app. auto.
          + apply IHl; auto. intros p b0 I. apply C. cbn [flat_map]. apply in_or_app. auto. }
      destruct bs as [|b bs]; [discriminate|]. injection H as <-. inversion F; subst.
      eapply bounds_ext; [|eapply loop_bounds; eassumption]. intros q. destruct op; reflexivity.
  Qed.
End Bounds.

Lemma enlarge_in k b x : 0 <= k -> in_box b x -> in_box (enlarge_box k b) x.
Proof. unfold in_box, enlarge_box; cbn. intros K H. nra. Qed.
Lemma get_bound_box_bounds U side comp k n m : get_bound_box comp k n = Ok m ->
  (forall p b, In p (simple_parts n) -> comp p = Ok b -> bounds U b (fun x => eval (side x) p = true)) ->
  bounds U m (fun x => eval (side x) n = true).
Proof.
  unfold get_bound_box. destruct (box_depth comp n) as [m0|e|] eqn:E; try discriminate. cbn [bind]. intros H C. injection H as <-.
  pose proof (depth_bounds U side comp n m0 E C) as D. intros x XU. specialize (D x XU).
  destruct m0 as [[b|] []]; cbn in *; auto; destruct (rltb 0 k) eqn:K; cbn; auto; intros; apply enlarge_in; auto;
    unfold rltb in K; destruct (Rlt_dec 0 k); try discriminate; lra.
Qed.
