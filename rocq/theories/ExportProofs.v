(** Signs of the definitions under the writers' plane normalisation. *)
From Coq Require Import String Sorted.
From Verif Require Import Prelude BoolSpec BoolSeq BoolProofs BoolProofs2 BoolEdit BoolEditProofs SurfDict SurfDictProofs
  Vec3 Geom GeomSpec GeomProofs Export.
Open Scope Z_scope.

(** ** change_surf_sign keeps the surfaces and the form of a definition *)
Lemma css_lits s n : forall r, change_surf_sign s n = Ok r -> map Z.abs (lits r) = map Z.abs (lits n).
Proof.
  induction n as [z|op lev b|op lev l IH] using node_ind'; intros r H; try discriminate.
  simpl in H. inv_bind. inv H. simpl. revert a Ha. induction l as [|x l IHl]; intros a Ha; simpl in Ha; [inv Ha; reflexivity|].
  inv_bind. inv Ha. simpl. rewrite !map_app. inversion IH; subst. rewrite (IHl H2 _ Ha1). f_equal.
  destruct x as [z|o lv b|o lv xs].
  - inv Ha0. simpl. f_equal. destruct (s =? Z.abs z); auto. lia.
  - destruct (lev =? 0); [discriminate|apply H1; auto].
  - destruct (lev =? 0); [discriminate|apply H1; auto].
Qed.
Lemma css_surfs s n r : change_surf_sign s n = Ok r -> surfs r = surfs n.
Proof. intros H. unfold surfs. rewrite (css_lits _ _ _ H). reflexivity. Qed.

Definition defok (n : node) : Prop := is_seq n /\ no_const n /\ wf n.
Lemma css_ok s n : forall r, change_surf_sign s n = Ok r -> wf n -> no_const n -> defok r.
Proof.
  induction n as [z|op lev b|op lev l IH] using node_ind'; intros r H W N; try discriminate.
  simpl in H. inv_bind. inv H. unfold defok. apply wf_seq in W. destruct W as (W0 & W1 & W2).
  apply (no_const_seq op lev) in N.
  assert (Q : Forall (fun e => no_const e /\ wf e) a /\ (lev = 0 -> Forall is_lit a)).
  { revert a Ha. induction l as [|x l IHl]; intros a Ha; simpl in Ha; [inv Ha; split; constructor|].
    inv_bind. inv Ha. inversion IH; inversion W2; inversion N; subst.
    destruct (IHl) with (a := a1) as (Q1 & Q2); auto.
    { intros e. specialize (W1 e). inversion W1; auto. }
    destruct x as [z|o lv b|o lv xs].
    - inv Ha0. split; [constructor; auto; split; [exact Logic.I|]|].
      + simpl in *. destruct (s =? Z.abs z); lia.
      + intros e. constructor; auto; exact Logic.I.
    - simpl in *. tauto.
    - destruct (Z.eqb_spec lev 0) as [E|E]; [discriminate|].
        destruct (H1 _ Ha0) as (A & B & C); auto. split; [constructor; auto|]. intros; lia. }
  destruct Q as (Q1 & Q2). split; [exact Logic.I|]. split.
  - apply (no_const_seq op lev). eapply Forall_impl; [|exact Q1]. simpl; tauto.
  - apply wf_seq. split; auto. split; auto. eapply Forall_impl; [|exact Q1]. simpl; tauto.
Qed.

(** The first element of a definition (ph 280-282), read with the sides of [F] exchanged. *)
Definition flips (F : list Z) (v : point) : point := fold_left flip F v.
Definition headed (F : list Z) (n n' : node) : Prop :=
  exists h h', first_element n = Ok h /\ first_element n' = Ok h' /\ surfs h' = surfs h /\ forall v, eval (flips F v) h' = eval v h.
Lemma headed_refl n : defok n -> headed [] n n.
Proof. destruct n as [z|op lev b|op lev l]; intros (A & B & _); try contradiction. do 2 eexists. split; [reflexivity|]. split; [reflexivity|]. split; reflexivity. Qed.
Lemma headed_trans F G a b c : headed F a b -> headed G b c -> headed (F ++ G) a c.
Proof.
  intros (h & h1 & A & B & S1 & E1) (h1' & h2 & B' & C & S2 & E2). rewrite B in B'. injection B' as <-.
  exists h, h2. repeat split; auto; [congruence|]. intros v. unfold flips. rewrite fold_left_app. fold (flips F v). rewrite <- E1. apply E2.
Qed.
Lemma css_head s n r : 0 < s -> change_surf_sign s n = Ok r -> defok n -> headed [s] n r.
Proof.
  intros P H (A & B & C). destruct n as [z|op lev b|op lev l]; try contradiction.
  assert (HF : exists r', change_surf_sign s (Seq AND lev (firstn 1 l)) = Ok r' /\ first_element r = Ok r').
  { cbn [change_surf_sign] in H. inv_bind. inv H. cbn [first_element]. destruct l as [|x l]; cbn [mapM] in Ha; [inv Ha; cbn; eauto|].
    inv_bind. inv Ha. cbn [change_surf_sign mapM firstn]. rewrite Ha0. cbn [bind]. eauto. }
  destruct HF as (r' & H1 & H2). exists (Seq AND lev (firstn 1 l)), r'. repeat split; auto; [eapply css_surfs; eauto|].
  intros v. cbn [flips fold_left]. apply wf_seq in C. destruct C as (W0 & W1 & W2). apply no_const_seq in B.
  assert (W : wf (Seq AND lev (firstn 1 l))).
  { apply wf_seq. split; [exact W0|]. split; [intros Q; specialize (W1 Q); destruct W1; cbn; auto|destruct W2; cbn; auto]. }
  eapply css_eval; eauto. apply wf_nz; auto.
Qed.

(** ** The table of surfaces *)
Definition look (ix : Z) (t : list (Z * list nat)) : list nat :=
  match lookup ix t with Some l => l | None => [] end.
Lemma look_add ix jx i t : look ix (tab_add jx i t) = if ix =? jx then look ix t ++ [i] else look ix t.
Proof.
  unfold look. induction t as [|[k l] t IH]; simpl.
  - rewrite Z.eqb_sym. destruct (ix =? jx); auto.
  - destruct (Z.eqb_spec k jx) as [->|N]; simpl.
    + rewrite (Z.eqb_sym ix jx). destruct (Z.eqb_spec jx ix); auto.
    + destruct (Z.eqb_spec k ix) as [->|N2]; auto.
      destruct (Z.eqb_spec ix jx); [congruence|auto].
Qed.
Lemma look_fold ix i l : forall t, NoDup l ->
  look ix (fold_left (fun t jx => tab_add jx i t) l t) = look ix t ++ (if existsb (Z.eqb ix) l then [i] else []).
Proof.
  induction l as [|jx l IH]; intros t ND; simpl; [rewrite app_nil_r; auto|].
  inversion ND; subst. rewrite IH by auto. rewrite look_add. destruct (Z.eqb_spec ix jx) as [->|N]; simpl; auto.
  assert (existsb (Z.eqb jx) l = false) as ->; [|rewrite app_nil_r; auto].
  destruct (existsb (Z.eqb jx) l) eqn:E; auto. apply existsb_exists in E. destruct E as (y & Hy & E).
  apply Z.eqb_eq in E. subst. contradiction.
Qed.

(** cells that use a surface *)
Definition uses (ix : Z) (c : cell) : bool := has_id c && existsb (Z.eqb ix) (surfs (def c)).
Fixpoint positions (P : cell -> bool) (i : nat) (cs : list cell) : list nat :=
  match cs with
  | [] => []
  | c :: r => (if P c then [i] else []) ++ positions P (S i) r
  end.
Lemma look_table ix cs : forall i t, look ix (tab_cells i cs t) = look ix t ++ positions (uses ix) i cs.
Proof.
  induction cs as [|c cs IH]; intros i t; simpl; [rewrite app_nil_r; auto|].
  rewrite IH. unfold uses at 2. destruct (has_id c); simpl; [|auto].
  rewrite look_fold by apply surfs_nodup. rewrite <- app_assoc. auto.
Qed.
Lemma flip_surface_look t ix cs : flip_surface t ix cs = flip_all ix (look ix t) cs.
Proof. unfold flip_surface, look. destruct (lookup ix t); auto. Qed.
Lemma positions_S P : forall cs i, positions P (S i) cs = map S (positions P i cs).
Proof. induction cs as [|c cs IH]; intros i; simpl; auto. rewrite IH, map_app. destruct (P c); auto. Qed.
Lemma flip_all_S ix : forall is c cs, flip_all ix (map S is) (c :: cs) = do r <- flip_all ix is cs; Ok (c :: r).
Proof.
  induction is as [|i is IH]; intros c cs; simpl; auto.
  destruct (update_nth i (flip_cell ix) cs); simpl; auto.
Qed.
Lemma flip_all_map ix P : forall cs,
  flip_all ix (positions P 0 cs) cs = mapM (fun c => if P c then flip_cell ix c else Ok c) cs.
Proof.
  induction cs as [|c cs IH]; simpl; auto. rewrite positions_S. destruct (P c); simpl.
  - destruct (flip_cell ix c); simpl; auto. rewrite flip_all_S, IH. auto.
  - rewrite flip_all_S, IH. auto.
Qed.

(** ** Cells related by the writers: same fields, same surfaces *)
Record like (c c' : cell) : Prop := {
  lk_id : has_id c' = has_id c;
  lk_label : label c' = label c;
  lk_mat : mat c' = mat c;
  lk_void : isvoid c' = isvoid c;
  lk_surfs : surfs (def c') = surfs (def c) }.
Lemma like_refl c : like c c. Proof. constructor; auto. Qed.
Lemma like_trans a b c : like a b -> like b c -> like a c.
Proof. intros [] []. constructor; congruence. Qed.
Lemma F2_refl {A} (P : A -> A -> Prop) (H : forall a, P a a) l : Forall2 P l l.
Proof. induction l; auto. Qed.
Lemma F2_trans {A} (P Q R : A -> A -> Prop) : (forall a b c, P a b -> Q b c -> R a c) ->
  forall l m n, Forall2 P l m -> Forall2 Q m n -> Forall2 R l n.
Proof.
  intros H l m n A1. revert n. induction A1; intros n A2; inversion A2; subst; constructor; eauto.
Qed.
Lemma F2_impl {A B} (P Q : A -> B -> Prop) (H : forall a b, P a b -> Q a b) l m : Forall2 P l m -> Forall2 Q l m.
Proof. induction 1; auto. Qed.

Lemma positions_like ix : forall cs cs' i, Forall2 like cs cs' -> positions (uses ix) i cs = positions (uses ix) i cs'.
Proof.
  intros cs cs' i H. revert i. induction H as [|c c' cs cs' L F IH]; intros i; simpl; auto.
  rewrite IH. unfold uses. rewrite (lk_id _ _ L), (lk_surfs _ _ L). auto.
Qed.
Lemma flip_surface_spec cs0 cs ix : Forall2 like cs0 cs ->
  flip_surface (surface_table cs0) ix cs = mapM (fun c => if uses ix c then flip_cell ix c else Ok c) cs.
Proof.
  intros L. rewrite flip_surface_look. unfold surface_table. rewrite look_table. simpl.
  rewrite (positions_like _ _ _ _ L). apply flip_all_map.
Qed.

(** The relation kept by the loops: definitions with an id, read with the sides
    of [F] exchanged, are the same as before. *)
Definition flipped (F : list Z) (c c' : cell) : Prop :=
  like c c' /\ info c' = info c /\ comments c' = comments c /\
  (has_id c = false -> c' = c) /\
  (has_id c = true -> defok (def c) -> defok (def c') /\
     (forall v, eval (flips F v) (def c') = eval v (def c)) /\ headed F (def c) (def c')).

Lemma flip_notin v ix n : ~ In ix (surfs n) -> eval (flip v ix) n = eval v n.
Proof.
  intros H. apply eval_ext_surfs. intros x Hx. unfold flip. destruct (Z.eqb_spec x ix); [subst; contradiction|auto].
Qed.
Lemma flip_one ix c c' : 0 < ix -> (if uses ix c then flip_cell ix c else Ok c) = Ok c' -> flipped [ix] c c'.
Proof.
  intros P. unfold uses, flip_cell. intros H. destruct (has_id c) eqn:ID; simpl in H; cycle 1.
  { inv H. unfold flipped. split; [apply like_refl|]. repeat (split; auto); congruence. }
  destruct (existsb (Z.eqb ix) (surfs (def c))) eqn:E.
  - inv_bind. inv H. unfold flipped. simpl. split; [constructor; simpl; auto; eapply css_surfs; eauto|].
    split; auto. split; auto. split; [congruence|]. intros _ (A & B & C). split; [eapply css_ok; eauto|].
    split; [intros v; eapply css_eval; eauto; apply wf_nz; auto|]. apply css_head; auto. repeat split; auto.
  - inv H. unfold flipped. split; [apply like_refl|]. split; auto. split; auto. split; auto. intros _ D. split; auto.
    assert (N : ~ In ix (surfs (def c'))).
    { intros I. assert (existsb (Z.eqb ix) (surfs (def c')) = true); [|congruence]. apply existsb_exists. exists ix. rewrite Z.eqb_refl. auto. }
    split; [intros v; simpl; apply flip_notin; exact N|]. destruct D as (D & D2 & _). destruct (def c') as [z|op lev b|op lev l]; try contradiction.
    do 2 eexists. repeat split; try reflexivity. intros v. cbn [flips fold_left]. apply flip_notin. intros J. apply N.
    destruct l as [|x l]; [destruct J|]. cbn [firstn] in J. apply surfs_spec in J. apply surfs_spec. destruct J as (z & J & Q). exists z. split; auto.
    simpl in *. rewrite app_nil_r in J. apply in_or_app. auto.
Qed.
Lemma flipped_refl c : flipped [] c c.
Proof. unfold flipped. split; [apply like_refl|]. split; auto. split; auto. split; auto. intros _ D. split; auto. split; auto. apply headed_refl, D. Qed.
Lemma flipped_trans F G a b c : flipped F a b -> flipped G b c -> flipped (F ++ G) a c.
Proof.
  intros (L1 & I1 & C1 & N1 & E1) (L2 & I2 & C2 & N2 & E2).
  split; [eapply like_trans; eauto|]. split; [congruence|]. split; [congruence|]. split.
  - intros H. rewrite N2, N1; auto. rewrite (lk_id _ _ L1). auto.
  - intros H D. destruct (E1 H D) as (D1 & V1 & K1). rewrite <- (lk_id _ _ L1) in H. destruct (E2 H D1) as (D2 & V2 & K2).
    split; auto. split; [|eapply headed_trans; eauto]. intros v. unfold flips. rewrite fold_left_app. fold (flips F v). rewrite <- V1. apply V2.
Qed.

Lemma mapM_F2 {A B} (f : A -> res B) l : forall l', mapM f l = Ok l' -> Forall2 (fun a b => f a = Ok b) l l'.
Proof. induction l as [|x l IH]; intros l' H; simpl in H; [inv H; auto|]. inv_bind. inv H. auto. Qed.
Lemma F2_like F cs cs' : Forall2 (flipped F) cs cs' -> Forall2 like cs cs'.
Proof. apply F2_impl. intros a b (H & _). auto. Qed.
Lemma F2_like_trans F cs0 cs cs' : Forall2 like cs0 cs -> Forall2 (flipped F) cs cs' -> Forall2 like cs0 cs'.
Proof. intros A B. eapply F2_trans; [|exact A|apply (F2_like F), B]. apply like_trans. Qed.

Lemma flip_surface_flipped cs0 cs ix cs' : 0 < ix -> Forall2 like cs0 cs ->
  flip_surface (surface_table cs0) ix cs = Ok cs' -> Forall2 (flipped [ix]) cs cs'.
Proof.
  intros P L H. rewrite (flip_surface_spec _ _ _ L) in H. apply mapM_F2 in H.
  eapply F2_impl; [|exact H]. intros a b E. eapply flip_one; eauto.
Qed.

(** ** The loops of simplify_planes *)
Definition normal (neg : vec -> bool) (u : vec) (s : surf geom) : surf geom :=
  match s with
  | Surf ix (GPlane p) => Surf ix (GPlane (if neg (axis p) then Plane u (pos p) (points p) else p))
  | _ => s
  end.
Definition is_neg (neg : vec -> bool) (s : surf geom) : bool :=
  match geo s with GPlane p => neg (axis p) | _ => false end.
Definition negs (neg : vec -> bool) (l : list (surf geom)) : list Z := map index (filter (is_neg neg) l).

Lemma fix_group_spec neg u cs0 : forall l cs l' cs', (forall s, In s l -> 0 < index s) -> Forall2 like cs0 cs ->
  fix_group (surface_table cs0) neg u l cs = Ok (l', cs') ->
  l' = map (normal neg u) l /\ Forall2 (flipped (negs neg l)) cs cs'.
Proof.
  induction l as [|[ix [p|k]] l IH]; intros cs l' cs' P L H; cbn [fix_group] in H.
  - inv H. split; auto. apply F2_refl. apply flipped_refl.
  - unfold negs. cbn [filter is_neg geo map normal]. destruct (neg (axis p)) eqn:N.
    + destruct (flip_surface _ _ _) as [c1|e|] eqn:E; try discriminate; cbn [bind] in H.
      assert (F1 : Forall2 (flipped [ix]) cs c1) by (eapply flip_surface_flipped; eauto; apply (P (Surf ix (GPlane p))); left; auto).
      destruct (fix_group _ _ _ _ _) as [[r c2]|e|] eqn:E2; try discriminate; cbn [bind] in H. inv H.
      destruct (IH c1 r cs') as (-> & F2); auto; [intros; apply P; right; auto|eapply F2_like_trans; eauto|].
      split; auto. cbn [map]. change (ix :: map index (filter (is_neg neg) l)) with ([ix] ++ negs neg l).
      eapply F2_trans; [|exact F1|exact F2]. apply flipped_trans.
    + destruct (fix_group _ _ _ _ _) as [[r c2]|e|] eqn:E2; try discriminate; cbn [bind] in H. inv H.
      destruct (IH cs r cs') as (-> & F2); auto. intros; apply P; right; auto.
  - unfold negs. cbn [filter is_neg geo map normal].
    destruct (fix_group _ _ _ _ _) as [[r c2]|e|] eqn:E2; try discriminate; cbn [bind] in H. inv H.
    destruct (IH cs r cs') as (-> & F2); auto. intros; apply P; right; auto.
Qed.

Definition is_opp (s : surf geom) : bool :=
  match geo s with
  | GPlane (Plane ax _ (Some (p1, p2, p3))) =>
      match points_to_coeffs p1 p2 p3 with Ok (a, _) => is_opposite a ax | _ => false end
  | _ => false
  end.
Definition opps (l : list (surf geom)) : list Z := map index (filter is_opp l).
Lemma fix_points_spec cs0 : forall l cs cs', (forall s, In s l -> 0 < index s) -> Forall2 like cs0 cs ->
  fix_points (surface_table cs0) l cs = Ok cs' -> Forall2 (flipped (opps l)) cs cs'.
Proof.
  induction l as [|[ix g] l IH]; intros cs cs' P L H; cbn [fix_points] in H.
  - inv H. apply F2_refl. apply flipped_refl.
  - assert (P' : forall s, In s l -> 0 < index s) by (intros; apply P; right; auto).
    destruct g as [[ax ps [[[p1 p2] p3]|]]|k]; unfold opps; cbn [filter is_opp geo map].
    + destruct (points_to_coeffs p1 p2 p3) as [[a d]|e|] eqn:E; try discriminate; cbn [bind] in H.
      destruct (is_opposite a ax).
      * destruct (flip_surface _ _ _) as [c1|e|] eqn:E1; try discriminate; cbn [bind] in H.
        assert (F1 : Forall2 (flipped [ix]) cs c1) by (eapply flip_surface_flipped; eauto; apply (P (Surf ix (GPlane (Plane ax ps (Some (p1, p2, p3)))))); left; auto).
        cbn [map index]. change (ix :: map index (filter is_opp l)) with ([ix] ++ opps l).
        eapply F2_trans; [apply flipped_trans|exact F1|]. apply IH; auto. eapply F2_like_trans; eauto.
      * cbn [bind] in H. apply IH; auto.
    + apply IH; auto.
    + apply IH; auto.
Qed.

Definition negX (a : vec) := negb_R (vx a).
Definition negY (a : vec) := negb_R (vy a).
Definition negZ (a : vec) := negb_R (vz a).
(** the normalised dictionary *)
Definition norm_key (k : key) (s : surf geom) : surf geom :=
  match k with
  | PX => normal negX (V 1 0 0) s
  | PY => normal negY (V 0 1 0) s
  | PZ => normal negZ (V 0 0 1) s
  | _ => s
  end.
Definition axis_flips (d : sdict geom) : list Z :=
  negs negX (group d PX) ++ negs negY (group d PY) ++ negs negZ (group d PZ).
Definition all_flips (three : bool) (d : sdict geom) : list Z :=
  axis_flips d ++ (if three then opps (group d PP) else []).

Lemma simplify_spec three st st' : (forall k s, In s (group (surfaces st) k) -> 0 < index s) ->
  simplify_planes three st = Ok st' ->
  Forall2 (flipped (all_flips three (surfaces st))) (cells st) (cells st') /\
  offset (surfaces st') = offset (surfaces st) /\ ids (surfaces st') = ids (surfaces st) /\
  number (surfaces st') = number (surfaces st) /\ last (surfaces st') = last (surfaces st) /\
  (forall k, group (surfaces st') k = map (norm_key k) (group (surfaces st) k)).
Proof.
  intros P H. unfold simplify_planes in H. set (d := surfaces st) in *. set (cs := cells st) in *.
  destruct (fix_group _ _ _ (group d PX) cs) as [[lx c1]|e|] eqn:E1; try discriminate; cbn [bind] in H.
  destruct (fix_group_spec _ _ _ _ _ _ _ (P PX) (F2_refl like like_refl cs) E1) as (-> & F1).
  pose proof (F2_like_trans _ _ _ _ (F2_refl like like_refl cs) F1) as L1.
  destruct (fix_group _ _ _ (group d PY) c1) as [[ly c2]|e|] eqn:E2; try discriminate; cbn [bind] in H.
  destruct (fix_group_spec _ _ _ _ _ _ _ (P PY) L1 E2) as (-> & F2).
  pose proof (F2_like_trans _ _ _ _ L1 F2) as L2.
  destruct (fix_group _ _ _ (group d PZ) c2) as [[lz c3]|e|] eqn:E3; try discriminate; cbn [bind] in H.
  destruct (fix_group_spec _ _ _ _ _ _ _ (P PZ) L2 E3) as (-> & F3).
  pose proof (F2_like_trans _ _ _ _ L2 F3) as L3.
  assert (F : Forall2 (flipped (axis_flips d)) cs c3).
  { unfold axis_flips. eapply F2_trans; [apply flipped_trans|exact F1|].
    eapply F2_trans; [apply flipped_trans|exact F2|exact F3]. }
  destruct (if three then _ else _) as [c4|e|] eqn:E4; try discriminate; cbn [bind] in H. inv H. simpl.
  split.
  - unfold all_flips. eapply F2_trans; [apply flipped_trans|exact F|]. destruct three.
    + eapply fix_points_spec; eauto.
    + inv E4. apply F2_refl. apply flipped_refl.
  - do 4 (split; [reflexivity|]). intros k. destruct k; simpl; auto using eq_sym, map_id.
Qed.
