(** The points of RVertex.plane_intersect are exactly the corners of RVertexSpec. *)
From Coq Require Import QArith Qreals.
From Verif Require Import Prelude BoolSpec Vec3 Prim PrimProofs RBox RBoxSpec RBoxProofs RPlanes RPlaneSpec RVertex RVertexSpec RVertexProofs RVertexGeo.
Open Scope R_scope.

Lemma is_zero_true d : is_zero Rops d = true <-> d = vzero.
Proof.
  unfold is_zero. rewrite !andb_true_iff, !neq0_true. cbn. split.
  - intros ((A & B) & C). destruct d; cbn in *; subst; reflexivity.
  - intros ->. cbn. auto.
Qed.
Lemma plane_plane_spec p q : match plane_plane Rops p q with
  | None => cross (pl_axis p) (pl_axis q) = vzero
  | Some (x, d) => d = cross (pl_axis p) (pl_axis q) /\ d <> vzero /\ on p x /\ on q x end.
Proof.
  unfold plane_plane. change (gcross Rops) with cross. cbn [pax ppos Rops]. set (d := cross (pl_axis p) (pl_axis q)). destruct (is_zero Rops d) eqn:E.
  - now apply is_zero_true.
  - assert (D : d <> vzero) by (intros Z; apply is_zero_true in Z; congruence). split; auto. split; auto.
    pose proof (dot_pos d D) as DP. change (gdot Rops) with dot. cbn [ndiv nq Rops]. rewrite q1.
    change (gscale Rops) with vscale. change (gadd Rops) with vadd. unfold on, pl_dist.
    assert (X : dot d d = dot (pl_axis p) (cross (pl_axis q) d)). { unfold d. destruct (pl_axis p), (pl_axis q); unfold dot, cross; cbn; ring. }
    assert (Y : dot d d = dot (pl_axis q) (cross d (pl_axis p))). { unfold d. destruct (pl_axis p), (pl_axis q); unfold dot, cross; cbn; ring. }
    assert (X0 : dot (pl_axis p) (cross d (pl_axis p)) = 0). { destruct (pl_axis p), d; unfold dot, cross; cbn; ring. }
    assert (Y0 : dot (pl_axis q) (cross (pl_axis q) d) = 0). { destruct (pl_axis q), d; unfold dot, cross; cbn; ring. }
    assert (L : forall n k a b u w x, dot n (vsub (vscale k (vadd (vscale a u) (vscale b w))) x) = k * (a * dot n u + b * dot n w) - dot n x). { intros. unfold dot, vsub, vscale, vadd; cbn; ring. }
    split; rewrite L.
    + rewrite X0, <- X. field. lra.
    + rewrite Y0, <- Y. field. lra.
Qed.
Lemma line_plane_spec x d p : match line_plane Rops (x, d) p with
  | None => dot (pl_axis p) d = 0
  | Some v => dot (pl_axis p) d <> 0 /\ on p v /\ exists t, v = walk x t d end.
Proof.
  unfold line_plane. cbn [fst snd pax ppos Rops]. change (gdot Rops) with dot. destruct (neq0 Rops (dot (pl_axis p) d)) eqn:E.
  - now apply neq0_true.
  - apply neq0_false in E. split; auto. split; [|eexists; reflexivity]. change (gadd Rops) with vadd. change (gscale Rops) with vscale. change (gsub Rops) with vsub. cbn [ndiv Rops].
    fold (walk x (dot (pl_axis p) (vsub (pl_pos p) x) / dot (pl_axis p) d) d). unfold on. rewrite dist_walk. unfold pl_dist. assert (Y : dot (pl_axis p) (vsub x (pl_pos p)) = - dot (pl_axis p) (vsub (pl_pos p) x)) by (unfold dot, vsub; cbn; ring). rewrite Y. field. exact E.
Qed.
Lemma between_true a x b : between Rops a x b = true <-> a <= x <= b.
Proof. unfold between. rewrite andb_true_iff; cbn. rewrite !rleb_true. reflexivity. Qed.
Lemma box_has_true b p : box_has Rops b p = true <-> in_box b p.
Proof. unfold box_has, in_box. rewrite !andb_true_iff, !between_true. cbn. tauto. Qed.
Lemma indep_rot p q r : indep p q r -> indep q r p.
Proof. unfold indep. intros H Z. apply H. rewrite <- Z. destruct (pl_axis p), (pl_axis q), (pl_axis r); unfold dot, cross; cbn; ring. Qed.
Lemma indep_swap p q r : indep p q r -> indep q p r.
Proof. unfold indep. intros H Z. apply H. replace 0 with (- 0) by ring. rewrite <- Z. destruct (pl_axis p), (pl_axis q), (pl_axis r); unfold dot, cross; cbn; ring. Qed.
Lemma indep_ne p q r : indep p q r -> p <> q.
Proof. intros H ->. apply H. destruct (pl_axis q), (pl_axis r); unfold dot, cross; cbn; ring. Qed.
Lemma on_walk p x t d : on p x -> dot (pl_axis p) d = 0 -> on p (walk x t d).
Proof. unfold on. intros A B. rewrite dist_walk, A, B. ring. Qed.
Lemma cross_l a b : dot a (cross a b) = 0.
Proof. destruct a, b; unfold dot, cross; cbn; ring. Qed.
Lemma cross_r a b : dot b (cross a b) = 0.
Proof. destruct a, b; unfold dot, cross; cbn; ring. Qed.

Definition at3 (p q r : pl) (v : vec) : Prop := indep p q r /\ on p v /\ on q v /\ on r v.
Lemma at3_rot p q r v : at3 p q r v -> at3 q r p v.
Proof. unfold at3. intuition auto using indep_rot. Qed.
Lemma at3_swap p q r v : at3 p q r v -> at3 q p r v.
Proof. unfold at3. intuition auto using indep_swap. Qed.
Lemma at3_line p q r v : at3 p q r v -> exists l, plane_plane Rops p q = Some l /\ line_plane Rops l r = Some v.
Proof.
  intros (D & A1 & A2 & A3). pose proof (plane_plane_spec p q) as H. destruct (plane_plane Rops p q) as [[x d]|].
  - destruct H as (-> & N & B1 & B2). exists (x, cross (pl_axis p) (pl_axis q)). split; auto.
    pose proof (line_plane_spec x (cross (pl_axis p) (pl_axis q)) r) as K. destruct (line_plane _ _ _) as [w|].
    + destruct K as (K & C & t & ->). f_equal. eapply meet_unique; [exact D|..]; auto; apply on_walk; auto using cross_l, cross_r.
    + elim D. rewrite <- K. unfold dot; ring.
  - elim D. rewrite H. unfold dot, vzero; cbn; ring.
Qed.
Lemma line_at3 p q r l v : plane_plane Rops p q = Some l -> line_plane Rops l r = Some v -> at3 p q r v.
Proof.
  intros P L. pose proof (plane_plane_spec p q) as H. rewrite P in H. destruct l as [x d]. destruct H as (-> & N & B1 & B2).
  pose proof (line_plane_spec x (cross (pl_axis p) (pl_axis q)) r) as K. rewrite L in K. destruct K as (K & C & t & ->).
  split; [|split; [apply on_walk; auto using cross_l|split; [apply on_walk; auto using cross_r|exact C]]].
  unfold indep. intros Z. apply K. rewrite <- Z. unfold dot; ring.
Qed.
Lemma triple_points_in b p q l from v : plane_plane Rops p q = Some l ->
  (In v (triple_points Rops b l from) <-> in_box b v /\ exists r, In r from /\ at3 p q r v).
Proof.
  intros P. unfold triple_points. rewrite filter_In, box_has_true, in_flat_map. split.
  - intros ((r & R1 & R2) & B). split; auto. exists r. split; auto. destruct (line_plane Rops l r) as [w|] eqn:L; [|destruct R2]. destruct R2 as [<-|[]]. eapply line_at3; eauto.
  - intros (B & r & R1 & R2). split; auto. exists r. split; auto. destruct (at3_line _ _ _ _ R2) as (l' & P' & L). rewrite P in P'. injection P' as <-. rewrite L. now left.
Qed.

(** ** the points without the faces *)
Lemma in_skipn {A} k (x : A) l : In x (skipn k l) -> In x l.
Proof. revert l. induction k; intros l H; auto. destruct l; [destruct H|]. right. auto. Qed.
Lemma in_tl {A} (x : A) l : In x (tl l) -> In x l.
Proof. destruct l; auto. intros; now right. Qed.
Lemma skipn_tl {A} k (l : list A) : skipn k (tl l) = skipn (S k) l.
Proof. destruct l; cbn; auto. now rewrite skipn_nil. Qed.
Lemma skipn_S_in {A} k (x : A) l : In x (skipn (S k) l) -> In x (skipn k l).
Proof. revert l. induction k; intros l H; [apply in_tl; exact H|]. destruct l; [destruct H|]. cbn in *. apply IHk. exact H. Qed.
Lemma pairs_free_in b p1 p2 p3 v a c from : at3 p1 p2 p3 v -> in_box b v -> In p3 (skipn (List.length a) from) -> In v (pairs_free Rops b p1 (a ++ p2 :: c) from).
Proof.
  intros T B. revert from. induction a as [|q a IH]; intros from I; cbn [app pairs_free List.length] in *.
  - destruct (at3_line _ _ _ _ T) as (l & P & L). rewrite P. apply in_or_app. left. eapply triple_points_in; eauto.
  - destruct (plane_plane Rops p1 q) as [l|].
    + apply in_or_app. right. apply IH. change (plane Rops) with pl. rewrite skipn_tl. exact I.
    + apply IH. now apply skipn_S_in.
Qed.
Lemma pairs_free_corner b p1 : forall p2s from v, In v (pairs_free Rops b p1 p2s from) -> exists p2 p3, In p2 p2s /\ In p3 from /\ at3 p1 p2 p3 v /\ in_box b v.
Proof.
  induction p2s as [|q r IH]; intros from v H; cbn in H; [destruct H|]. destruct (plane_plane Rops p1 q) as [l|] eqn:P.
  - apply in_app_or in H. destruct H as [H|H].
    + eapply triple_points_in in H; eauto. destruct H as (B & p3 & I & T). exists q, p3. cbn; auto.
    + apply IH in H. destruct H as (p2 & p3 & A & C & D). exists p2, p3. split; [now right|]. split; auto. now apply in_tl.
  - apply IH in H. destruct H as (p2 & p3 & A & C & D). exists p2, p3. split; [now right|]. auto.
Qed.
Lemma removelast_in {A} (x : A) l : In x (removelast l) -> In x l.
Proof. induction l as [|y [|z l] IH]; cbn in *; auto. intros [->|H]; auto. Qed.
Lemma removelast_split {A} (a : list A) x m y : removelast (a ++ x :: m ++ [y]) = a ++ x :: m.
Proof. change (x :: m ++ [y]) with ((x :: m) ++ [y]). rewrite app_assoc. apply removelast_last. Qed.
Lemma last_split {A} (l : list A) : l <> [] -> exists m y, l = m ++ [y].
Proof. intros H. destruct (exists_last H) as (m & y & E). exists m, y. exact E. Qed.
Lemma free_head b p1 p2 p3 a m v : at3 p1 p2 p3 v -> in_box b v -> In p3 m -> In v (inter_free Rops b (p1 :: a ++ p2 :: m)).
Proof.
  intros T B I. cbn [inter_free]. apply in_or_app. left. destruct (last_split m) as (m' & y & E); [intros ->; destruct I|].
  rewrite E at 1. change (plane Rops) with pl. rewrite removelast_split. eapply pairs_free_in; eauto. change (plane Rops) with pl. rewrite skipn_tl.
  replace (a ++ p2 :: m) with ((a ++ [p2]) ++ m) by (rewrite <- app_assoc; reflexivity). replace (S (List.length a)) with (List.length (a ++ [p2]))%nat by (rewrite app_length; cbn; lia).
  rewrite skipn_app, skipn_all, Nat.sub_diag. exact I.
Qed.
Lemma free_two b p q r t v : at3 p q r v -> in_box b v -> In q t -> In r t -> In v (inter_free Rops b (p :: t)).
Proof.
  intros T B Q R3. destruct (in_split _ _ Q) as (a & m & ->). apply in_app_or in R3. destruct R3 as [R3|[R3|R3]].
  - destruct (in_split _ _ R3) as (a1 & a2 & ->). rewrite <- app_assoc. cbn [app]. eapply free_head; [|exact B|apply in_or_app; right; left; reflexivity]. apply at3_rot, at3_swap. exact T.
  - subst r. exfalso. apply at3_rot in T. destruct T as (T & _). now apply indep_ne in T.
  - eapply free_head; eauto.
Qed.
Lemma inter_free_in b v ps : forall p q r, In p ps -> In q ps -> In r ps -> at3 p q r v -> in_box b v -> In v (inter_free Rops b ps).
Proof.
  induction ps as [|h t IH]; intros p q r P Q R3 T B; [destruct P|].
  assert (N1 : p <> q) by (destruct T as (T & _); now apply indep_ne in T).
  assert (N2 : q <> r) by (apply at3_rot in T; destruct T as (T & _); now apply indep_ne in T).
  assert (N3 : r <> p) by (apply at3_rot, at3_rot in T; destruct T as (T & _); now apply indep_ne in T).
  destruct P as [P|P]; [|destruct Q as [Q|Q]; [|destruct R3 as [R3|R3]]].
  - subst h. destruct Q as [Q|Q]; [congruence|]. destruct R3 as [R3|R3]; [congruence|]. eapply free_two; eauto.
  - subst h. destruct R3 as [R3|R3]; [congruence|]. apply (free_two b q p r); auto. now apply at3_swap.
  - subst h. apply (free_two b r p q); auto. now apply at3_rot, at3_rot.
  - cbn [inter_free]. apply in_or_app. right. exact (IH p q r P Q R3 T B).
Qed.
Lemma inter_free_corner b v ps : In v (inter_free Rops b ps) -> exists p q r, In p ps /\ In q ps /\ In r ps /\ at3 p q r v /\ in_box b v.
Proof.
  induction ps as [|h t IH]; cbn [inter_free]; [intros []|]. intros H. apply in_app_or in H. destruct H as [H|H].
  - apply pairs_free_corner in H. destruct H as (p2 & p3 & A & B & C). exists h, p2, p3. split; [now left|]. split; [right; now apply removelast_in|]. split; [right; now apply in_tl|]. exact C.
  - destruct (IH H) as (p & q & r & A & B & C & D). exists p, q, r. cbn; auto.
Qed.

(** ** the points on the faces *)
Lemma box_faces_eq b : box_faces Rops b = faces b.
Proof. unfold box_faces, faces. rewrite q0. cbn. unfold ex, ey, ez. rewrite q1. reflexivity. Qed.
Lemma face_side b f : In f (faces b) -> (forall x, in_box b x -> 0 <= pl_dist f x) \/ (forall x, in_box b x -> pl_dist f x <= 0).
Proof.
  unfold in_box, faces. intros [<-|[<-|[<-|[<-|[<-|[<-|[]]]]]]]; [left|right|left|right|left|right]; intros x H; unfold pl_dist, dot, vsub, ex, ey, ez; cbn; lra.
Qed.
Lemma faces_nodup b : solid_box b -> NoDup (faces b).
Proof.
  intros (A & B & C). unfold faces, ex, ey, ez. repeat constructor; cbn; intros H;
    repeat match goal with H : _ \/ _ |- _ => destruct H as [H|H] end; try contradiction; injection H; lra.
Qed.
Definition axes6 := [AX; AX; AY; AY; AZ; AZ].
Lemma hit_in_box b a f v : solid_box b -> In (a, f) (combine axes6 (faces b)) -> on f v -> (hit_ok Rops b a v = true <-> in_box b v).
Proof.
  unfold solid_box, in_box, on, faces. intros S. cbn [combine axes6 In].
  intros [H|[H|[H|[H|[H|[H|[]]]]]]]; injection H as <- <-; unfold pl_dist, dot, vsub, ex, ey, ez; cbn [pl_axis pl_pos vx vy vz]; intros E; unfold hit_ok; rewrite andb_true_iff, !between_true; cbn; lra.
Qed.
(** hits with their faces *)
Definition hits (b : bbox) (l : vec * vec) (fs : list (axis3 * pl)) : list (pl * vec) :=
  flat_map (fun af => match line_plane Rops l (snd af) with Some v => if hit_ok Rops b (fst af) v then [(snd af, v)] else [] | None => [] end) fs.
Lemma hit_loop_hits b l fs : forall pts, (List.length pts < 2)%nat -> (List.length pts + List.length (hits b l fs) <= 2)%nat ->
  hit_loop Rops b l fs pts = pts ++ map snd (hits b l fs).
Proof.
  induction fs as [|[a f] fs IH]; intros pts L H; cbn [hit_loop hits flat_map fst snd] in *; [now rewrite app_nil_r|].
  fold (hits b l fs) in *. change (plane Rops) with pl in *. change (vect Rops) with vec in *.
  destruct (line_plane Rops l f) as [v|]; [|apply IH; auto].
  destruct (hit_ok Rops b a v); cbn [app List.length map snd] in *.
  - rewrite app_length. cbn [List.length]. destruct (List.length pts + 1 =? 2)%nat eqn:E.
    + apply Nat.eqb_eq in E. assert (Z : List.length (hits b l fs) = 0%nat) by lia. apply length_zero_iff_nil in Z. rewrite Z. reflexivity.
    + apply Nat.eqb_neq in E. rewrite IH; rewrite ?app_length; cbn [List.length]; try lia. now rewrite <- app_assoc.
  - destruct (List.length pts =? 2)%nat eqn:E; [apply Nat.eqb_eq in E; lia|]. apply IH; auto.
Qed.
Lemma hits_in b l fs f v : In (f, v) (hits b l fs) <-> exists a, In (a, f) fs /\ line_plane Rops l f = Some v /\ hit_ok Rops b a v = true.
Proof.
  unfold hits. rewrite in_flat_map. split.
  - intros ([a g] & I & H). cbn [fst snd] in H. destruct (line_plane Rops l g) as [w|] eqn:L; [|destruct H]. destruct (hit_ok Rops b a w) eqn:K; [|destruct H]. destruct H as [E|[]]. injection E as -> ->. exists a. auto.
  - intros (a & I & L & K). exists (a, f). cbn [fst snd]. rewrite L, K. split; [auto|now left].
Qed.
Lemma hits_nodup b l fs : NoDup (map snd fs) -> NoDup (map fst (hits b l fs)).
Proof.
  induction fs as [|[a f] fs IH]; cbn [hits flat_map map fst snd]; intros H; [constructor|]. inversion H as [|? ? N D]; subst. fold (hits b l fs).
  assert (X : ~ In f (map fst (hits b l fs))). { intros I. apply N. apply in_map_iff in I. destruct I as ((g & v) & E & I). cbn in E. subst g. apply hits_in in I. destruct I as (a' & I & _). apply in_map_iff. exists (a', f). auto. }
  destruct (line_plane Rops l f) as [v|]; [|apply IH; auto]. destruct (hit_ok Rops b a v); cbn [app map fst]; [constructor; auto|auto].
Qed.
Lemma combine_snd b : map snd (combine axes6 (faces b)) = faces b.
Proof. reflexivity. Qed.
(** at most two hits *)
Lemma hits_two b p q l : solid_box b -> plane_plane Rops p q = Some l ->
  (forall f g v, In f (faces b) -> In g (faces b) -> f <> g -> indep p q f -> indep p q g -> in_box b v -> on p v -> on q v -> on f v -> on g v -> False) ->
  (List.length (hits b l (combine axes6 (faces b))) <= 2)%nat.
Proof.
  intros S P E. pose proof (plane_plane_spec p q) as PS. rewrite P in PS. destruct l as [x d]. destruct PS as (D & N & PX & QX).
  assert (ND : NoDup (map fst (hits b (x, d) (combine axes6 (faces b))))) by (apply hits_nodup; rewrite combine_snd; now apply faces_nodup).
  assert (H : forall f v, In (f, v) (hits b (x, d) (combine axes6 (faces b))) -> In f (faces b) /\ at3 p q f v /\ in_box b v /\
     exists t, v = walk x t d /\ ((forall s, in_box b (walk x s d) -> t <= s) \/ (forall s, in_box b (walk x s d) -> s <= t))).
  { intros f v I. apply hits_in in I. destruct I as (a & I & L & K). assert (FI : In f (faces b)) by (eapply in_combine_r; exact I). split; auto.
    pose proof (line_at3 _ _ _ _ _ P L) as T. split; auto. assert (OF : on f v) by apply T. apply (hit_in_box b a f v S I OF) in K. split; auto.
    pose proof (line_plane_spec x d f) as LS. rewrite L in LS. destruct LS as (KN & _ & t & ->). exists t. split; auto.
    assert (W : forall s, pl_dist f (walk x s d) = (s - t) * dot (pl_axis f) d). { intros s. unfold on in OF. rewrite dist_walk in *. lra. }
    destruct (face_side b f FI) as [F|F], (Rlt_or_le (dot (pl_axis f) d) 0) as [Z|Z].
    - right. intros s B. specialize (F _ B). rewrite W in F. nra.
    - left. intros s B. specialize (F _ B). rewrite W in F. nra.
    - left. intros s B. specialize (F _ B). rewrite W in F. nra.
    - right. intros s B. specialize (F _ B). rewrite W in F. nra. }
  assert (X : forall f v g w, In (f, v) (hits b (x, d) (combine axes6 (faces b))) -> In (g, w) (hits b (x, d) (combine axes6 (faces b))) -> f <> g -> v <> w).
  { intros f v g w A B FG VW. subst w. destruct (H _ _ A) as (A1 & (A2 & A3 & A4 & A5) & A6 & _). destruct (H _ _ B) as (B1 & (B2 & B3 & B4 & B5) & B6 & _). eapply E; eauto. }
  destruct (hits b (x, d) (combine axes6 (faces b))) as [|[f1 v1] [|[f2 v2] [|[f3 v3] r]]] eqn:EQ; cbn [List.length]; try lia. exfalso.
  cbn [map fst] in ND. inversion ND as [|? ? M1 ND1]; subst. inversion ND1 as [|? ? M2 ND2]; subst. cbn in M1, M2.
  destruct (H f1 v1) as (_ & _ & B1 & t1 & -> & K1); [cbn; auto|]. destruct (H f2 v2) as (_ & _ & B2 & t2 & -> & K2); [cbn; auto|]. destruct (H f3 v3) as (_ & _ & B3 & t3 & -> & K3); [cbn; auto|].
  assert (X12 : t1 <> t2). { intros Z. eapply X; [| |intros FG; apply M1; left; symmetry; exact FG|rewrite Z; reflexivity]; cbn; auto. }
  assert (X13 : t1 <> t3). { intros Z. eapply X; [| |intros FG; apply M1; right; left; symmetry; exact FG|rewrite Z; reflexivity]; cbn; auto. }
  assert (X23 : t2 <> t3). { intros Z. eapply X; [| |intros FG; apply M2; left; symmetry; exact FG|rewrite Z; reflexivity]; cbn; auto. }
  destruct K1 as [K1|K1], K2 as [K2|K2], K3 as [K3|K3];
    pose proof (K1 _ B2); pose proof (K1 _ B3); pose proof (K2 _ B1); pose proof (K2 _ B3); pose proof (K3 _ B1); pose proof (K3 _ B2); lra.
Qed.
Lemma line_boundary_in b p q l v : solid_box b -> plane_plane Rops p q = Some l ->
  (forall f g v, In f (faces b) -> In g (faces b) -> f <> g -> indep p q f -> indep p q g -> in_box b v -> on p v -> on q v -> on f v -> on g v -> False) ->
  (In v (line_boundary Rops b l) <-> in_box b v /\ exists f, In f (faces b) /\ at3 p q f v).
Proof.
  intros S P E. pose proof (hits_two b p q l S P E) as H2. unfold line_boundary. fold axes6. change (plane Rops) with pl. change (box_faces Rops b) with (box_faces Rops b : list pl). rewrite box_faces_eq.
  rewrite hit_loop_hits by (cbn [List.length]; lia). cbn [app]. rewrite in_map_iff. split.
  - intros ((f & w) & <- & I). apply hits_in in I. destruct I as (a & I & L & K). assert (T := line_at3 _ _ _ _ _ P L). cbn [snd]. split; [eapply hit_in_box; eauto; apply T|]. exists f. split; [eapply in_combine_r; exact I|auto].
  - intros (B & f & F & T). exists (f, v). split; auto. apply hits_in.
    assert (A : exists a, In (a, f) (combine axes6 (faces b))). { revert F. rewrite <- (combine_snd b) at 1. rewrite in_map_iff. intros ((a & g) & <- & I). exists a. exact I. }
    destruct A as (a & A). exists a. split; auto. destruct (at3_line _ _ _ _ T) as (l' & P' & L). rewrite P in P'. injection P' as <-. split; auto. apply (hit_in_box b a f v S A); auto. apply T.
Qed.
(** without condition, the hits are corners *)
Lemma hit_loop_sub b l fs : forall pts v, In v (hit_loop Rops b l fs pts) -> In v pts \/ In v (map snd (hits b l fs)).
Proof.
  induction fs as [|[a f] fs IH]; intros pts v H; cbn [hit_loop hits flat_map fst snd] in *; auto.
  fold (hits b l fs) in *. change (plane Rops) with pl in *. change (vect Rops) with vec in *.
  destruct (line_plane Rops l f) as [w|]; [|apply IH in H; tauto].
  destruct (hit_ok Rops b a w); cbn [app map snd] in *.
  - match type of H with In _ (if ?c then _ else _) => destruct c end; [|apply IH in H; destruct H as [H|H]; [|right; now right]]; apply in_app_or in H; destruct H as [H|[<-|[]]]; auto; right; now left.
  - match type of H with In _ (if ?c then _ else _) => destruct c end; auto.
Qed.
Lemma line_boundary_corner b p q l v : solid_box b -> plane_plane Rops p q = Some l -> In v (line_boundary Rops b l) -> in_box b v /\ exists f, In f (faces b) /\ at3 p q f v.
Proof.
  intros S P I. unfold line_boundary in I. fold axes6 in I. change (box_faces Rops b) with (box_faces Rops b : list pl) in I. rewrite box_faces_eq in I. apply hit_loop_sub in I. destruct I as [[]|I].
  apply in_map_iff in I. destruct I as ((f & w) & <- & I). apply hits_in in I. destruct I as (a & I & L & K). assert (T := line_at3 _ _ _ _ _ P L). cbn [snd]. split; [eapply hit_in_box; eauto; apply T|]. exists f. split; [eapply in_combine_r; exact I|auto].
Qed.
