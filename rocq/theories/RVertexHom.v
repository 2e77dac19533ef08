(** RVertex with rational numbers gives the same results as with real numbers. *)
From Coq Require Import QArith Qreals.
From Verif Require Import Prelude BoolSpec BoolSeq RBool Vec3 Prim PrimProofs RBox RBoxProofs RPlanes RVertex RVertexProofs.
Open Scope R_scope.

Definition fv (a : qvec) : vec := V (Q2R (qx a)) (Q2R (qy a)) (Q2R (qz a)).
Definition fp (p : qpl) : pl := PL (fv (qp_pos p)) (fv (qp_axis p)).
Definition fb (b : qbox) : bbox := BB (Q2R (qx0 b)) (Q2R (qy0 b)) (Q2R (qz0 b)) (Q2R (qx1 b)) (Q2R (qy1 b)) (Q2R (qz1 b)).
Definition fl (l : qvec * qvec) : vec * vec := (fv (fst l), fv (snd l)).
Definition rmap {A B} (f : A -> B) (r : res A) : res B := match r with Ok a => Ok (f a) | Err e => Err e | Fuel => Fuel end.

Ltac hc := cbn [nadd nsub nmul ndiv nle nq n0 mkv cx cy cz mkp ppos pax mkb bx0 by0 bz0 bx1 by1 bz1 Rops Qops fv fb fp vx vy vz qx qy qz qx0 qy0 qz0 qx1 qy1 qz1 xmin ymin zmin xmax ymax zmax pl_pos pl_axis].
Lemma red q : Q2R (Qred q) = Q2R q.
Proof. apply Qeq_eqR, Qred_correct. Qed.
Lemma h_add a b : Q2R (Qred (a + b)) = Q2R a + Q2R b.
Proof. now rewrite red, Q2R_plus. Qed.
Lemma h_sub a b : Q2R (Qred (a - b)) = Q2R a - Q2R b.
Proof. now rewrite red, Q2R_minus. Qed.
Lemma h_mul a b : Q2R (Qred (a * b)) = Q2R a * Q2R b.
Proof. now rewrite red, Q2R_mult. Qed.
Lemma h_div a b : Q2R b <> 0 -> Q2R (Qred (a / b)) = Q2R a / Q2R b.
Proof. intros H. rewrite red, Q2R_div; auto. intros E. apply H. apply Qeq_eqR in E. rewrite E. unfold Q2R; cbn. field. Qed.
Lemma h_le a b : rleb (Q2R a) (Q2R b) = Qle_bool a b.
Proof. destruct (Qle_bool a b) eqn:E. - apply rleb_true, Qle_Rle. now apply Qle_bool_iff. - apply rleb_false. apply Qlt_Rlt. apply Qnot_le_lt. intros L. apply Qle_bool_iff in L. congruence. Qed.
Lemma h_lt a b : nlt Rops (Q2R a) (Q2R b) = nlt Qops a b.
Proof. unfold nlt; hc. now rewrite h_le. Qed.
Lemma h_n0 : n0 Rops = Q2R (n0 Qops).
Proof. reflexivity. Qed.
Lemma h_neq0 a : neq0 Rops (Q2R a) = neq0 Qops a.
Proof. unfold neq0; hc. now rewrite !h_le. Qed.
Lemma h_dot a b : gdot Rops (fv a) (fv b) = Q2R (gdot Qops a b).
Proof. unfold gdot; hc. now rewrite !h_add, !h_mul. Qed.
Lemma h_cross a b : gcross Rops (fv a) (fv b) = fv (gcross Qops a b).
Proof. unfold gcross, fv; hc. now rewrite !h_sub, !h_mul. Qed.
Lemma h_gadd a b : gadd Rops (fv a) (fv b) = fv (gadd Qops a b).
Proof. unfold gadd, fv; hc. now rewrite !h_add. Qed.
Lemma h_gsub a b : gsub Rops (fv a) (fv b) = fv (gsub Qops a b).
Proof. unfold gsub, fv; hc. now rewrite !h_sub. Qed.
Lemma h_scale k a : gscale Rops (Q2R k) (fv a) = fv (gscale Qops k a).
Proof. unfold gscale, fv; hc. now rewrite !h_mul. Qed.
Lemma h_zero a : is_zero Rops (fv a) = is_zero Qops a.
Proof. unfold is_zero; hc. now rewrite !h_neq0. Qed.
Lemma h_plane_plane p q : plane_plane Rops (fp p) (fp q) = option_map fl (plane_plane Qops p q).
Proof.
  unfold plane_plane. cbn [pax ppos Rops Qops fp pl_axis pl_pos]. rewrite h_cross, h_zero. destruct (is_zero Qops _) eqn:E; [reflexivity|]. cbn [option_map]. f_equal. unfold fl; cbn [fst snd]. f_equal.
  rewrite !h_dot, !h_cross, !h_scale, h_gadd. cbn [nq ndiv Rops Qops]. rewrite <- h_div, h_scale; [reflexivity|].
  set (d := gcross Qops (qp_axis p) (qp_axis q)) in *. rewrite <- h_dot. assert (D : fv d <> vzero). { intros Z. rewrite <- h_zero in E. assert (X : is_zero Rops (fv d) = true); [|congruence]. rewrite Z. unfold is_zero. rewrite !andb_true_iff, !neq0_true. cbn. auto. }
  apply dot_pos in D. change (gdot Rops (fv d) (fv d)) with (dot (fv d) (fv d)). lra.
Qed.
Lemma h_line_plane l p : line_plane Rops (fl l) (fp p) = option_map fv (line_plane Qops l p).
Proof.
  unfold line_plane. cbn [pax ppos Rops Qops fp pl_axis pl_pos fl fst snd]. rewrite h_dot, h_neq0. destruct (neq0 Qops _) eqn:E; [reflexivity|]. cbn [option_map]. f_equal.
  rewrite h_gsub, h_dot. cbn [ndiv Rops Qops]. rewrite <- h_div, h_scale, h_gadd; [reflexivity|]. rewrite <- h_neq0 in E. now apply neq0_false.
Qed.
Lemma h_seg_plane l p : seg_plane Rops (fl l) (fp p) = option_map fv (seg_plane Qops l p).
Proof.
  unfold seg_plane. cbn [pax ppos Rops Qops fp pl_axis pl_pos fl fst snd]. rewrite h_gsub, h_dot, h_neq0. destruct (neq0 Qops _) eqn:E; [reflexivity|].
  rewrite h_gsub, h_dot. cbn [ndiv nle nq Rops Qops]. rewrite <- h_div by (rewrite <- h_neq0 in E; now apply neq0_false). rewrite h_n0, !h_le. cbn [nq Qops] in *. change (Q2R 1) with (Q2R 1). rewrite h_scale, h_gadd. destruct (_ && _)%bool; reflexivity.
Qed.
Lemma h_between a x b : between Rops (Q2R a) (Q2R x) (Q2R b) = between Qops a x b.
Proof. unfold between; hc. now rewrite !h_le. Qed.
Lemma h_box_has b p : box_has Rops (fb b) (fv p) = box_has Qops b p.
Proof. unfold box_has; hc. now rewrite !h_between. Qed.
Lemma h_box_points b : box_points Rops (fb b) = map fv (box_points Qops b).
Proof. reflexivity. Qed.
Lemma h_box_edges b : box_edges Rops (fb b) = map fl (box_edges Qops b).
Proof. reflexivity. Qed.
Lemma h_opt (x : option qvec) : opt_list (option_map fv x) = map fv (opt_list x).
Proof. destruct x; reflexivity. Qed.
Lemma flat_map_map {A B C} (f : B -> list C) (g : A -> B) l : flat_map f (map g l) = flat_map (fun x => f (g x)) l.
Proof. induction l; cbn; [reflexivity|now rewrite IHl]. Qed.
Lemma map_flat_map {A B C} (f : B -> C) (g : A -> list B) l : map f (flat_map g l) = flat_map (fun x => map f (g x)) l.
Proof. induction l; cbn; [reflexivity|now rewrite map_app, IHl]. Qed.
Lemma filter_map {A B} (f : A -> B) (p : B -> bool) l : filter p (map f l) = map f (filter (fun x => p (f x)) l).
Proof. induction l as [|x l IH]; cbn; [reflexivity|]. destruct (p (f x)); cbn; now rewrite IH. Qed.
Lemma h_triples b l ps : triple_points Rops (fb b) (fl l) (map fp ps) = map fv (triple_points Qops b l ps).
Proof.
  unfold triple_points. change (plane Rops) with pl. rewrite flat_map_map. 
  assert (E : flat_map (fun x => opt_list (line_plane Rops (fl l) (fp x))) ps = map fv (flat_map (fun p => opt_list (line_plane Qops l p)) ps)).
  { rewrite map_flat_map. apply flat_map_ext. intros p. rewrite h_line_plane. apply h_opt. }
  change (vect Rops) with vec in *. rewrite E, filter_map. f_equal. apply filter_ext. intros a. apply h_box_has.
Qed.
Lemma h_pairs b p1 : forall p2s from, pairs_free Rops (fb b) (fp p1) (map fp p2s) (map fp from) = map fv (pairs_free Qops b p1 p2s from).
Proof.
  induction p2s as [|q r IH]; intros from; cbn [pairs_free map]; [reflexivity|]. rewrite h_plane_plane. destruct (plane_plane Qops p1 q) as [l|]; cbn [option_map]; [|apply IH].
  rewrite map_app, h_triples. f_equal. rewrite <- IH. f_equal. destruct from; reflexivity.
Qed.
Lemma map_removelast {A B} (f : A -> B) l : removelast (map f l) = map f (removelast l).
Proof. induction l as [|x [|y l] IH]; [reflexivity..|]. cbn [map] in *. change (removelast (f x :: f y :: map f l)) with (f x :: removelast (f y :: map f l)). rewrite IH. reflexivity. Qed.
Lemma map_tl {A B} (f : A -> B) l : tl (map f l) = map f (tl l).
Proof. destruct l; reflexivity. Qed.
Lemma h_inter_free b ps : inter_free Rops (fb b) (map fp ps) = map fv (inter_free Qops b ps).
Proof.
  induction ps as [|p r IH]; cbn [inter_free map]; [reflexivity|]. rewrite IH, map_app. f_equal. change (plane Rops) with pl. rewrite map_removelast, map_tl. apply h_pairs.
Qed.
Lemma h_faces b : box_faces Rops (fb b) = map fp (box_faces Qops b).
Proof. reflexivity. Qed.
Lemma h_plane_boundary b p : plane_boundary Rops (fb b) (fp p) = map fv (plane_boundary Qops b p).
Proof.
  unfold plane_boundary. rewrite h_box_edges. change (vect Rops) with vec. rewrite flat_map_map, map_flat_map. apply flat_map_ext. intros s. rewrite h_seg_plane. apply h_opt.
Qed.
Lemma h_hit_ok b a p : hit_ok Rops (fb b) a (fv p) = hit_ok Qops b a p.
Proof. destruct a; unfold hit_ok; hc; now rewrite !h_between. Qed.
Lemma h_hit_loop b l fs : forall pts, hit_loop Rops (fb b) (fl l) (map (fun af => (fst af, fp (snd af))) fs) (map fv pts) = map fv (hit_loop Qops b l fs pts).
Proof.
  induction fs as [|[a f] fs IH]; intros pts; cbn [map hit_loop fst snd]; [reflexivity|]. rewrite h_line_plane. destruct (line_plane Qops l f) as [p|]; cbn [option_map]; [|apply IH].
  rewrite h_hit_ok. assert (E : (if hit_ok Qops b a p then map fv pts ++ [fv p] else map fv pts) = map fv (if hit_ok Qops b a p then pts ++ [p] else pts)). { destruct (hit_ok Qops b a p); [now rewrite map_app|reflexivity]. }
  change (vect Rops) with vec. change (vect Qops) with qvec in *. rewrite E, map_length. destruct (_ =? 2)%nat; [reflexivity|apply IH].
Qed.
Lemma h_line_boundary b l : line_boundary Rops (fb b) (fl l) = map fv (line_boundary Qops b l).
Proof. unfold line_boundary. rewrite <- h_hit_loop. reflexivity. Qed.
Lemma h_inter_cut b ps : inter_cut Rops (fb b) (map fp ps) = map fv (inter_cut Qops b ps).
Proof.
  induction ps as [|p r IH]; cbn [inter_cut map]; [reflexivity|]. rewrite IH, !map_app, h_plane_boundary. f_equal. f_equal. change (plane Rops) with pl. rewrite flat_map_map, map_flat_map. apply flat_map_ext. intros q.
  rewrite h_plane_plane. destruct (plane_plane Qops p q) as [l|]; cbn [option_map]; [|reflexivity]. rewrite map_app, h_line_boundary, map_tl, h_triples. reflexivity.
Qed.
Lemma h_intersect cut b ps : plane_intersect Rops cut (fb b) (map fp ps) = map fv (plane_intersect Qops cut b ps).
Proof. unfold plane_intersect. destruct cut; [rewrite map_app, h_inter_cut; reflexivity|apply h_inter_free]. Qed.
Lemma h_coord a p : coord Rops a (fv p) = Q2R (coord Qops a p).
Proof. destruct a; reflexivity. Qed.
Lemma h_ins a p l : ins Rops a (fv p) (map fv l) = map fv (ins Qops a p l).
Proof. induction l as [|q r IH]; cbn [ins map]; [reflexivity|]. rewrite !h_coord. cbn [nle Rops Qops]. rewrite h_le. destruct (Qle_bool _ _); cbn [map]; [reflexivity|]. now rewrite IH. Qed.
Lemma h_sorted a l : sorted Rops a (map fv l) = map fv (sorted Qops a l).
Proof. unfold sorted. induction l as [|q r IH]; cbn [fold_right map]; [reflexivity|]. rewrite IH. apply h_ins. Qed.
Lemma h_near p q : near Rops (fv p) (fv q) = near Qops p q.
Proof. unfold near. rewrite h_gsub, h_dot. apply h_lt. Qed.
Lemma h_thin l : forall p, thin Rops (fv p) (map fv l) = map fv (thin Qops p l).
Proof. induction l as [|q r IH]; intros p; cbn [thin map]; [reflexivity|]. rewrite h_near. destruct (near Qops p q); [apply IH|]. cbn [map]. now rewrite IH. Qed.
Lemma h_remove_close l : remove_close Rops (map fv l) = map fv (remove_close Qops l).
Proof. unfold remove_close. change (vect Rops) with vec. change (vect Qops) with qvec. rewrite <- map_rev. destruct (rev l) as [|p r]; [reflexivity|]. rewrite map_rev. cbn [map]. rewrite <- h_thin. reflexivity. Qed.
Lemma h_sort_point a l : sort_point Rops a (map fv l) = map fv (sort_point Qops a l).
Proof. unfold sort_point. rewrite h_sorted. apply h_remove_close. Qed.
Lemma h_keep a v lo l : keep Rops a (Q2R v) lo (map fv l) = map fv (keep Qops a v lo l).
Proof. induction l as [|p r IH]; cbn [keep map]; [reflexivity|]. rewrite h_coord, !h_lt. destruct (if lo then _ else _); [reflexivity|]. cbn [map]. now rewrite IH. Qed.
Lemma h_remove_points a v lo l : remove_points Rops a (Q2R v) lo (map fv l) = map fv (remove_points Qops a v lo l).
Proof. unfold remove_points. change (vect Rops) with vec. rewrite <- map_rev. apply h_keep. Qed.
Definition fd (d : list (Z * qpl)) : list (Z * pl) := map (fun zp => (fst zp, fp (snd zp))) d.
Section Part.
  Variable tol : Q.
  Variable planes : list (Z * qpl).
  Variable def : node.
  Lemma h_sides x : point_sides Rops (Q2R tol) (fd planes) (fv x) = point_sides Qops tol planes x.
  Proof.
    unfold point_sides, fd. change (plane Rops) with pl. rewrite flat_map_map. apply flat_map_ext. intros (z & p). cbn [fst snd pax ppos Rops Qops fp pl_axis pl_pos]. rewrite h_gsub, h_dot. cbn [nsub Rops Qops]. rewrite h_n0, <- h_sub, !h_lt. reflexivity.
  Qed.
  Lemma h_inside x bin : is_inside Rops (Q2R tol) (fd planes) def (fv x) bin = is_inside Qops tol planes def x bin.
  Proof. unfold is_inside. now rewrite h_sides. Qed.
  Lemma h_count l : count_in Rops (Q2R tol) (fd planes) def (map fv l) = count_in Qops tol planes def l.
  Proof. induction l as [|p r IH]; cbn [count_in map]; [reflexivity|]. now rewrite h_inside, IH. Qed.
  Lemma h_orientation u : box_orientation Rops (Q2R tol) (fd planes) def (fb u) = box_orientation Qops tol planes def u.
  Proof. unfold box_orientation. now rewrite h_box_points, h_count. Qed.
  Lemma h_first bin l : first_in Rops (Q2R tol) (fd planes) def bin (map fv l) = rmap (option_map (fun pb => (fv (fst pb), snd pb))) (first_in Qops tol planes def bin l).
  Proof.
    induction l as [|p r IH]; cbn [first_in map]; [reflexivity|]. rewrite h_inside. destruct (is_inside Qops tol planes def p bin) as [[]| |]; cbn [bind rmap]; try reflexivity.
    destruct r; [reflexivity|]. exact IH.
  Qed.
  Lemma h_axis bin a l : axis_limits Rops (Q2R tol) (fd planes) def bin a (map fv l) = rmap (fun r => (map Q2R (fst r), map fv (snd r))) (axis_limits Qops tol planes def bin a l).
  Proof.
    unfold axis_limits. rewrite h_sort_point, h_first. destruct (first_in Qops _ _ _ _ _) as [[[p f]|]| |]; cbn [rmap bind option_map fst snd]; try reflexivity.
    rewrite h_coord, h_remove_points, h_first. destruct (first_in Qops _ _ _ _ _) as [[[q g]|]| |]; cbn [rmap bind option_map fst snd]; try reflexivity.
    rewrite h_coord, h_remove_points, map_app. destruct f, g; reflexivity.
  Qed.
  Lemma h_limits bin l : limits Rops (Q2R tol) (fd planes) def bin (map fv l) = rmap (option_map fb) (limits Qops tol planes def bin l).
  Proof.
    unfold limits. change (vect Rops) with vec. change (vect Qops) with qvec. rewrite map_length. destruct (List.length l <? 6)%nat; [reflexivity|].
    rewrite h_axis. destruct (axis_limits Qops tol planes def bin AX l) as [[lx l1]| |]; cbn [rmap bind fst snd]; try reflexivity.
    rewrite h_axis. destruct (axis_limits Qops tol planes def bin AY l1) as [[ly l2]| |]; cbn [rmap bind fst snd]; try reflexivity.
    rewrite h_axis. destruct (axis_limits Qops tol planes def bin AZ l2) as [[lz l3]| |]; cbn [rmap bind fst snd]; try reflexivity.
    change (num Rops) with R. change (num Qops) with Q in *. rewrite <- !map_app. cbn [num Qops Rops] in *. remember (lx ++ ly ++ lz) as L eqn:EL. clear EL. destruct L as [|x0 [|x1 [|y0 [|y1 [|z0 [|z1 [|? ?]]]]]]]; try reflexivity. cbn [map].
    cbn [nsub nq Rops Qops].
    rewrite <- !h_sub, !h_lt. destruct (_ || _ || _)%bool; reflexivity.
  Qed.
  Lemma h_dget z : dget z (fd planes) = option_map fp (dget z planes).
  Proof. clear. unfold fd. induction planes as [|[k p] r IH]; cbn; [reflexivity|]. destruct (k =? z)%Z; auto. Qed.
  Lemma h_part out univ order : part_box Rops (Q2R tol) (fd planes) def (fb out) (fb univ) order = rmap (fun r => (option_map fb (fst r), snd r)) (part_box Qops tol planes def out univ order).
  Proof.
    unfold part_box. rewrite h_orientation. destruct (box_orientation Qops tol planes def univ) as [g| |]; cbn [rmap bind]; try reflexivity.
    assert (E : mapM (fun z => match dget z (fd planes) with Some p => Ok p | None => Err KeyError end) order = rmap (map fp) (mapM (fun z => match dget z planes with Some p => Ok p | None => Err KeyError end) order)).
    { induction order as [|z r IH]; cbn [mapM]; [reflexivity|]. rewrite h_dget. destruct (dget z planes); cbn [option_map bind rmap]; [|reflexivity]. rewrite IH. set (m := mapM _ r). destruct m; reflexivity. }
    change (plane Rops) with pl. change (plane Qops) with qpl. rewrite E. set (m := mapM _ order). destruct m as [ps| |]; cbn [rmap bind]; try reflexivity.
    assert (C : forall bin (t : side_of), (do r <- limits Rops (Q2R tol) (fd planes) def bin (plane_intersect Rops true (fb out) (map fp ps)); Ok (r, t)) = rmap (fun r => (option_map fb (fst r), snd r)) (do r <- limits Qops tol planes def bin (plane_intersect Qops true out ps); Ok (r, t))).
    { intros bin t. rewrite h_intersect, h_limits. destruct (limits Qops _ _ _ bin _) as [r| |]; reflexivity. }
    assert (F : forall bin (t : side_of), (do r <- limits Rops (Q2R tol) (fd planes) def bin (plane_intersect Rops false (fb out) (map fp ps)); match r with Some b => Ok (Some b, t) | None => (do r <- limits Rops (Q2R tol) (fd planes) def bin (plane_intersect Rops true (fb out) (map fp ps)); Ok (r, t)) end) = rmap (fun r => (option_map fb (fst r), snd r)) (do r <- limits Qops tol planes def bin (plane_intersect Qops false out ps); match r with Some b => Ok (Some b, t) | None => (do r <- limits Qops tol planes def bin (plane_intersect Qops true out ps); Ok (r, t)) end)).
    { intros bin t. rewrite C. rewrite h_intersect, h_limits. destruct (limits Qops tol planes def bin (plane_intersect Qops false out ps)) as [[b|]| |]; reflexivity. }
    destruct g; [apply F|apply F|apply C].
  Qed.
End Part.
Lemma h_part_planes (planes : list (Z * qpl)) ids : part_planes (fd planes) ids = fd (part_planes planes ids).
Proof. unfold part_planes, fd at 2. rewrite map_flat_map. apply flat_map_ext. intros z. rewrite h_dget. destruct (dget z planes); reflexivity. Qed.
(** the component box, from a computation with rational numbers *)
Theorem component_q tol out univ order planes n : component (Q2R tol) (fb out) (fb univ) order (fd planes) n =
  rmap (fun r => mk_box (option_map fb (fst r)) (snd r)) (part_box Qops tol (part_planes planes (order n)) n out univ (order n)).
Proof.
  unfold component. rewrite h_part_planes, h_part. destruct (part_box Qops _ _ _ _ _ _) as [[b s]| |]; reflexivity.
Qed.

(** orientation of a cell *)
Fixpoint qorient_count (tol : Q) (planes : list (Z * qpl)) (l : list qvec) (n : node) : res (nat * node) :=
  match l with
  | [] => Ok (0%nat, n)
  | p :: r =>
      do (v, n1) <- revaluate (point_sides Qops tol planes p) n;
      do (k, n2) <- qorient_count tol planes r n1;
      Ok (match v with Some false => k | _ => S k end, n2)
  end.
Lemma h_orient_count tol planes : forall l n, orient_count (Q2R tol) (fd planes) (map fv l) n = qorient_count tol planes l n.
Proof.
  induction l as [|p l IH]; intros n; cbn [orient_count qorient_count map]; [reflexivity|]. rewrite h_sides. destruct (revaluate _ n) as [[v n1]| |]; cbn [bind]; [now rewrite IH|reflexivity..].
Qed.
Theorem cell_orientation_q tol planes U n : cell_orientation (Q2R tol) (fd planes) (fb U) n =
  (do (k, n') <- qorient_count tol planes (box_points Qops U) n;
   Ok (if (k =? 8)%nat then ORev else if (k =? 0)%nat then OFwd else OUnd, n')).
Proof. unfold cell_orientation. rewrite h_box_points, h_orient_count. reflexivity. Qed.

(** a cell with planes only *)
Definition table := list (Z * (qvec * Q)).
Definition surf_of (t : table) (z : Z) : option prim := option_map (fun nd => PPlane (fv (fst nd)) (Q2R (snd nd))) (dget z t).
Definition qplane (nd : qvec * Q) : qpl := QP (gscale Qops (snd nd) (fst nd)) (fst nd).
Fixpoint qdict (t : table) (signed : list Z) (d : list (Z * qpl)) : list (Z * qpl) :=
  match signed with
  | [] => d
  | s :: r => qdict t r (match dget (Z.abs s) t with Some nd => dset (Z.abs s) (qplane nd) d | None => d end)
  end.
Definition known (t : table) (s : Z) : bool := match dget (Z.abs s) t with Some nd => Qeq_bool (gdot Qops (fst nd) (fst nd)) 1 | None => false end.
Lemma fd_dset k p d : dset k (fp p) (fd d) = fd (dset k p d).
Proof. induction d as [|[k' q] d IH]; cbn; [reflexivity|]. destruct (k' =? k)%Z; cbn; [reflexivity|]. f_equal. exact IH. Qed.
Lemma mk_unit_q (n : qvec) q : Qeq_bool (gdot Qops n n) 1 = true -> mk_plane q (fv n) = Ok (PL q (fv n)).
Proof.
  intros H. apply Qeq_bool_iff, Qeq_eqR in H. rewrite <- h_dot in H. change (gdot Rops (fv n) (fv n)) with (dot (fv n) (fv n)) in H.
  assert (L : vlen (fv n) = 1). { unfold vlen. rewrite H. unfold Q2R; cbn. rewrite Rinv_1, Rmult_1_l. apply sqrt_1. }
  unfold mk_plane, normalize. rewrite L. destruct (Req_EM_T 1 0); [lra|]. cbn [bind]. do 2 f_equal. apply vec_eq; unfold vscale; cbn; field.
Qed.
Lemma quadric_q t o signed : signed <> [] -> forallb (known t) signed = true ->
  quadric_to_plane (surf_of t) o signed = Ok (QS (fd (qdict t signed [])) [] (fold_right Z.max 0%Z (map Z.abs signed) + 1)%Z).
Proof.
  intros N K. unfold quadric_to_plane. destruct signed as [|s r]; [now elim N|]. generalize (fold_right Z.max 0%Z (map Z.abs (s :: r)) + 1)%Z. intros nx. revert K. change (@nil (Z * pl)) with (fd []). generalize (@nil (Z * qpl)). generalize (s :: r). clear.
  induction l as [|z l IH]; intros d K; cbn [foldM qdict forallb] in *; [reflexivity|]. apply andb_prop in K. destruct K as (K & KL).
  unfold q_step. unfold surf_of at 1. unfold known in K. destruct (dget (Z.abs z) t) as [[n c]|]; [|discriminate]. cbn [option_map fst snd] in *.
  rewrite (mk_unit_q n _ K). cbn [bind q_planes q_entries q_next].
  assert (E : PL (vscale (Q2R c) (fv n)) (fv n) = fp (qplane (n, c))). { unfold fp, qplane. cbn [qp_pos qp_axis fst snd]. f_equal. rewrite <- h_scale. reflexivity. }
  rewrite E, fd_dset. apply IH. exact KL.
Qed.
