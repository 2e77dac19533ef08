(** Property C52: the decomposition of a solid into pieces. *)
From Coq Require Import QArith Qabs Permutation Sorting.Sorted Lqa.
From Verif Require Import Prelude Decomp DecompSpec DecompProofs DecompProofs2.

(** Full property: each place of the solids is in exactly one piece.  Missing (and
    refuted below): pieces of volume up to 0.01 are thrown away.

    Whatever the solids and the tools: the places of the solids are those of the
    pieces and of some pieces thrown away, of volume at most 0.01, each as many
    times. *)
Theorem C52_partition_partial : forall (Sh T : Type) (C : cad Sh T) op fuel lim solids pieces err,
  split_solid Sh T C op fuel lim solids = Ok (pieces, err) ->
  exists dropped, (forall p, In p dropped -> (vol C p <= 1 # 100)%Q) /\
    forall inside, splits_exactly C inside ->
    count inside solids = (count inside pieces + count inside dropped)%nat.
Proof.
  intros Sh T C op fuel lim solids pieces err H.
  destruct (solid_loop_ok Sh T C op (fun _ => O) fuel lim solids [] None pieces err H) as (dr & A & B).
  exists dr. split; auto. intros inside K. specialize (B inside K). rewrite !count_app in B. exact B.
Qed.

(** So a place of a piece is in the solid, and pieces of disjoint solids are disjoint. *)
Theorem C52_disjoint : forall (Sh T : Type) (C : cad Sh T) op fuel lim solids pieces err inside,
  split_solid Sh T C op fuel lim solids = Ok (pieces, err) -> splits_exactly C inside ->
  (forall p, In p pieces -> inside p = true -> exists s, In s solids /\ inside s = true) /\
  ((count inside solids <= 1)%nat -> (count inside pieces <= 1)%nat).
Proof.
  intros Sh T C op fuel lim solids pieces err inside H K.
  destruct (C52_partition_partial Sh T C op fuel lim solids pieces err H) as (dr & _ & B). specialize (B inside K). split; [|lia].
  intros p I E. assert (P : (0 < count inside pieces)%nat).
  { unfold count. assert (J : In p (filter inside pieces)) by (apply filter_In; auto). destruct (filter inside pieces); [destruct J|simpl; lia]. }
  unfold count in *. destruct (filter inside solids) as [|s l] eqn:F; [simpl in B; lia|].
  exists s. apply filter_In. rewrite F. left; auto.
Qed.

(** Cutting ends if slicing into several parts makes them smaller. *)
Theorem C52_ends : forall (Sh T : Type) (C : cad Sh T) op size fuel lim solids,
  shrinking C size -> (0 < fuel)%nat -> (forall s, In s solids -> (size s < fuel)%nat) ->
  split_solid Sh T C op fuel lim solids <> Fuel.
Proof. intros. eapply solid_loop_nofuel; eauto. Qed.

(** After the cut with planes, no group of parallel planes of a part cuts it. *)
Theorem C52_planes : forall (Sh T : Type) (C : cad Sh T) op tol fuel lim solids parts e,
  (2 <= lim)%nat ->
  ((1 # 1000000000000 <= split_tol op)%Q \/ scale_up op = false) /\ tol = split_tol op \/
    (split_tol op == 0)%Q /\ scale_up op = true /\ tol = (1 # 1000000000000)%Q ->
  split_planes Sh T C op fuel lim solids = Ok (parts, e) ->
  forall p g, In p parts -> In g (sort_planes Sh T C false (planes C p)) -> uncut C tol p g.
Proof.
  intros Sh T C op tol fuel lim solids parts e L HT H p g I G l E.
  eapply planes_simple; eauto. eapply bop_first; eauto.
Qed.
(** After the cut with the surfaces of one kind, no such surface of a part cuts it into
    parts of volume above 1e-9 that keep the volume. *)
Theorem C52_quadrics : forall (Sh T : Type) (C : cad Sh T) op tol fuel lim k solids err parts e,
  (2 <= lim)%nat ->
  ((1 # 1000000000000 <= split_tol op)%Q \/ scale_up op = false) /\ tol = split_tol op \/
    (split_tol op == 0)%Q /\ scale_up op = true /\ tol = (1 # 1000000000000)%Q ->
  quad_rounds Sh T C op fuel lim k solids [] err = Ok (parts, e) ->
  forall p t l, In p parts -> In t (quadrics C k p) -> slice C p [t] tol = Some l -> (0 < vol C p)%Q ->
  (forall q, In q l -> (1 # 1000000000 < vol C q)%Q) ->
  (length l <= 1)%nat \/ (vol C p * (1 # 100000) <= Qabs (vol C p - total C l))%Q.
Proof.
  intros Sh T C op tol fuel lim k solids err parts e L HT H p t l I J E PV BIG.
  destruct (quad_simple Sh T C op lim k fuel solids [] err parts e H p I) as [[]|N].
  destruct (Nat.leb_spec (length l) 1) as [S|S]; auto. right.
  destruct (leb_cases (vol C p * (1 # 100000)) (Qabs (vol C p - total C l))) as [(_ & V)|(_ & V)]; auto. exfalso.
  apply (N t J). exists l. split; [eapply bop_first; eauto|]. split; [intros Z; lra|].
  assert (FL : filter (fun q => negb (Qle_bool (vol C q) (1 # 1000000000))) l = l).
  { clear - BIG. induction l as [|q l IH]; simpl; auto. rewrite leb_false by (apply BIG; left; auto). simpl. rewrite IH; auto.
    intros; apply BIG; right; auto. }
  cbv zeta. rewrite FL. split; auto. unfold Qdiv. rewrite Qabs_Qmult, (Qabs_pos (/ vol C p)).
  - apply Qlt_shift_div_r; [auto|]. lra.
  - apply Qlt_le_weak, Qinv_lt_0_compat; auto.
Qed.

(** No warning for a single solid: the volume changes by at most one per cent. *)
Theorem C52_volume : forall (Sh T : Type) (C : cad Sh T) op fuel lim s pieces,
  additive C -> (0 < vol C s)%Q -> split_solid Sh T C op fuel lim [s] = Ok (pieces, 0) ->
  (Qabs (vol C s - total C pieces) <= vol C s * (1 # 100))%Q.
Proof.
  intros Sh T C op fuel lim s pieces AD PV H. unfold split_solid in H. cbn [solid_loop] in H.
  apply bind_ok in H. destruct H as ([ex e0] & R0 & H). apply bind_ok in H. destruct H as ([pc e1] & R1 & H).
  injection H as <- ->.
  pose proof (rounds_vol Sh T C _ (fc_vol Sh T C op AD lim) _ _ _ _ _ _ R0) as V. cbn [total] in V.
  destruct (component_vol Sh T C op fuel lim ex pc R1) as (K & NZ).
  assert (VE : (total C ex == vol C s)%Q) by lra. rewrite VE in K.
  unfold Qdiv in K. rewrite Qabs_Qmult, (Qabs_pos (/ vol C s)) in K by (apply Qlt_le_weak, Qinv_lt_0_compat; auto).
  change (Qabs (vol C s - total C pc) / vol C s <= 1 # 100)%Q in K.
  apply (Qmult_le_r _ _ (vol C s) PV) in K. rewrite (Qmult_comm _ (vol C s)), Qmult_div_r in K by lra. lra.
Qed.

(** The cells of the model: solids are replaced by their pieces, enclosures are left
    alone in the first call, and the warnings are the cells whose decomposition
    returned an error code. *)
Theorem C52_cells : forall (Sh T : Type) (C : cad Sh T) op fuel lim meta ms ms' w,
  decompose Sh T C op fuel lim meta 0 ms = Ok (ms', w) ->
  length ms' = length ms /\
  forall i encl ss, nth_error ms i = Some (encl, ss) -> exists ss', nth_error ms' i = Some (encl, ss') /\
    ((meta = true /\ encl = true) /\ ss' = ss /\ ~ In i w \/
     ~ (meta = true /\ encl = true) /\
     exists err, split_solid Sh T C op fuel lim ss = Ok (ss', err) /\ (In i w <-> err <> 0)).
Proof.
  intros Sh T C op fuel lim meta ms ms' w H.
  assert (K : forall ms i0 ms' w, decompose Sh T C op fuel lim meta i0 ms = Ok (ms', w) ->
    (forall j, In j w -> (i0 <= j)%nat) /\ length ms' = length ms /\
    forall i encl ss, nth_error ms i = Some (encl, ss) -> exists ss', nth_error ms' i = Some (encl, ss') /\
    ((meta = true /\ encl = true) /\ ss' = ss /\ ~ In (i0 + i)%nat w \/
     ~ (meta = true /\ encl = true) /\
     exists err, split_solid Sh T C op fuel lim ss = Ok (ss', err) /\ (In (i0 + i)%nat w <-> err <> 0))).
  { clear ms ms' w H. induction ms as [|[en s0] ms IH]; intros i0 ms' w H; cbn [decompose] in H.
    - injection H as <- <-. split; [intros ? []|]. split; auto. intros [|i] encl ss; discriminate.
    - destruct (meta && en) eqn:EM.
      + apply andb_true_iff in EM. apply bind_ok in H. destruct H as ([m1 w1] & R1 & H). injection H as <- <-.
        destruct (IH _ _ _ R1) as (A & B & D). split; [intros j J; specialize (A j J); lia|]. split; [simpl; congruence|].
        intros [|i] encl ss E; cbn [nth_error] in *.
        * injection E as <- <-. exists s0. split; auto. left. split; [tauto|]. split; auto. intros J. specialize (A _ J). lia.
        * replace (i0 + S i)%nat with (S i0 + i)%nat by lia. apply D; auto.
      + apply bind_ok in H. destruct H as ([pc e] & R0 & H). apply bind_ok in H. destruct H as ([m1 w1] & R1 & H). injection H as <- <-.
        destruct (IH _ _ _ R1) as (A & B & D).
        assert (IN : forall j, In j (if e =? 0 then w1 else i0 :: w1) <-> In j w1 \/ j = i0 /\ e <> 0).
        { intros j. destruct (Z.eqb_spec e 0); simpl; intuition. }
        split; [|split; [simpl; congruence|]].
        * intros j J. apply IN in J. destruct J as [J|(-> & _)]; [specialize (A j J); lia|lia].
        * intros [|i] encl ss E; cbn [nth_error] in *.
          { injection E as <- <-. exists pc. split; auto. right. split; [intros (-> & ->); discriminate|]. exists e. split; auto.
            rewrite IN. rewrite Nat.add_0_r. split; [intros [J|J]; [specialize (A _ J); lia|tauto]|auto]. }
          { replace (i0 + S i)%nat with (S i0 + i)%nat by lia. destruct (D i encl ss E) as (ss' & N & Q). exists ss'. split; auto.
            assert (NE : (S i0 + i)%nat <> i0) by lia.
            destruct Q as [(Q1 & Q2 & Q3)|(Q1 & er & Q2 & Q3)].
            - left. split; auto. split; auto. rewrite IN. tauto.
            - right. split; auto. exists er. split; auto. rewrite IN. tauto. } }
  destruct (K ms O ms' w H) as (_ & A & B). split; auto.
Qed.

(** The planes used for cutting are those found, each once, the small groups first. *)
Theorem C52_order : forall (Sh T : Type) (C : cad Sh T) srt l,
  Permutation (concat (sort_planes Sh T C srt l)) l /\
  StronglySorted (fun a b => length a <= length b)%nat (sort_planes Sh T C srt l).
Proof. intros. split; [apply sort_planes_perm|apply sort_planes_sorted]. Qed.

(** Tolerances: the result of a cut is that of one slice, after at most 24 trials,
    if the scale is not turned or the tolerance given is 0 or at least 1e-13. *)
Theorem C52_tolerance_partial : forall (Sh T : Type) (C : cad Sh T) op lim s tools,
  scale_up op = false \/ (split_tol op == 0)%Q \/ (1 # 10000000000000 <= split_tol op)%Q -> (24 <= lim)%nat ->
  exists tol, bop Sh T C op lim s tools = match slice C s tools tol with Some l => Ok l | None => Err ValueError end.
Proof. intros. destruct (bop_ends Sh T C op lim s tools) as (tol & E); eauto. Qed.
(** Below, the tolerance goes up and down for ever (uf 605-608: RecursionError), whatever
    the kernel can do. *)
Theorem C52_tolerance_refuted : forall (Sh T : Type) (C : cad Sh T) op lim s tools,
  scale_up op = true -> ~ (split_tol op == 0)%Q -> (split_tol op < 1 # 10000000000000)%Q ->
  bop Sh T C op lim s tools = Err ValueError.
Proof.
  intros Sh T C op lim s tools U Z L. unfold bop. apply bop_stuck; auto.
  - destruct (Qeq_bool (split_tol op) 0) eqn:E; auto. apply Qeq_bool_iff in E. congruence.
  - lra.
Qed.

(* ------------------------------------------------------------------ *)
(** * A kernel on a line *)

(** Shapes are intervals (a, b] of thousandths, tools are positions. *)
Definition line_cut (t : Z) (l : list (Z * Z)) : list (Z * Z) :=
  flat_map (fun s => if (fst s <? t) && (t <? snd s) then [(fst s, t); (t, snd s)] else [s]) l.
Definition line_vol (s : Z * Z) : Q := (snd s - fst s) # 1000.
Definition line_cad (pl : Z * Z -> list Z) (fc : Z * Z -> option (Z * list Z)) (qd : kind -> Z * Z -> list Z)
    (ex : Z * Z -> list Z) : cad (Z * Z) Z :=
  Cad line_vol (fun s ts _ => Some (fold_left (fun l t => line_cut t l) ts [s])) pl
      (fun p q => (p - q) mod 2 =? 0) (fun _ p => inject_Z p) fc qd ex.
Definition line_in (x : Z) (s : Z * Z) : bool := (fst s <? x) && (x <=? snd s).
Lemma line_cut_count x t l : count (line_in x) (line_cut t l) = count (line_in x) l.
Proof.
  unfold line_cut. induction l as [|s l IH]; auto. cbn [flat_map]. rewrite count_app, IH.
  change (s :: l) with ([s] ++ l). rewrite (count_app _ (line_in x) [s] l). f_equal.
  destruct ((fst s <? t) && (t <? snd s)) eqn:E; auto. unfold count, line_in. simpl.
  destruct (Z.ltb_spec (fst s) x), (Z.leb_spec x t), (Z.ltb_spec t x), (Z.leb_spec x (snd s)); simpl; auto; lia.
Qed.
Lemma line_exact pl fc qd ex x : splits_exactly (line_cad pl fc qd ex) (line_in x).
Proof.
  intros s ts tol l H. cbn in H. injection H as <-.
  assert (K : forall ts l, count (line_in x) (fold_left (fun l t => line_cut t l) ts l) = count (line_in x) l).
  { clear. induction ts as [|t ts IH]; intros l; simpl; auto. rewrite IH. apply line_cut_count. }
  rewrite K. unfold count. simpl. destruct (line_in x s); auto.
Qed.
Definition line_size (s : Z * Z) : nat := Z.to_nat (snd s - fst s).
Lemma line_shrinking pl fc qd ex : shrinking (line_cad pl fc qd ex) line_size.
Proof.
  intros s ts tol l p H I. cbn in H. injection H as <-.
  assert (K : forall ts l, (forall q, In q l -> fst s <= fst q /\ snd q <= snd s) ->
     l = [s] \/ (forall q, In q l -> (line_size q < line_size s)%nat) ->
     let l' := fold_left (fun l t => line_cut t l) ts l in
     (forall q, In q l' -> fst s <= fst q /\ snd q <= snd s) /\ (l' = [s] \/ (forall q, In q l' -> (line_size q < line_size s)%nat))).
  { clear. induction ts as [|t ts IH]; intros l A B; cbn [fold_left]; [auto|]. apply IH.
    - intros q I. unfold line_cut in I. apply in_flat_map in I. destruct I as (r & J & I). specialize (A r J).
      destruct ((fst r <? t) && (t <? snd r)) eqn:E; [destruct I as [<-|[<-|[]]]; simpl; lia|destruct I as [<-|[]]; auto].
    - destruct B as [->|B].
      + unfold line_cut. simpl. destruct ((fst s <? t) && (t <? snd s)) eqn:E; [|auto]. right.
        intros q [<-|[<-|[]]]; unfold line_size; simpl; lia.
      + right. intros q I. unfold line_cut in I. apply in_flat_map in I. destruct I as (r & J & I). specialize (A r J). specialize (B r J).
        destruct ((fst r <? t) && (t <? snd r)) eqn:E; [destruct I as [<-|[<-|[]]]; unfold line_size in *; simpl; lia|destruct I as [<-|[]]; auto]. }
  destruct (K ts [s]) as (A & B); auto.
  - intros q [<-|[]]. lia.
  - set (l' := fold_left (fun l t => line_cut t l) ts [s]) in *. destruct B as [B|B].
    + rewrite B in *. destruct I as [<-|[]]. split; auto. simpl. lia.
    + specialize (B p I). lia.
Qed.
Definition opts : options := Options true 0 2.

(** A solid is cut by planes at 400 and 700 and by a cylinder at 200: four pieces. *)
Definition ex_cad : cad (Z * Z) Z :=
  line_cad (fun _ => [400; 700]) (fun _ => None) (fun k _ => match k with KCyl => [200] | _ => [] end) (fun _ => []).
Example C52_ex : split_solid (Z * Z) Z ex_cad opts 2000 50 [(0, 1000); (2000, 3000)] =
    Ok ([(400, 700); (700, 1000); (0, 200); (200, 400); (2000, 3000)], 0) /\
  (forall x, splits_exactly ex_cad (line_in x)) /\ shrinking ex_cad line_size.
Proof. split; [vm_compute; reflexivity|]. split; [intros x; apply line_exact|apply line_shrinking]. Qed.

(** A piece of volume 0.005 is thrown away and no warning is given: the code of the
    next base overwrites that of the base that lost it (do 846). *)
Definition lost_cad : cad (Z * Z) Z :=
  line_cad (fun _ => [1000]) (fun _ => None) (fun _ _ => []) (fun s => if fst s =? 0 then [5] else []).
Theorem C52_lost_refuted : exists pieces,
  split_solid (Z * Z) Z lost_cad opts 3000 50 [(0, 2000)] = Ok (pieces, 0) /\
  (forall x, splits_exactly lost_cad (line_in x)) /\
  count (line_in 3) [(0, 2000)] = 1%nat /\ count (line_in 3) pieces = 0%nat.
Proof.
  eexists. split; [vm_compute; reflexivity|]. split; [intros x; apply line_exact|]. split; reflexivity.
Qed.
(** A whole solid of a cell of two solids is lost, again without a warning: the code
    returned is that of the last solid (do 944-952). *)
Definition lost2_cad : cad (Z * Z) Z :=
  line_cad (fun _ => []) (fun _ => None) (fun _ _ => []) (fun s => if fst s =? 0 then [8] else []).
Theorem C52_warning_refuted : 
  split_solid (Z * Z) Z lost2_cad opts 3000 50 [(0, 15); (100, 1100)] = Ok ([(100, 1100)], 0) /\
  decompose (Z * Z) Z lost2_cad opts 3000 50 true 0 [(false, [(0, 15); (100, 1100)])] = Ok ([(false, [(100, 1100)])], []) /\
  split_solid (Z * Z) Z lost2_cad opts 3000 50 [(0, 15)] = Ok ([], 6).
Proof. split; [|split]; vm_compute; reflexivity. Qed.
(** A cell with no solid, or with one of volume 0, stops the conversion. *)
Theorem C52_empty_refuted :
  split_solid (Z * Z) Z ex_cad opts 3000 50 [] = Err UnboundLocal /\
  split_solid (Z * Z) Z ex_cad opts 3000 50 [(5, 5)] = Err ZeroDivision.
Proof. split; vm_compute; reflexivity. Qed.

(** The contracts are met by the kernel on a line. *)
Lemma line_additive pl fc qd ex : additive (line_cad pl fc qd ex).
Proof.
  intros s ts tol l H. cbn in H. injection H as <-. set (C := line_cad pl fc qd ex).
  assert (A : forall t l, (total C (line_cut t l) == total C l)%Q).
  { intros t l. unfold line_cut. induction l as [|r l IH]; cbn [flat_map]; [reflexivity|]. rewrite total_app, IH. cbn [total].
    destruct ((fst r <? t) && (t <? snd r)); cbn [total]; [|lra].
    cbn [vol C line_cad]. unfold line_vol. cbn [fst snd].
    setoid_replace (snd r - fst r # 1000)%Q with ((t - fst r # 1000) + (snd r - t # 1000))%Q; [lra|]. unfold Qeq, Qplus. cbn [Qnum Qden]. lia. }
  assert (K : forall ts l, (total C (fold_left (fun l t => line_cut t l) ts l) == total C l)%Q).
  { clear s ts tol. induction ts as [|t ts IH]; intros l; cbn [fold_left]; [reflexivity|]. rewrite IH. apply A. }
  rewrite K. cbn [total]. cbn [vol C line_cad]. lra.
Qed.
(** A kernel that raises below a tolerance of 1e-5, with the default options, with a
    tolerance of 1e-8, and with one of 1e-14. *)
Definition stiff_cad : cad (Z * Z) Z :=
  Cad line_vol (fun s ts tol => if Qle_bool (1 # 100000) tol then Some (fold_left (fun l t => line_cut t l) ts [s]) else None)
    (fun _ => []) (fun _ _ => true) (fun _ p => inject_Z p) (fun _ => None) (fun _ _ => []) (fun _ => []).
Example C52_tolerance_ex :
  bop (Z * Z) Z stiff_cad opts 1000 (0, 100) [50] = Ok [(0, 50); (50, 100)] /\
  bop (Z * Z) Z stiff_cad (Options true (1 # 100000000) 0) 1000 (0, 100) [50] = Ok [(0, 50); (50, 100)] /\
  bop (Z * Z) Z stiff_cad (Options true (1 # 100000000000000) 0) 1000 (0, 100) [50] = Err ValueError.
Proof. repeat split; vm_compute; reflexivity. Qed.
