(** C27: forceNoOverlap. *)
From Verif Require Import Prelude BoolSpec BoolSeq BoolProofs CtSpec Ctable NoOverlap NoOverlapSpec NoOverlapProofs NoOverlapProofs2.

Section C27.
Variable B : Type.
Variable meets : B -> B -> bool.

(** ** the new definitions, before their reduction *)
(** Every cell becomes the cell minus the cells before it.  [ps] lists the new definitions
    of all the cells but the first. *)
Theorem C27_minus_previous : forall metas ps all v,
  Forall built metas -> boxes_hold meets v metas -> new_defs B meets metas = Ok (ps, all) ->
  length ps = pred (length metas) /\
  forall i p, nth_error ps i = Some p -> eval v (fst p) = minus_previous v metas (S i).
Proof. intros metas ps all v G BX H. destruct (new_defs_spec _ _ v _ _ _ G BX H) as (P & _ & _ & Q). auto. Qed.

(** Hence no point is in two cells ... *)
Lemma minus_previous_disjoint v (ms : list (meta B)) i j : (i < j)%nat -> minus_previous v ms i = true -> minus_previous v ms j = true -> False.
Proof.
  intros L. unfold minus_previous. destruct (nth_error ms i) as [mi|] eqn:Ei; [|discriminate]. destruct (nth_error ms j) as [mj|]; [|discriminate]. intros Hi Hj.
  apply andb_prop in Hi as (Hi & _). apply andb_prop in Hj as (_ & Hj). apply negb_true_iff in Hj. assert (existsb (inside v) (firstn j ms) = true); [|congruence].
  apply existsb_exists. exists mi. split; auto. clear Hi Hj mj. revert i j L Ei. induction ms as [|m ms IH]; intros [|i] [|j] L Ei; try lia; try discriminate; cbn in *; [left; congruence|right; eapply IH; [|eauto]; lia].
Qed.
Theorem C27_disjoint : forall metas ps all v i j p q,
  Forall built metas -> boxes_hold meets v metas -> new_defs B meets metas = Ok (ps, all) ->
  nth_error ps i = Some p -> nth_error ps j = Some q -> i <> j -> eval v (fst p) = true -> eval v (fst q) = false.
Proof.
  intros metas ps all v i j p q G BX H Ei Ej N Hi. destruct (C27_minus_previous _ _ _ _ G BX H) as (_ & Q). rewrite (Q _ _ Ei) in Hi. rewrite (Q _ _ Ej). destruct (minus_previous v metas (S j)) eqn:Hj; auto. exfalso.
  destruct (Nat.lt_total i j) as [L|[L|L]]; [|contradiction|]; [apply (minus_previous_disjoint v metas (S i) (S j))|apply (minus_previous_disjoint v metas (S j) (S i))]; auto; lia.
Qed.
Theorem C27_disjoint_first : forall m r ps all v i p,
  Forall built (m :: r) -> boxes_hold meets v (m :: r) -> new_defs B meets (m :: r) = Ok (ps, all) ->
  nth_error ps i = Some p -> inside v m = true -> eval v (fst p) = false.
Proof.
  intros m r ps all v i p G BX H Ei Hi. destruct (C27_minus_previous _ _ _ _ G BX H) as (_ & Q). rewrite (Q _ _ Ei). destruct (minus_previous v (m :: r) (S i)) eqn:Hj; auto. exfalso.
  apply (minus_previous_disjoint v (m :: r) 0 (S i)); auto; [lia|]. unfold minus_previous. cbn. now rewrite Hi.
Qed.
(** ... and nothing is lost: a point of a cell is in one of the new cells. *)
Lemma minus_previous_ex v (ms : list (meta B)) : existsb (inside v) ms = true -> exists i, (i < length ms)%nat /\ minus_previous v ms i = true.
Proof.
  induction ms as [|m ms IH] using rev_ind; [discriminate|]. rewrite existsb_app, orb_true_iff. destruct (existsb (inside v) ms) eqn:E.
  - intros _. destruct (IH eq_refl) as (i & L & H). exists i. rewrite app_length. split; [lia|]. unfold minus_previous in *. rewrite nth_error_app1 by auto. rewrite firstn_app. replace (i - length ms)%nat with 0%nat by lia. cbn. rewrite app_nil_r. exact H.
  - intros [?|H]; [discriminate|]. cbn in H. rewrite orb_false_r in H. exists (length ms). rewrite app_length. split; [cbn; lia|]. unfold minus_previous. rewrite nth_error_app2, Nat.sub_diag by lia. cbn. rewrite firstn_app, Nat.sub_diag, firstn_all. cbn. now rewrite app_nil_r, E, H.
Qed.
Theorem C27_same_union : forall m r ps all v,
  Forall built (m :: r) -> boxes_hold meets v (m :: r) -> new_defs B meets (m :: r) = Ok (ps, all) ->
  inside v m || existsb (fun p => eval v (fst p)) ps = existsb (inside v) (m :: r).
Proof.
  intros m r ps all v G BX H. destruct (C27_minus_previous _ _ _ _ G BX H) as (L & Q). apply eq_true_iff_eq. split; intros X.
  - apply orb_true_iff in X as [X|X]; [cbn; now rewrite X|]. apply existsb_exists in X as (p & I & E). apply In_nth_error in I as (i & I). rewrite (Q _ _ I) in E. unfold minus_previous in E. cbn [nth_error] in E.
    destruct (nth_error r i) as [x|] eqn:Ex; [|discriminate]. apply andb_prop in E as (E & _). apply existsb_exists. exists x. split; auto. right. eapply nth_error_In; eauto.
  - destruct (minus_previous_ex v _ X) as (i & Li & E). destruct i as [|i]; [unfold minus_previous in E; cbn in E; rewrite andb_true_r in E; now rewrite E|].
    apply orb_true_iff. right. destruct (nth_error ps i) as [p|] eqn:Ep; [|apply nth_error_None in Ep; cbn in L, Li; lia]. apply existsb_exists. exists p. split; [eapply nth_error_In; eauto|]. now rewrite (Q _ _ Ep).
Qed.
(** The construction returns for every list of cells built by cellDef. *)
Theorem C27_returns : forall metas, metas <> [] -> Forall neat metas -> exists ps all, new_defs B meets metas = Ok (ps, all).
Proof. intros [|m r] N F; [contradiction|]. inversion F; subst. apply overlap_loop_total; auto. Qed.

(** ** the definitions written, after their reduction with the constraint tables *)
(** Full claim: for every run.  Proved: for the runs without the events of C05 and C14
    (the strict run, which is then the real one), at the points of the box of the cell:
    there each cell is what it was minus the cells before it. *)
Theorem C27_final_partial : forall k ord mk metas ds v,
  (forall m x, wf m -> In x (ord m) -> 0 < x) ->
  Forall built metas -> boxes_hold meets v metas ->
  no_overlapping_cell B meets true k ord mk metas = Ok ds ->
  no_overlapping_cell B meets false k ord mk metas = Ok ds /\ length ds = length metas /\
  forall i m d, nth_error metas i = Some m -> nth_error ds i = Some d ->
  (forall diag sl tb, mk (mbox m) diag sl = Ok tb -> regular tb /\ pos_keys tb /\ in_box tb v) ->
  match d with Some n => eval v n | None => false end = minus_previous v metas i.
Proof.
  intros k ord mk metas ds v OP G BX H. unfold no_overlapping_cell in *. destruct (new_defs B meets metas) as [(ps, all)|e|] eqn:EN; try discriminate. cbn [bind] in *.
  destruct (new_defs_spec _ _ v _ _ _ G BX EN) as (HL & SH & SM & Q). destruct metas as [|m0 r]; [discriminate|]. inversion SM as [|? a0 ? ar S0 SR]; subst.
  destruct (final_defs B true k ord mk ar ps) as [dr|e|] eqn:EF; try discriminate. cbn [bind] in H. injection H as <-.
  assert (LA : length ar = length r) by (clear -SR; induction SR; cbn; auto).
  split; [rewrite (final_strict _ _ _ _ _ _ _ EF); reflexivity|]. split; [cbn; f_equal; rewrite (final_length _ _ _ _ _ _ _ EF); [auto|cbn in HL; lia]|].
  intros [|i] m d Em Ed TB; cbn [nth_error] in *.
  - injection Em as ->. injection Ed as <-. unfold minus_previous. cbn. rewrite andb_true_r. destruct S0 as (_ & (_ & S0) & _). exact S0.
  - destruct (nth_error ps i) as [p|] eqn:Ep; [|apply nth_error_None in Ep; apply nth_error_Some in Em || idtac; assert (i < length r)%nat by (apply nth_error_Some; congruence); cbn in HL; lia].
    destruct (nth_error ar i) as [mi|] eqn:Ea; [|apply nth_error_None in Ea; assert (i < length r)%nat by (apply nth_error_Some; congruence); lia].
    rewrite <- (Q _ _ Ep).
    assert (SI : same B v m mi) by (clear -SR Em Ea; revert i Em Ea; induction SR as [|x y l l' S _ IH]; intros [|i] Em Ea; try discriminate; cbn in *; [congruence|eauto]).
    destruct SI as (_ & (SB & SI) & _). eapply (final_spec B k ord OP mk v ar ps dr EF SH i mi p d Ea Ep Ed); [|now rewrite SB].
    rewrite SI. cbn in EN. inversion G as [|? ? _ G2]; subst. pose proof (overlap_loop_none B meets v r [m0] ps _ G2 EN) as F2.
    clear -F2 Em Ep. revert i Em Ep. induction F2 as [|x y l l' S _ IH]; intros [|i] Em Ep; try discriminate; cbn in *; [injection Em as <-; injection Ep as <-; auto|eauto].
Qed.

(** ** what goes wrong *)
(** With enclosures in the model (their definition is built later) it stops. *)
Theorem C27_enclosure_refuted : forall strict k ord mk (m1 m2 : meta B), neat m1 -> mdef m2 = None ->
  no_overlapping_cell B meets strict k ord mk [m1; m2] = Err AttributeError /\
  (parts m1 <> [] \/ (exists lev l, mdef m1 = Some (Seq AND lev l)) -> no_overlapping_cell B meets strict k ord mk [m2; m1] = Err AttributeError).
Proof.
  intros strict k ord mk m1 m2 N E. split; [unfold no_overlapping_cell, new_defs, overlap_loop, overlap_cell; rewrite E; reflexivity|].
  intros X. unfold no_overlapping_cell, new_defs, overlap_loop, overlap_cell. destruct N as (d & ED & HD). rewrite ED in *.
  destruct d as [z|o lv b|[|] lv l]; try tauto; cbn [op_of bind].
  - destruct (conj_append_total (Seq AND 0 []) (copy (Seq AND lv l)) Logic.I) as (sub & ES). rewrite ES. cbn [bind all_comps]. unfold append_comp. destruct (gsv_total true _ HD) as (sc & ->). cbn [bind]. rewrite E. reflexivity.
  - destruct HD as (HL & T). destruct X as [X|(? & ? & X)]; [|discriminate]. destruct (parts m1) as [|b ps]; [contradiction|]. destruct l as [|e l]; [discriminate|]. inversion T as [|? ? T1 T2]; subst. cbn [part_defs].
    destruct (conj_append_total (Seq AND 0 []) (copy e) Logic.I) as (sub & ES). rewrite ES. cbn [bind all_comps]. unfold append_comp. destruct (gsv_total true _ T1) as (sc & ->). cbn [bind]. rewrite E. reflexivity.
Qed.
(** An empty model also. *)
Theorem C27_empty_refuted : forall strict k ord mk, no_overlapping_cell B meets strict k ord mk [] = Err IndexError.
Proof. reflexivity. Qed.
End C27.

(** Two cells: 1 between the planes 1 and 2, another one with two pieces, the first of
    which crosses it. *)
Definition mb (d : node) (n : nat) : meta unit := Meta (Some d) tt (repeat tt n).
Definition cell1 := mb (Seq OR 1 [Seq AND 0 [Lit 1; Lit (-2)]]) 1.
Definition cell2 := mb (Seq OR 2 [Seq AND 0 [Lit 3; Lit (-4)]; Seq AND 1 [Seq AND 0 [Lit 2; Lit 5]; Seq OR 0 [Lit 6; Lit 7]]]) 2.
Definition cross : unit -> unit -> bool := fun _ _ => true.
Definition loose (b : unit) (diag : bool) (sl : list Z) : res ctab :=
  CtBuild.build_ctable bool (fun s => (0, Some ([true], [false]))) (fun r s => (true, true)) diag sl.
Ltac tidy_t := split; [cbn; repeat split; try lia; try discriminate; intros; repeat constructor|split; [cbn; tauto|cbn; first [left; reflexivity|right; repeat constructor]]].
Ltac neat_t := eexists; split; [reflexivity|]; split; [reflexivity|]; repeat (apply Forall_cons; [tidy_t|]); apply Forall_nil.
Lemma cells_neat : Forall neat [cell1; cell2].
Proof.
  constructor; [neat_t|constructor; [neat_t|constructor]].
Qed.
Example C27_example :
  Forall neat [cell1; cell2] /\ Forall built [cell1; cell2] /\ (forall v, boxes_hold cross v [cell1; cell2]) /\
  (exists all, new_defs unit cross [cell1; cell2] = Ok ([(Seq OR 3 [Seq AND 1 [Seq AND 0 [Lit 3; Lit (-4)]; Seq OR 0 [Lit (-1); Lit 2]]; Seq AND 2 [Seq AND 1 [Seq AND 0 [Lit 2; Lit 5]; Seq OR 0 [Lit 6; Lit 7]]]], [true; false])], all)) /\
  (exists d1 d2, no_overlapping_cell unit cross true 20 PropsBool.ascending loose [cell1; cell2] = Ok [Some d1; Some d2]).
Proof.
  split; [exact cells_neat|]. split.
  - constructor; [|constructor; [|constructor]]; eexists; (split; [reflexivity|]); (split; [cbn; repeat split; try lia; try discriminate; intros; repeat constructor|]); (split; [reflexivity|]); repeat constructor.
  - split; [intros v m1 m2 p1 p2 _ _ _ _ _ _; reflexivity|]. split; [eexists; vm_compute; reflexivity|]. do 2 eexists. vm_compute. reflexivity.
Qed.

(** A cell inside another one: the surfaces of the outer cell do not cut its box, so
    nothing is left of it; then it stops instead of removing the cell. *)
Definition outer := mb (Seq OR 1 [Seq AND 0 [Lit 1; Lit (-2)]]) 1.
Definition inner := mb (Seq OR 1 [Seq AND 0 [Lit 3; Lit (-4)]]) 1.
(** 3 and 4 cut the box; 1 is positive and 2 negative in the whole box *)
Definition inner_table (b : unit) (diag : bool) (sl : list Z) : res ctab :=
  CtBuild.build_ctable bool (fun s => if s =? 1 then (1, None) else if s =? 2 then (-1, None) else (0, Some ([true], [false]))) (fun r s => (true, true)) diag sl.
Theorem C27_inner_cell_refuted : Forall neat [outer; inner] /\
  no_overlapping_cell unit cross false 20 PropsBool.ascending inner_table [outer; inner] = Err IndexError.
Proof.
  split; [|vm_compute; reflexivity].
  constructor; [neat_t|constructor; [neat_t|constructor]].
Qed.
(** Same for a cell one of whose pieces is inside another cell. *)
Definition inner2 := mb (Seq OR 1 [Seq AND 0 [Lit 3; Lit (-4)]; Seq AND 0 [Lit 5; Lit 6]]) 2.
Definition outer2 := mb (Seq OR 1 [Seq AND 0 [Lit 1; Lit (-2)]; Seq AND 0 [Lit 7; Lit 8]]) 2.
Definition inner2_table (b : unit) (diag : bool) (sl : list Z) : res ctab :=
  CtBuild.build_ctable bool (fun s => if s =? 1 then (1, None) else if s =? 3 then (-1, None) else (0, Some ([true], [false]))) (fun r s => (true, true)) diag sl.
Theorem C27_inner_piece_refuted :
  no_overlapping_cell unit cross false 20 PropsBool.ascending inner2_table [outer2; inner2] = Err IndexError.
Proof. vm_compute. reflexivity. Qed.
(** A piece that is a union is taken for an intersection by get_surf_value, and the cells
    keep overlapping. *)
Theorem C27_union_piece_refuted : exists m1 m2 t s all v,
  (forall v, boxes_hold cross v [m1; m2]) /\ new_defs unit cross [m1; m2] = Ok ([(t, s)], all) /\
  inside v m1 = true /\ eval v t = true.
Proof.
  exists (mb (Seq OR 1 [Seq OR 0 [Lit 1; Lit 2]]) 1), (mb (Seq OR 1 [Seq AND 0 [Lit (-1); Lit 3]]) 1). do 3 eexists. exists (fun x => negb (x =? 1)).
  split; [intros v m1 m2 p1 p2 _ _ _ _ _ _; reflexivity|]. split; [vm_compute; reflexivity|]. split; vm_compute; reflexivity.
Qed.

Print Assumptions C27_minus_previous.
Print Assumptions C27_disjoint.
Print Assumptions C27_disjoint_first.
Print Assumptions C27_same_union.
Print Assumptions C27_returns.
Print Assumptions C27_final_partial.
Print Assumptions C27_enclosure_refuted.
Print Assumptions C27_inner_cell_refuted.
