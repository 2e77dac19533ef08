(** Proofs about the literal editing functions, complement totality and the
    surface inventory. *)
From Verif Require Import Prelude BoolSpec BoolSeq BoolEdit BoolProofs BoolProofs2 BoolTotal BoolTotal2.

(** Meaning of a definition when literal [z] is given the value [f z]. *)
Fixpoint eval_with (f : Z -> bool) (n : node) : bool :=
  match n with
  | Lit z => f z
  | Cst _ _ b => b
  | Seq AND _ l => forallb (eval_with f) l
  | Seq OR _ l => existsb (eval_with f) l
  end.

Lemma forallb_ext_in {A} (f g : A -> bool) l : (forall x, In x l -> f x = g x) -> forallb f l = forallb g l.
Proof. induction l; simpl; intros H; auto. rewrite H, IHl; auto. Qed.
Lemma existsb_ext_in {A} (f g : A -> bool) l : (forall x, In x l -> f x = g x) -> existsb f l = existsb g l.
Proof. induction l; simpl; intros H; auto. rewrite H, IHl; auto. Qed.

Lemma eval_eval_with v n : eval v n = eval_with (lit_val v) n.
Proof.
  induction n as [z|op lev b|op lev l IH] using node_ind'; simpl; auto.
  rewrite Forall_forall in IH. destruct op; [apply forallb_ext_in|apply existsb_ext_in]; auto.
Qed.

Lemma eval_with_ext f g n : (forall z, In z (lits n) -> f z = g z) -> eval_with f n = eval_with g n.
Proof.
  induction n as [z|op lev b|op lev l IH] using node_ind'; simpl; intros H; auto.
  rewrite Forall_forall in IH.
  assert (HH : forall x, In x l -> eval_with f x = eval_with g x).
  { intros x Hx. apply IH; auto. intros z Hz. apply H. apply in_flat_map. eauto. }
  destruct op; [apply forallb_ext_in|apply existsb_ext_in]; auto.
Qed.

(** The edited element list evaluates like the old one, element by element. *)
Lemma mapM_ext_eval f (g : Z -> bool) h l l' :
  mapM h l = Ok l' ->
  (forall e e', In e l -> h e = Ok e' -> eval_with f e' = eval_with g e) ->
  map (eval_with f) l' = map (eval_with g) l.
Proof.
  revert l'; induction l as [|x l IH]; intros l' H HE; simpl in H; [inv H; auto|].
  inv_bind. inv H. simpl. f_equal; [apply HE; simpl; auto|]. apply IH; auto. intros; apply HE; simpl; auto.
Qed.
Lemma eval_with_map f g op lev lev' l l' :
  map (eval_with f) l' = map (eval_with g) l -> eval_with f (Seq op lev l') = eval_with g (Seq op lev' l).
Proof.
  intros H. assert (HF : forall b : bool, True) by auto.
  revert l H; induction l' as [|y l' IH]; intros [|x l] H; try discriminate; destruct op; auto;
    simpl in H; injection H as H1 H2; simpl; rewrite H1; f_equal; [exact (IH _ H2)|exact (IH _ H2)].
Qed.

Lemma subst_int_eval f target ne n : forall r,
  subst_int target ne n = Ok r ->
  eval_with f r = eval_with (fun z => if z =? target then eval_with f ne else f z) n.
Proof.
  induction n as [z|op lev b|op lev l IH] using node_ind'; intros r H; try discriminate.
  simpl in H. inv_bind. inv H. apply eval_with_map. eapply mapM_ext_eval; [exact Ha|].
  intros e e' He H. rewrite Forall_forall in IH.
  destruct e as [z|o lv b|o lv xs]; try discriminate.
  - inv H. simpl. destruct (z =? target); auto.
  - eapply IH; eauto.
Qed.

Lemma eval_with_level_update f n : eval_with f (level_update n) = eval_with f n.
Proof.
  induction n as [z|op lev b|op lev l IH] using node_ind'; auto.
  simpl level_update. apply eval_with_map. rewrite map_map. rewrite Forall_forall in IH.
  apply map_ext_in. auto.
Qed.

Lemma ins_elem_eval v op t n : t <> 0 ->
  eval_with (lit_val v) (ins_elem op t n) =
  match op with AND => lit_val v t && lit_val v n | OR => lit_val v t || lit_val v n end.
Proof.
  intros H. unfold ins_elem. destruct (Z.eqb_spec t n) as [->|Hn].
  - destruct op, (lit_val v n) eqn:E; simpl; rewrite ?E; reflexivity.
  - destruct (Z.eqb_spec t (- n)) as [Hm|Hm].
    + subst t. rewrite lit_val_opp by lia. destruct op, (lit_val v n); reflexivity.
    + destruct op; simpl; rewrite ?andb_true_r, ?orb_false_r; reflexivity.
Qed.

Lemma insert_eval v n t s op r : t <> 0 ->
  insert_in_sequence n t s op = Ok r ->
  eval v r = eval_with (fun z => if z =? t then
       match op with AND => lit_val v t && lit_val v s | OR => lit_val v t || lit_val v s end
     else lit_val v z) n.
Proof.
  intros Ht H. unfold insert_in_sequence in H. inv_bind. inv H.
  rewrite eval_eval_with, eval_with_level_update. rewrite (subst_int_eval _ _ _ _ _ Ha).
  apply eval_with_ext. intros z _. destruct (z =? t); auto. apply ins_elem_eval; auto.
Qed.

(** Totality: no constants in the tree. *)
Lemma mapM_total {A B} (f : A -> res B) l :
  (forall x, In x l -> exists y, f x = Ok y) -> exists l', mapM f l = Ok l'.
Proof.
  induction l as [|x l IH]; intros H; simpl; eauto.
  destruct (H x) as (y & ->); [simpl; auto|]. cbn [bind].
  destruct IH as (l' & ->); [intros; apply H; simpl; auto|]. simpl. eauto.
Qed.
Lemma no_const_seq op lev l : no_const (Seq op lev l) <-> Forall no_const l.
Proof.
  simpl. induction l as [|x l IH]; simpl; split; intros H; auto.
  - constructor; tauto.
  - inversion H; subst; tauto.
Qed.
Lemma insert_total n t s op : is_seq n -> no_const n -> exists r, insert_in_sequence n t s op = Ok r.
Proof.
  intros Hs Hn. unfold insert_in_sequence.
  assert (HH : exists r, subst_int t (ins_elem op t s) n = Ok r); [|destruct HH as (r & ->); simpl; eauto].
  induction n as [z|o lev b|o lev l IH] using node_ind'; simpl in Hs, Hn; try tauto.
  fold no_const in Hn. apply (no_const_seq o lev) in Hn. simpl.
  destruct (mapM_total (fun e => match e with
                              | Lit z => Ok (if z =? t then ins_elem op t s else e)
                              | _ => subst_int t (ins_elem op t s) e
                              end) l) as (l' & ->); [|simpl; eauto].
  rewrite Forall_forall in *. intros x Hx. destruct x as [z|o' lv b|o' lv xs]; [eexists; reflexivity| |].
  - specialize (Hn _ Hx). simpl in Hn. tauto.
  - apply IH; auto; exact I.
Qed.

(** Change of sign. *)
Definition flip (v : point) (s : Z) : point := fun x => if x =? s then negb (v x) else v x.
Lemma css_eval v s n : forall r, 0 < s -> nz n ->
  change_surf_sign s n = Ok r -> eval (flip v s) r = eval v n.
Proof.
  intros r Hs. revert r.
  induction n as [z|op lev b|op lev l IH] using node_ind'; intros r Hz H; try discriminate.
  simpl in H. inv_bind. inv H. rewrite !eval_eval_with. apply eval_with_map.
  eapply mapM_ext_eval; [exact Ha|]. apply nz_seq in Hz. rewrite Forall_forall in IH, Hz.
  intros e e' He H. specialize (Hz _ He).
  destruct e as [z|o lv b|o lv xs].
  - inv H. simpl in *. unfold flip, lit_val.
    destruct (Z.eqb_spec s (Z.abs z)) as [E|E].
    + destruct (Z.ltb_spec (- z) 0), (Z.ltb_spec z 0); try lia.
      * replace (- - z =? s) with true by lia. rewrite Z.opp_involutive, negb_involutive. auto.
      * replace (- z =? s) with true by lia. auto.
    + destruct (Z.ltb_spec z 0).
      * replace (- z =? s) with false by lia. auto.
      * replace (z =? s) with false by lia. auto.
  - destruct (lev =? 0); discriminate.
  - destruct (lev =? 0); [discriminate|]. rewrite <- !eval_eval_with. apply IH; auto.
Qed.

Lemma css_total s n : is_seq n -> no_const n -> wf n -> exists r, change_surf_sign s n = Ok r.
Proof.
  induction n as [z|o lev b|o lev l IH] using node_ind'; simpl is_seq; simpl no_const; try tauto.
  intros _ Hn W. apply (no_const_seq o lev) in Hn. apply wf_seq in W. destruct W as (W0 & W1 & W2).
  simpl. edestruct (@mapM_total node node) as (l' & ->); [|simpl; eauto].
  rewrite Forall_forall in *. intros x Hx. destruct x as [z|o' lv b|o' lv xs]; eauto.
  - specialize (Hn _ Hx). simpl in Hn. tauto.
  - destruct (Z.eqb_spec lev 0); [specialize (W1 e _ Hx); simpl in W1; tauto|].
    apply IH; auto. exact I.
Qed.

(** get_complementary never fails on constant free well formed definitions. *)
Lemma compl_total k : forall n, (height n < k)%nat -> is_seq n -> no_const n -> wf n ->
  exists c g, compl_f k n = Ok (c, g).
Proof.
  induction k as [|k IH]; intros n Hk Hs Hc W; [lia|]. cbn [compl_f].
  destruct n as [z|op lev b|op lev l]; [simpl in Hs; tauto|simpl in Hc; tauto|].
  apply (no_const_seq op lev) in Hc.
  pose proof W as W'. apply wf_seq in W'. destruct W' as (W0 & W1 & W2).
  destruct (Z.eqb_spec lev 0) as [->|Hl].
  - edestruct (@mapM_total node node) as (l' & ->); [|simpl; eauto].
    specialize (W1 eq_refl). rewrite Forall_forall in W1. intros x Hx. apply W1 in Hx.
    destruct x; simpl in *; try tauto. eauto.
  - destruct (group_single_total op lev l) as (l' & Hg & _ & Hg2).
    { left. eapply Forall_impl; [|exact Hc]. intros []; simpl; tauto. }
    pose proof (group_single_wf _ _ Hg W) as Wg. apply wf_seq in Wg. destruct Wg as (_ & _ & Wg).
    rewrite Hg. cbn [bind]. destruct (Hg2 Hl) as (G1 & G2).
    edestruct (@mapM_total node (node * node) (compl_f k) l') as (ps & ->); [|simpl; eauto].
    intros e He. assert (We : wf e) by (rewrite Forall_forall in Wg; auto).
    destruct (G2 e He) as [Hi|(g & -> & Hgg)].
    + destruct (IH e) as (c & g & E); eauto.
      * apply hmax_In in Hi. rewrite height_seq in Hk. lia.
      * rewrite Forall_forall in G1. apply G1 in He. destruct e; simpl in *; auto.
      * rewrite Forall_forall in Hc; auto.
    + destruct k as [|k]; [rewrite height_seq in Hk; lia|]. simpl.
      edestruct (@mapM_total node node) as (l2 & E2); [|rewrite E2; simpl; eauto].
      apply wf_seq in We. destruct We as (_ & We & _). specialize (We eq_refl).
      rewrite Forall_forall in We. intros x Hx. apply We in Hx. destruct x; simpl in *; try tauto. eauto.
Qed.

Lemma get_complementary_total n : is_seq n -> no_const n -> wf n ->
  exists c g, get_complementary n = Ok (c, g).
Proof. intros. apply compl_total; auto. Qed.

(** Surface inventory *)
Lemma surfs_spec n x : In x (surfs n) <-> exists z, In z (lits n) /\ Z.abs z = x.
Proof.
  unfold surfs. rewrite nodup_In, in_map_iff. split; intros (z & A & B); eauto.
Qed.
Lemma eval_ext_surfs v w n : (forall x, In x (surfs n) -> v x = w x) -> eval v n = eval w n.
Proof.
  intros H. rewrite !eval_eval_with. apply eval_with_ext. intros z Hz. unfold lit_val.
  assert (HS : In (Z.abs z) (surfs n)) by (apply surfs_spec; eauto).
  apply H in HS. destruct (Z.ltb_spec z 0).
  - rewrite Z.abs_neq in HS by lia. congruence.
  - rewrite Z.abs_eq in HS by lia. congruence.
Qed.
(** A surface that is not reported can be moved freely; conversely the list has
    no repetition. *)
Lemma surfs_nodup n : NoDup (surfs n). Proof. apply NoDup_nodup. Qed.

(** levels up to date imply well formedness *)
Lemma level_ok_wf n : level_ok n -> nonzero n -> no_const n -> wf n.
Proof.
  induction n as [z|op lev b|op lev l IH] using node_ind'; intros L N C.
  - unfold nonzero in N. simpl in N. inv N. simpl. auto.
  - simpl in C. tauto.
  - apply no_const_seq in C. destruct L as (L1 & L2).
    assert (HL : Forall level_ok l).
    { clear -L2. induction l; constructor; simpl in L2; tauto. }
    assert (HD : 0 <= depth (Seq op lev l)).
    { simpl. clear. induction l; simpl; lia. }
    apply wf_seq. split; [|split].
    + lia.
    + intros ->. clear -L1 C. simpl in L1.
      assert (HH : forall k, k = fold_right (fun c m => Z.max (depth c + 1) m) 0 l -> k = 0 -> Forall is_lit l).
      { intros k -> E. clear L1. induction l as [|x l IHl]; constructor; simpl in E; inv C.
        - assert (Hd : depth x + 1 <= 0) by lia.
          destruct x; simpl in *; auto. exfalso.
          assert (0 <= fold_right (fun c m => Z.max (depth c + 1) m) 0 l0) by (clear; induction l0; simpl; lia).
          lia.
        - apply IHl; auto.
          assert (0 <= fold_right (fun c m => Z.max (depth c + 1) m) 0 l) by (clear; induction l; simpl; lia).
          lia. }
      eapply HH; eauto.
    + unfold nonzero in N. simpl in N. rewrite Forall_forall in *. intros x Hx. apply IH; auto.
      unfold nonzero. apply Forall_forall. intros z Hz. apply N. apply in_flat_map. eauto.
Qed.

(** * add_cone_plane *)

(** Value of a literal once the cones of the list are restricted to one sheet:
    inside (negative literal) = inside the double cone and on the positive side
    of the apex plane; outside = the complement of that. *)
Definition cone_lit (v : point) (cones : list (Z * Z)) (z : Z) : bool :=
  match find (fun cp => fst cp =? z) cones with
  | Some (_, p) => if 0 <? z then lit_val v z || negb (lit_val v p)
                   else lit_val v z && lit_val v p
  | None => lit_val v z
  end.

Lemma insert_eval_with f n t s op r : t <> s -> t <> - s ->
  insert_in_sequence n t s op = Ok r ->
  eval_with f r = eval_with (fun z => if z =? t then
       match op with AND => f t && f s | OR => f t || f s end else f z) n.
Proof.
  intros H1 H2 H. unfold insert_in_sequence in H. inv_bind. inv H.
  rewrite eval_with_level_update, (subst_int_eval _ _ _ _ _ Ha).
  apply eval_with_ext. intros z _. destruct (z =? t); auto. unfold ins_elem.
  replace (t =? s) with false by lia. replace (t =? - s) with false by lia.
  destruct op; simpl; rewrite ?andb_true_r, ?orb_false_r; reflexivity.
Qed.

Lemma cone_lit_other v cones z : ~ In z (map fst cones) -> cone_lit v cones z = lit_val v z.
Proof.
  intros H. unfold cone_lit. destruct (find _ cones) as [[c p]|] eqn:E; auto.
  apply find_some in E. destruct E as (E1 & E2). simpl in E2. exfalso. apply H.
  apply Z.eqb_eq in E2. subst. change z with (fst (z, p)). apply in_map; auto.
Qed.

Lemma add_cone_plane_eval v cones : forall n r,
  NoDup (map fst cones) ->
  Forall (fun cp => fst cp <> 0 /\ snd cp <> 0) cones ->
  (forall c p, In c (map fst cones) -> In p (map snd cones) -> Z.abs c <> Z.abs p) ->
  add_cone_plane cones n = Ok r -> eval v r = eval_with (cone_lit v cones) n.
Proof.
  induction cones as [|[c p] cones IH]; intros n r ND NZ DJ H; simpl in H.
  - inv H. rewrite eval_eval_with. reflexivity.
  - inv_bind. simpl in ND, DJ. inv ND. inv NZ. simpl in H4. destruct H4 as (Hc & Hp).
    rewrite (IH a r) by auto.
    assert (Hcp : Z.abs c <> Z.abs p) by (apply DJ; auto).
    assert (Fc : cone_lit v cones c = lit_val v c) by (apply cone_lit_other; auto).
    assert (Fp : forall q, q = p \/ q = - p -> cone_lit v cones q = lit_val v q).
    { intros q Hq. apply cone_lit_other. intros Hi. apply (DJ q p); auto. destruct Hq; subst q; rewrite ?Z.abs_opp; auto. }
    destruct (Z.ltb_spec 0 c) as [Hs|Hs].
    + rewrite (insert_eval_with _ n c (- p) OR a ltac:(lia) ltac:(lia) Ha).
      apply eval_with_ext. intros z _. unfold cone_lit at 4. simpl. rewrite (Z.eqb_sym c z).
      destruct (Z.eqb_spec z c) as [->|]; [|reflexivity].
      replace (0 <? c) with true by lia. rewrite Fc, Fp by auto. rewrite lit_val_opp by auto. reflexivity.
    + rewrite (insert_eval_with _ n c p AND a ltac:(lia) ltac:(lia) Ha).
      apply eval_with_ext. intros z _. unfold cone_lit at 4. simpl. rewrite (Z.eqb_sym c z).
      destruct (Z.eqb_spec z c) as [->|]; [|reflexivity].
      replace (0 <? c) with false by lia. rewrite Fc, Fp by auto. reflexivity.
Qed.

(** The same result read on points: the cone surfaces of the list denote single
    sheets.  [sheet] gives for each cone surface the signed apex plane. *)
Lemma add_cone_plane_point v sheet cones n r :
  NoDup (map fst cones) ->
  Forall (fun cp => fst cp <> 0 /\ snd cp <> 0) cones ->
  (forall c p, In c (map fst cones) -> In p (map snd cones) -> Z.abs c <> Z.abs p) ->
  (forall c p, In (c, p) cones -> sheet (Z.abs c) = Some p) ->
  (forall z, In z (lits n) -> sheet (Z.abs z) <> None -> In z (map fst cones)) ->
  add_cone_plane cones n = Ok r ->
  eval v r = eval (fun s => match sheet s with
                            | Some p => v s || negb (lit_val v p)
                            | None => v s end) n.
Proof.
  intros ND NZ DJ HS HL H. rewrite (add_cone_plane_eval v _ _ _ ND NZ DJ H), eval_eval_with.
  apply eval_with_ext. intros z Hz. unfold cone_lit.
  destruct (find _ cones) as [[c p]|] eqn:E.
  - apply find_some in E. destruct E as (E1 & E2). simpl in E2. apply Z.eqb_eq in E2. subst c.
    pose proof (HS _ _ E1) as Hs. rewrite Forall_forall in NZ. apply NZ in E1. simpl in E1.
    unfold lit_val at 1 3 5. destruct (Z.ltb_spec z 0), (Z.ltb_spec 0 z); try lia.
    + rewrite Z.abs_neq in Hs by lia. rewrite Hs, negb_orb, negb_involutive. reflexivity.
    + rewrite Z.abs_eq in Hs by lia. rewrite Hs. reflexivity.
  - assert (Hn : sheet (Z.abs z) = None).
    { destruct (sheet (Z.abs z)) eqn:Es; auto. exfalso.
      assert (Hi : In z (map fst cones)) by (apply HL; congruence).
      apply in_map_iff in Hi. destruct Hi as ([c p] & <- & Hi).
      apply (find_none _ _ E) in Hi. simpl in Hi. lia. }
    unfold lit_val. destruct (Z.ltb_spec z 0).
    + rewrite Z.abs_neq in Hn by lia. rewrite Hn. auto.
    + rewrite Z.abs_eq in Hn by lia. rewrite Hn. auto.
Qed.
