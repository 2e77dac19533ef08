(** C38: quadric_to_plane and plane_definition together. *)
From Verif Require Import Prelude BoolSpec BoolSeq BoolProofs BoolProofs2 BoolTotal BoolTotal2 BoolTotal3 BoolEditProofs RBool RBoolProofs Vec3 Prim PrimSpec PrimProofs RBox RPlanes RPlaneSpec RPlaneGeo RPlaneDefProofs RPlaneDefProofs2 RPlaneDefProofs3.
Open Scope Z_scope.

Lemma plain_gd n : plain n <-> gd n.
Proof.
  induction n as [z|op lev b|op lev l IH] using node_ind'; [reflexivity|reflexivity|]. rewrite gd_seq. cbn [plain].
  induction IH as [|c l Hc _ IHl]; cbn; [split; auto|]. rewrite Forall_cons_iff, IHl, Hc. reflexivity.
Qed.
(** dictionaries *)
Lemma dget_dset {A} k (a : A) d z : dget z (dset k a d) = if k =? z then Some a else dget z d.
Proof.
  induction d as [|(k', a') d IH]; cbn; [reflexivity|]. destruct (k' =? k) eqn:E; cbn.
  - apply Z.eqb_eq in E. subst k'. destruct (k =? z); reflexivity.
  - rewrite IH. destruct (k' =? z) eqn:E1; [|reflexivity]. apply Z.eqb_eq in E1. subst z. now rewrite Z.eqb_sym, E.
Qed.
Lemma dset_keys {A} k (a : A) d z : In z (map fst (dset k a d)) <-> z = k \/ In z (map fst d).
Proof.
  induction d as [|(k', a') d IH]; cbn; [intuition|]. destruct (k' =? k) eqn:E; cbn.
  - apply Z.eqb_eq in E. subst. intuition.
  - rewrite IH. intuition.
Qed.
Lemma dset_nodup {A} k (a : A) d : NoDup (map fst d) -> NoDup (map fst (dset k a d)).
Proof.
  induction d as [|(k', a') d IH]; cbn; intros N; [repeat constructor; intros []|]. apply NoDup_cons_iff in N. destruct N as (N1 & N2).
  destruct (k' =? k) eqn:E; cbn.
  - apply Z.eqb_eq in E. subst. constructor; auto.
  - constructor; auto. rewrite dset_keys. intros [->|I]; auto. now rewrite Z.eqb_refl in E.
Qed.
Lemma dset_in {A} k (a : A) d q : In q (dset k a d) -> q = (k, a) \/ In q d.
Proof.
  induction d as [|(k', a') d IH]; cbn; [intuition|]. destruct (k' =? k); cbn; [intuition|]. intros [H|H]; [auto|]. apply IH in H. intuition.
Qed.

Definition labelled (planes : list (Z * pl)) (l : list pl) (ns : list Z) : Prop := Forall2 (fun p z => dget z planes = Some p) l ns.
Lemma number_spec l : forall next planes ns ps nx, number next l planes = (ns, ps, nx) ->
  nx = next + Z.of_nat (length l) /\ Forall (fun z => next <= z < nx) ns /\ labelled ps l ns /\ (forall z, z < next \/ nx <= z -> dget z ps = dget z planes) /\
  (forall z p, dget z ps = Some p -> dget z planes = Some p \/ next <= z < nx).
Proof.
  induction l as [|p l IH]; intros next planes ns ps nx H; cbn [number] in H.
  - injection H as <- <- <-. split; [cbn; lia|]. split; [constructor|]. split; [constructor|]. auto.
  - destruct (number (next + 1) l (dset next p planes)) as ((ns', ps'), nx') eqn:E. injection H as <- <- <-.
    destruct (IH _ _ _ _ _ E) as (A & B & C & D & F). split; [cbn [length]; lia|]. split; [|split; [|split]].
    + constructor; [lia|]. revert B. apply Forall_impl. intros; lia.
    + constructor; [|exact C]. rewrite D by lia. rewrite dget_dset, Z.eqb_refl. reflexivity.
    + intros z Hz. rewrite D by lia. rewrite dget_dset. destruct (Z.eqb_spec next z); [lia|reflexivity].
    + intros z q Q. destruct (F z q Q) as [G|G]; [|right; lia]. rewrite dget_dset in G. destruct (Z.eqb_spec next z); [right; lia|left; exact G].
Qed.
(** the entry of a list of planes *)
Definition entry_of (planes : list (Z * pl)) (sp : shape_planes) (e : entry) : Prop :=
  match sp, e with
  | SList l, EList ns => labelled planes l ns
  | SCone d l, ECone d' ns => d = d' /\ labelled planes l ns
  | STorus a b, ETorus na nb => labelled planes a na /\ labelled planes b nb
  | _, _ => False
  end.
Lemma labelled_all planes x l ns : labelled planes l ns -> forallb (plane_sides planes x) ns = forallb (pl_pos_side x) l.
Proof. induction 1 as [|p z l ns H _ IH]; [reflexivity|]. cbn. unfold plane_sides at 1. rewrite H, IH. reflexivity. Qed.
Lemma labelled_none planes x l ns : labelled planes l ns -> forallb (fun z => negb (plane_sides planes x z)) ns = forallb (fun p => negb (pl_pos_side x p)) l.
Proof. induction 1 as [|p z l ns H _ IH]; [reflexivity|]. cbn. unfold plane_sides at 1. rewrite H, IH. reflexivity. Qed.
Lemma labelled_ex planes x l ns : labelled planes l ns -> existsb (plane_sides planes x) ns = existsb (pl_pos_side x) l.
Proof. induction 1 as [|p z l ns H _ IH]; [reflexivity|]. cbn. unfold plane_sides at 1. rewrite H, IH. reflexivity. Qed.
Lemma entry_within planes x sp e : entry_of planes sp e -> ev_entry (plane_sides planes x) e = within sp x.
Proof.
  destruct sp as [l|d l|a b], e as [ns|d' ns|na nb]; cbn [entry_of]; try contradiction.
  - intros H. cbn [ev_entry within]. now apply labelled_all.
  - intros (<- & H). destruct d; cbn [ev_entry within]; rewrite (labelled_all _ _ _ _ H); [rewrite (labelled_none _ _ _ _ H)|]; reflexivity.
  - intros (H & K). destruct K as [|p z b nb K1 K]; cbn [ev_entry within]; [now apply labelled_all|]. rewrite (labelled_all _ _ _ _ H).
    f_equal. apply (labelled_ex _ _ (p :: b) (z :: nb)). constructor; auto.
Qed.
Lemma labelled_len planes l ns : labelled planes l ns -> length ns = length l.
Proof. induction 1; cbn; congruence. Qed.
Lemma labelled_mono p1 p2 l ns : labelled p1 l ns -> (forall z, In z ns -> dget z p2 = dget z p1) -> labelled p2 l ns.
Proof. induction 1 as [|p z l ns H _ IH]; intros M; constructor; [rewrite M by (now left); exact H|]. apply IH. intros y I. apply M. now right. Qed.
Lemma entry_of_mono p1 p2 sp e : entry_of p1 sp e -> (forall z, In z (entry_labs e) -> dget z p2 = dget z p1) -> entry_of p2 sp e.
Proof.
  destruct sp as [l|d l|a b], e as [ns|d' ns|na nb]; cbn [entry_of entry_labs]; try contradiction.
  - intros H M. eapply labelled_mono; eauto.
  - intros (A & H) M. split; auto. eapply labelled_mono; eauto.
  - intros (A & B) M. split; eapply labelled_mono; eauto; intros z I; apply M, in_or_app; auto.
Qed.
Definition shape_two (sp : shape_planes) : Prop :=
  match sp with SList l => l <> [] | SCone _ l => (2 <= length l)%nat | STorus a b => (2 <= length a)%nat /\ (b = [] \/ (2 <= length b)%nat) end.
Lemma shape_two_entry planes sp e : entry_of planes sp e -> shape_two sp -> entry_two e /\ entry_empty e = false.
Proof.
  destruct sp as [l|d l|a b], e as [ns|d' ns|na nb]; cbn [entry_of]; try contradiction; cbn [shape_two entry_two]; unfold two.
  - intros H N. split; [exact Logic.I|]. destruct H; [now elim N|reflexivity].
  - intros (_ & H). rewrite (labelled_len _ _ _ H). auto.
  - intros (H & K) (N1 & N2). split; [|reflexivity]. rewrite (labelled_len _ _ _ H), (labelled_len _ _ _ K). split; auto. destruct N2 as [->|N2]; auto. left. inversion K. reflexivity.
Qed.
Lemma to_planes_two s pos sp : boxable s -> to_planes s pos = Ok sp -> shape_two sp.
Proof.
  intros B H. assert (NE : forall (l : list pl), (1 <= length l)%nat -> l <> []) by (intros [|? ?] Q; [cbn in Q; lia|discriminate]).
  assert (CY : forall c a r p l, cyl_planes c a r p = Ok l -> length l = 4%nat).
  { intros c a r p l Q. unfold cyl_planes in Q. destruct (orto_axis a) as [(x, y)|?|]; try discriminate. cbn [bind] in Q. apply mapM_length in Q. exact Q. }
  assert (CO : forall c a r p l, cone_planes c a r p = Ok l -> length l = 5%nat).
  { intros c a r p l Q. unfold cone_planes in Q. destruct (orto_axis a) as [(x, y)|?|]; try discriminate. cbn [bind] in Q. destruct (mapM _ _) as [l'|?|] eqn:M; try discriminate. cbn [bind] in Q.
    destruct (mk_plane c a) as [p'|?|]; try discriminate. cbn [bind] in Q. injection Q as <-. apply mapM_length in M. rewrite app_length, M. reflexivity. }
  assert (SX : forall c a b d l, six c a b d = Ok l -> length l = 6%nat) by (intros c a b d l Q; apply mapM_length in Q; exact Q).
  destruct s; cbn [boxable] in B; try contradiction; cbn [to_planes] in H.
  - destruct (sphere_planes _ _ _) as [l|?|] eqn:E; try discriminate. injection H as <-. apply SX in E. apply NE. lia.
  - destruct (cyl_planes _ _ _ _) as [l|?|] eqn:E; try discriminate. injection H as <-. apply CY in E. apply NE. lia.
  - destruct (cyl_planes _ _ _ _) as [l|?|] eqn:E; try discriminate. injection H as <-. apply CY in E. apply NE. lia.
  - destruct (cone_planes _ _ _ _) as [l|?|] eqn:E; try discriminate. injection H as <-. apply CO in E. cbn. lia.
  - destruct (para_planes _ _ _) as [l|?|] eqn:E; try discriminate. injection H as <-. unfold para_planes in E. inv_bind. destruct a0 as (x, y). inv_bind. injection E as <-. discriminate.
  - destruct (torus_planes _ _ _ _ _ _) as [(e, i)|?|] eqn:E; try discriminate. injection H as <-. unfold torus_planes in E.
    assert (T : forall a b cc (hp : res (list pl)), (forall l, hp = Ok l -> l = [] \/ length l = 4%nat) ->
       (do e <- six c a b cc; do i <- hp; Ok (e, i)) = Ok (e, i) -> (2 <= length e)%nat /\ (i = [] \/ (2 <= length i)%nat)).
    { intros a b cc hp HP Q. destruct (six c a b cc) as [l|?|] eqn:S6; try discriminate. cbn [bind] in Q. destruct hp as [l2|?|]; try discriminate. cbn [bind] in Q. injection Q as <- <-.
      apply SX in S6. split; [lia|]. destruct (HP l2 eq_refl); [auto|right; lia]. }
    assert (HO : forall c d u w l, hole c d u w = Ok l -> l = [] \/ length l = 4%nat).
    { intros c0 d u w l Q. unfold hole in Q. destruct (rltb 0 d); [apply mapM_length in Q; auto|injection Q as <-; auto]. }
    cbn [shape_two].
    destruct (aligned _ ex); [eapply T; [|exact E]; apply HO|]. destruct (aligned _ ey); [eapply T; [|exact E]; apply HO|]. destruct (aligned _ ez); [eapply T; [|exact E]; apply HO|discriminate].
  - destruct (box_planes _ _ _ _) as [l|?|] eqn:E; try discriminate. injection H as <-. apply mapM_length in E. apply NE. rewrite E. cbn. lia.
Qed.

Section Quad.
  Variable surfaces : Z -> option prim.
  Variable o : orient.
  Variable base : Z.
  Hypothesis base_pos : 0 < base.
  Definition is_plane (s : prim) : Prop := match s with PPlane _ _ => True | _ => False end.
  Record qinv (seen : list Z) (st : qstate) : Prop := {
    qi_seen : forall s', In s' seen -> Z.abs s' < base;
    qi_next : base <= q_next st;
    qi_nodup : NoDup (map fst (q_entries st));
    qi_entry : forall s e, In (s, e) (q_entries st) -> exists s' p sp, In s' seen /\ Z.abs s' = s /\ surfaces s = Some p /\ ~ is_plane p /\
       to_planes p (pos_of o s') = Ok sp /\ entry_of (q_planes st) sp e /\ Forall (fun z => base <= z < q_next st) (entry_labs e);
    qi_plane : forall s' n d, In s' seen -> surfaces (Z.abs s') = Some (PPlane n d) -> exists p, mk_plane (vscale d n) n = Ok p /\ dget (Z.abs s') (q_planes st) = Some p;
    qi_curved : forall s' p, In s' seen -> surfaces (Z.abs s') = Some p -> ~ is_plane p -> In (Z.abs s') (map fst (q_entries st));
    qi_dom : forall z p, dget z (q_planes st) = Some p -> base <= z < q_next st \/ exists s' n d, In s' seen /\ Z.abs s' = z /\ surfaces z = Some (PPlane n d)
  }.
  (** new planes with new numbers, and an entry for them *)
  Lemma qinv_curved seen st s p sp e ps nx : qinv seen st -> Z.abs s < base -> surfaces (Z.abs s) = Some p -> ~ is_plane p ->
    to_planes p (pos_of o s) = Ok sp -> entry_of ps sp e -> Forall (fun z => base <= z < nx) (entry_labs e) -> q_next st <= nx ->
    (forall z, z < q_next st -> dget z ps = dget z (q_planes st)) ->
    (forall z q, dget z ps = Some q -> dget z (q_planes st) = Some q \/ q_next st <= z < nx) ->
    qinv (s :: seen) (QS ps (dset (Z.abs s) e (q_entries st)) nx).
  Proof.
    intros I SB SP NP TP EO FL NX OLD DOM. destruct I as [I0 I1 I2 I3 I4 I5 I6]. constructor; cbn [q_next q_entries q_planes].
    - intros s1 [<-|J]; auto.
    - lia.
    - now apply dset_nodup.
    - intros s1 e1 Q. apply dset_in in Q. destruct Q as [Q|Q].
      + injection Q as -> ->. exists s, p, sp. repeat split; auto. now left.
      + destruct (I3 s1 e1 Q) as (s' & p' & sp' & A & B & C & D & E & F & G). exists s', p', sp'. repeat split; auto; [now right| |].
        * eapply entry_of_mono; [exact F|]. intros z J. rewrite Forall_forall in G. apply OLD. apply G in J. lia.
        * revert G. apply Forall_impl. intros; lia.
    - intros s1 n d [<-|J] Q; [rewrite SP in Q; injection Q as ->; now elim NP|]. destruct (I4 s1 n d J Q) as (q & A & B). exists q. split; auto. rewrite <- B. apply OLD.
      specialize (I0 _ J). lia.
    - intros s1 p1 [<-|J] Q N; rewrite dset_keys; [now left|right; eauto].
    - intros z q Q. destruct (DOM z q Q) as [A|A]; [|left; lia]. destruct (I6 z q A) as [B|(s2 & n2 & d2 & C & D & E)]; [left; lia|right; exists s2, n2, d2; split; [now right|auto]].
  Qed.
  Lemma not_plane p : ~ is_plane p -> forall A (f : vec -> R -> A) (g : A), match p with PPlane n d => f n d | _ => g end = g.
  Proof. destruct p; cbn; tauto. Qed.
  Lemma q_step_inv seen st s st' : qinv seen st -> Z.abs s < base -> q_step surfaces o st s = Ok st' -> qinv (s :: seen) st'.
  Proof.
    intros I SB H. unfold q_step in H. destruct (surfaces (Z.abs s)) as [p|] eqn:SP; [|discriminate].
    assert (PL : is_plane p \/ ~ is_plane p) by (destruct p; cbn; tauto). destruct PL as [PL|NP].
    - destruct p; try contradiction. destruct (mk_plane (vscale d n) n) as [q|?|] eqn:MP; try discriminate. cbn [bind] in H. injection H as <-.
      destruct I as [I0 I1 I2 I3 I4 I5 I6]. constructor; cbn [q_next q_entries q_planes]; auto.
      + intros s1 [<-|J]; auto.
      + intros s1 e1 Q. destruct (I3 s1 e1 Q) as (s' & p' & sp' & A & B & C & D & E & F & G). exists s', p', sp'. repeat split; auto; [now right|].
        eapply entry_of_mono; [exact F|]. intros z J. rewrite Forall_forall in G. apply G in J. rewrite dget_dset. destruct (Z.eqb_spec (Z.abs s) z); [lia|reflexivity].
      + intros s1 n1 d1 [<-|J] Q; rewrite dget_dset.
        * rewrite Z.eqb_refl. rewrite SP in Q. injection Q as <- <-. eauto.
        * destruct (I4 s1 n1 d1 J Q) as (q1 & A & B). destruct (Z.eqb_spec (Z.abs s) (Z.abs s1)) as [Ea|Na]; [|eauto].
          exists q. split; auto. rewrite <- Ea, SP in Q. injection Q as <- <-. exact MP.
      + intros s1 p1 [<-|J] Q N; [rewrite SP in Q; injection Q as <-; now elim N|eauto].
      + intros z q1 Q. rewrite dget_dset in Q. destruct (Z.eqb_spec (Z.abs s) z) as [Ea|Na].
        * right. exists s, n, d. split; [now left|]. split; auto. now rewrite <- Ea.
        * destruct (I6 z q1 Q) as [B|(s2 & n2 & d2 & C & D & E)]; [left; lia|right; exists s2, n2, d2; split; [now right|auto]].
    - assert (H' : (do sp <- to_planes p (pos_of o s);
      Ok (match sp with
          | SList l => let '(ns, ps, nx) := number (q_next st) l (q_planes st) in QS ps (dset (Z.abs s) (EList ns) (q_entries st)) nx
          | SCone dbl l => let '(ns, ps, nx) := number (q_next st) l (q_planes st) in QS ps (dset (Z.abs s) (ECone dbl ns) (q_entries st)) nx
          | STorus e i =>
              let '(ne, ps, nx) := number (q_next st) e (q_planes st) in
              let '(ni, ps', nx') := number nx i ps in
              QS ps' (dset (Z.abs s) (ETorus ne ni) (q_entries st)) nx'
          end)) = Ok st') by (destruct p; try exact H; now elim NP).
      clear H. destruct (to_planes p (pos_of o s)) as [sp|?|] eqn:TP; try discriminate. cbn [bind] in H'. injection H' as <-.
      pose proof (qi_next _ _ I) as NB.
      destruct sp as [l|dbl l|e i].
      + destruct (number (q_next st) l (q_planes st)) as ((ns, ps), nx) eqn:N. destruct (number_spec _ _ _ _ _ _ N) as (A & B & C & D & E).
        apply (qinv_curved seen st s p (SList l) (EList ns) ps nx); auto; try lia. revert B. apply Forall_impl. intros; lia.
      + destruct (number (q_next st) l (q_planes st)) as ((ns, ps), nx) eqn:N. destruct (number_spec _ _ _ _ _ _ N) as (A & B & C & D & E).
        apply (qinv_curved seen st s p (SCone dbl l) (ECone dbl ns) ps nx); auto; try lia; [split; auto|]. revert B. apply Forall_impl. intros; lia.
      + destruct (number (q_next st) e (q_planes st)) as ((ns, ps), nx) eqn:N. destruct (number_spec _ _ _ _ _ _ N) as (A & B & C & D & E).
        destruct (number nx i ps) as ((ns2, ps2), nx2) eqn:N2. destruct (number_spec _ _ _ _ _ _ N2) as (A2 & B2 & C2 & D2 & E2).
        apply (qinv_curved seen st s p (STorus e i) (ETorus ns ns2) ps2 nx2); auto; try lia.
        * split; [|exact C2]. eapply labelled_mono; [exact C|]. intros z J. apply D2. left. rewrite Forall_forall in B. apply B in J. lia.
        * apply Forall_app. split; [revert B|revert B2]; apply Forall_impl; intros; lia.
        * intros z Z1. rewrite D2, D by lia. reflexivity.
        * intros z q Q. destruct (E2 z q Q) as [X|X]; [|right; lia]. destruct (E z q X) as [Y|Y]; [now left|right; lia].
  Qed.
  Lemma q_fold_inv l : forall seen st st', qinv seen st -> Forall (fun s => Z.abs s < base) l -> foldM (q_step surfaces o) st l = Ok st' -> qinv (rev l ++ seen) st'.
  Proof.
    induction l as [|s l IH]; intros seen st st' I F H; cbn [foldM] in H; [injection H as <-; exact I|]. apply Forall_cons_iff in F. destruct F as (F1 & F).
    destruct (q_step surfaces o st s) as [st1|?|] eqn:E; try discriminate. cbn [bind] in H. cbn [rev]. rewrite <- app_assoc. apply (IH (s :: seen) st1); auto. eapply q_step_inv; eauto.
  Qed.
End Quad.
Lemma quadric_inv surfaces o signed st : quadric_to_plane surfaces o signed = Ok st ->
  exists base, 0 < base /\ Forall (fun s => Z.abs s < base) signed /\ qinv surfaces o base (rev signed) st.
Proof.
  unfold quadric_to_plane. intros H. destruct signed as [|s0 signed]; [discriminate|]. revert H. generalize (s0 :: signed). clear s0 signed. intros l H.
  set (m := fold_right Z.max 0 (map Z.abs l)) in H.
  assert (M : Forall (fun s => Z.abs s < m + 1) l /\ 0 <= m).
  { unfold m. clear. induction l as [|s l (IH & P)]; cbn; [split; [constructor|lia]|]. split; [|lia]. constructor; [lia|]. revert IH. apply Forall_impl. intros; lia. }
  destruct M as (M & P). exists (m + 1). split; [lia|]. split; [exact M|]. rewrite <- (app_nil_r (rev l)). eapply q_fold_inv; [|exact M|exact H].
  constructor; cbn; try tauto; try lia; [constructor|discriminate].
Qed.

Lemma unit_side n d p x : vlen n = 1%R -> mk_plane (vscale d n) n = Ok p ->
  (outside (PPlane n d) x -> pl_pos_side x p = true) /\ (inside (PPlane n d) x -> pl_pos_side x p = false).
Proof.
  intros U H. pose proof (mk_plane_pos _ _ _ x H) as Q. apply vlen_unit in U.
  assert (D : dot n (vsub x (vscale d n)) = (dot n x - d)%R).
  { replace (dot n (vsub x (vscale d n))) with (dot n x - d * dot n n)%R by (unfold dot, vsub, vscale; simpl; ring). rewrite U. ring. }
  rewrite D in Q. cbn [outside inside]. split; intros K; [apply Q; lra|]. destruct (pl_pos_side x p); [|reflexivity]. exfalso. assert (0 < dot n x - d)%R by (apply Q; reflexivity). lra.
Qed.
Theorem planes_conservative surfaces o signed n qs fuel r : o <> OUnd -> plain n ->
  (forall z, In z signed <-> In z (lits n)) ->
  (forall z s, In z (lits n) -> surfaces (Z.abs z) = Some s -> unit_plane s \/ (proper s /\ boxable s)) ->
  (forall z s, In z (lits n) -> In (- z) (lits n) -> surfaces (Z.abs z) = Some s -> is_plane s) ->
  quadric_to_plane surfaces o signed = Ok qs -> plane_definition fuel o (q_entries qs) n = Ok r ->
  (forall z, In z (lits r) -> dget (Z.abs z) (q_planes qs) <> None) /\
  (forall x v, sides surfaces n x v -> R2 (dirn o) (eval v n) (eval (plane_sides (q_planes qs) x) r)).
Proof.
  intros O PL SG OK ONE QP PD. apply plain_gd in PL. destruct (quadric_inv _ _ _ _ QP) as (base & BP & SB & I).
  assert (SE : forall z, In z (rev signed) <-> In z (lits n)) by (intros z; rewrite <- in_rev; auto).
  assert (DEF : forall z, In z (lits n) -> exists s, surfaces (Z.abs z) = Some s).
  { intros z J. apply SG in J. unfold quadric_to_plane in QP. destruct signed as [|s0 signed]; [discriminate|]. revert J QP. generalize (QS [] [] (fold_right Z.max 0 (map Z.abs (s0 :: signed)) + 1)).
    generalize (s0 :: signed). intros l. induction l as [|s1 l IH]; intros st J H; [destruct J|]. cbn [foldM] in H. destruct (q_step surfaces o st s1) as [st1|?|] eqn:E; try discriminate. cbn [bind] in H.
    destruct J as [->|J]; [|eauto]. unfold q_step in E. destruct (surfaces (Z.abs z)) as [s|]; [eauto|discriminate]. }
  assert (BX : forall z s, In z (lits n) -> surfaces (Z.abs z) = Some s -> ~ is_plane s -> proper s /\ boxable s).
  { intros z s J Q N. destruct (OK z s J Q) as [U|U]; auto. destruct s; cbn in U; try contradiction. now elim N. }
  assert (EOK : entries_ok (q_entries qs)).
  { split; [apply (qi_nodup _ _ _ _ _ I)|]. split.
    - apply Forall_forall. intros (s, e) J. destruct (qi_entry _ _ _ _ _ I s e J) as (s' & p & sp & A & B & C & D & E & F & G). cbn [fst snd]. rewrite <- B in C.
      destruct (BX s' p (proj1 (SE s') A) C D) as (_ & BXP). destruct (shape_two_entry _ _ _ F (to_planes_two _ _ _ BXP E)) as (T1 & T2).
      split; [|split; [|split; auto]].
      + apply SE in A. pose proof (nz_lits _ (gd_nz _ PL)) as NZ. rewrite Forall_forall in NZ. apply NZ in A. lia.
      + revert G. apply Forall_impl. intros; lia.
    - intros (s, e) t J K L. cbn [snd] in L. destruct (qi_entry _ _ _ _ _ I s e J) as (s' & p & sp & A & B & C & D & E & F & G).
      apply in_map_iff in K. destruct K as ((t', e') & <- & K). cbn [fst] in L. destruct (qi_entry _ _ _ _ _ I t' e' K) as (s2 & p2 & sp2 & A2 & B2 & C2 & _).
      rewrite Forall_forall in G. apply G in L. apply SE, SG in A2. rewrite Forall_forall in SB. apply SB in A2. lia. }
  (* one valuation for the surfaces and for the planes *)
  set (w := fun x v => fun z => match dget z (q_planes qs) with Some p => pl_pos_side x p | None => (v : point) z end).
  assert (KEY : forall z, In z (map fst (q_entries qs)) -> dget z (q_planes qs) = None).
  { intros z K. apply in_map_iff in K. destruct K as ((t, e) & <- & K). cbn [fst]. destruct (qi_entry _ _ _ _ _ I t e K) as (s2 & p2 & sp2 & A2 & B2 & C2 & D2 & _).
    destruct (dget t (q_planes qs)) as [p|] eqn:E; [|reflexivity]. destruct (qi_dom _ _ _ _ _ I _ _ E) as [Z1|(s3 & n3 & d3 & A3 & B3 & C3)].
    - apply SE, SG in A2. rewrite Forall_forall in SB. apply SB in A2. lia.
    - rewrite C2 in C3. injection C3 as ->. now elim D2. }
  assert (PD' : forall u, _) by (intros u; exact (plane_definition_ok u o fuel (q_entries qs) n r O EOK PL PD)).
  assert (LR : forall z, In z (lits r) -> dget (Z.abs z) (q_planes qs) <> None).
  { intros z J. destruct (PD' (fun _ => true)) as (L & _). destruct (L z J) as ([A|((t, e) & A & B)] & NI).
    - destruct (DEF z A) as (s & S). assert (IP : is_plane s \/ ~ is_plane s) by (destruct s; cbn; tauto). destruct IP as [IP|IP].
      + destruct s; try contradiction. destruct (qi_plane _ _ _ _ _ I z n0 d (proj2 (SE z) A) S) as (p & _ & E). rewrite E. discriminate.
      + elim NI. apply (qi_curved _ _ _ _ _ I z s); auto. apply SE; auto.
    - cbn [snd] in B. destruct (qi_entry _ _ _ _ _ I t e A) as (s' & p & sp & _ & _ & _ & _ & _ & F & _). clear -F B.
      assert (X : forall l ns, labelled (q_planes qs) l ns -> In (Z.abs z) ns -> dget (Z.abs z) (q_planes qs) <> None).
      { induction 1 as [|p0 z0 l ns H _ IH]; intros J; [destruct J|]. destruct J as [->|J]; auto. rewrite H. discriminate. }
      destruct sp as [l|d l|a b], e as [ns|d' ns|na nb]; cbn [entry_of entry_labs] in *; try contradiction; [eauto|destruct F; eauto|]. destruct F. apply in_app_or in B. destruct B; eauto. }
  split; [exact LR|]. intros x v SD.
  assert (EN : eval v n = eval (w x v) n).
  { apply eval_ext_surfs. intros z J. apply surfs_spec in J. destruct J as (y & J & <-). unfold w. destruct (dget (Z.abs y) (q_planes qs)) as [p|] eqn:E; [|reflexivity].
    destruct (DEF y J) as (s & S). pose proof (SD y s J S) as SD'. assert (IP : is_plane s \/ ~ is_plane s) by (destruct s; cbn; tauto). destruct IP as [IP|IP].
    - destruct s; try contradiction. destruct (OK y _ J S) as [U|(_ & [])]. cbn in U. destruct (qi_plane _ _ _ _ _ I y n0 d (proj2 (SE y) J) S) as (p' & M & E'). rewrite E in E'. injection E' as <-.
      destruct (unit_side n0 d p x U M) as (A & B). destruct (v (Z.abs y)); symmetry; auto.
    - assert (K : In (Z.abs y) (map fst (q_entries qs))) by (apply (qi_curved _ _ _ _ _ I y s); auto; apply SE; auto). apply KEY in K. congruence. }
  assert (ER : eval (plane_sides (q_planes qs) x) r = eval (w x v) r).
  { apply eval_ext_surfs. intros z J. apply surfs_spec in J. destruct J as (y & J & <-). apply LR in J. unfold plane_sides, w. destruct (dget (Z.abs y) (q_planes qs)); [reflexivity|now elim J]. }
  assert (EV : forall sp e, entry_of (q_planes qs) sp e -> ev_entry (w x v) e = within sp x).
  { intros sp e F. rewrite <- (entry_within (q_planes qs) x sp e F). clear -F.
    assert (X : forall l ns, labelled (q_planes qs) l ns -> forall z, In z ns -> w x v z = plane_sides (q_planes qs) x z).
    { intros l ns H. induction H as [|p0 z0 l ns H _ IH]; intros z J; [destruct J|]. destruct J as [->|J]; auto. unfold w, plane_sides. now rewrite H. }
    assert (Y : forall f g (ns : list Z), (forall z, In z ns -> f z = g z :> bool) -> forallb f ns = forallb g ns /\ existsb f ns = existsb g ns /\ forallb (fun z => negb (f z)) ns = forallb (fun z => negb (g z)) ns).
    { intros f g ns. induction ns as [|z ns IH]; intros H; [auto|]. cbn. rewrite (H z (or_introl eq_refl)). destruct IH as (-> & -> & ->); auto. intros; apply H; now right. }
    destruct sp as [l|d l|a b], e as [ns|d' ns|na nb]; cbn [entry_of] in *; try contradiction.
    - destruct (Y _ _ ns (X _ _ F)) as (Y1 & _). exact Y1.
    - destruct F as (_ & F). destruct (Y _ _ ns (X _ _ F)) as (Y1 & _ & Y3). destruct d'; cbn [ev_entry]; rewrite ?Y1, ?Y3; reflexivity.
    - destruct F as (F1 & F2). destruct (Y _ _ na (X _ _ F1)) as (Y1 & _ & _), (Y _ _ nb (X _ _ F2)) as (_ & Y2 & _). destruct nb as [|z0 nb]; cbn [ev_entry]; rewrite Y1, ?Y2; reflexivity. }
  rewrite EN, ER. destruct (PD' (w x v)) as (_ & R). apply R.
  - intros (s, e) J K. cbn [fst snd] in *. destruct (qi_entry _ _ _ _ _ I s e J) as (s' & p & sp & A & B & C & D & E & F & G). apply SE in A.
    assert (SK : dget s (q_planes qs) = None) by (apply KEY; apply in_map_iff; exists (s, e); auto).
    assert (S0 : s' = outlit o s).
    { destruct (Z.eq_dec s' (outlit o s)) as [|N]; auto. elim D. apply (ONE s' p A); [|rewrite B; exact C]. replace (- s') with (outlit o s); auto. destruct o; cbn in *; lia. }
    intros V. unfold w in V. rewrite SK in V.
    rewrite (EV sp e F). rewrite <- B in C. destruct (BX s' p A C D) as (PR & BB).
    assert (PO : pos_of o s' = Some false).
    { rewrite S0. pose proof (nz_lits _ (gd_nz _ PL)) as NZ. rewrite Forall_forall in NZ. apply NZ in A. assert (0 < s) by lia. destruct o; cbn; [f_equal; apply Z.ltb_ge; lia|f_equal; rewrite (proj2 (Z.ltb_lt 0 s)) by lia; reflexivity|now elim O]. }
    rewrite PO in E. apply (outer_spec p sp x PR BB E). specialize (SD s' p A C). rewrite B, V in SD. exact SD.
  - intros (s, e) J K P. cbn [fst snd] in *. destruct (qi_entry _ _ _ _ _ I s e J) as (s' & p & sp & A & B & C & D & E & F & G). apply SE in A.
    assert (SK : dget s (q_planes qs) = None) by (apply KEY; apply in_map_iff; exists (s, e); auto).
    assert (S0 : s' = - outlit o s).
    { destruct (Z.eq_dec s' (- outlit o s)) as [|N]; auto. elim D. apply (ONE s' p A); [|rewrite B; exact C]. replace (- s') with (- outlit o s); auto. destruct o; cbn in *; lia. }
    unfold inner_ok. rewrite (EV sp e F). intros V. unfold w. rewrite SK. rewrite <- B in C. destruct (BX s' p A C D) as (PR & BB).
    assert (PO : pos_of o s' = Some true).
    { rewrite S0. pose proof (nz_lits _ (gd_nz _ PL)) as NZ. rewrite Forall_forall in NZ. apply NZ in A. assert (0 < s) by lia.
      destruct o; cbn; [rewrite Z.opp_involutive, (proj2 (Z.ltb_lt 0 s)) by lia; reflexivity|f_equal; rewrite (proj2 (Z.ltb_ge 0 (- s))) by lia; reflexivity|now elim O]. }
    rewrite PO in E. assert (CP : exists c a t dbl, p = PCone c a t dbl).
    { clear -P E F BB. destruct e; try discriminate. destruct sp; cbn in F; try contradiction. destruct p; cbn in BB; try contradiction; cbn [to_planes] in E; try (destruct (_ : res (list pl)); discriminate); eauto.
      all: match type of E with (do _ <- ?e; _) = _ => destruct e as [?|?|]; try discriminate end. cbn [bind] in E. match type of E with context [let (_, _) := ?q in _] => destruct q end. discriminate. }
    destruct CP as (c & a & t & dbl & ->). specialize (SD s' _ A C). rewrite B in SD. destruct (v s) eqn:VS; [|reflexivity]. exfalso. apply (inner_spec c a t dbl sp x PR E V SD).
Qed.
