(** Property C58: the PHITS input with one void cell is the conversion. *)
From Coq Require Import QArith Lqa Permutation String.
From Verif Require Import PhitsVoid.
From Verif Require Import Prelude BoolSpec BoolSeq BoolProofs BoolProofs2 CtSpec Ctable VoidCell SurfDict SurfDictProofs
  CellDef CellDefSpec CellDefProofs CellDefProofs2 CellDefProofs3 ConePlanes ConeSpec ConeProofs ConeProofs2 OnProofs OnProofs2 OnCell OnModel OnSpec
  PropsCellDef PropsOn ReachProofs.
From Verif Require Import VoidBoxes VoidBoxSpec VoidBoxProofs VoidLoopProofs BoxDef BoxSpec BoxDefProofs VoidAll VoidAllProofs PropsBool PropsBox Start StartProofs
  ConeStart PropsStart PropsStartCones.
Open Scope Z_scope.

Lemma process_cones_shape G cls same opp al apex iord ci ms : forall d d' ms', process_cones G cls same opp al apex iord ci ms d = Ok (d', ms') ->
  Forall2 (fun m m' => m_id m' = m_id m /\ m_void m' = m_void m /\ (m_def m' = None <-> m_def m = None) /\
    (m_void m = true -> m_info m = None -> m' = m)) ms ms'.
Proof.
  induction ms as [|m ms IH]; intros d d' ms' H; cbn [process_cones] in H; [injection H as <- <-; constructor|].
  destruct (cell_step G cls same opp al apex iord ci d m) as [[d1 m1]| |] eqn:E; try discriminate. cbn [bind] in H.
  destruct (process_cones G cls same opp al apex iord ci ms d1) as [[d2 r2]| |] eqn:E2; try discriminate. cbn [bind] in H. injection H as <- <-.
  constructor; [|eapply IH; eauto]. destruct (cell_step_same _ _ _ _ _ _ _ _ _ _ _ _ E) as (A & B & C). repeat (split; auto; try apply C).
  intros V I. unfold cell_step in E. rewrite V, I in E. injection E as _ <-. reflexivity.
Qed.
Lemma Forall2_in_r {A B} (R : A -> B -> Prop) l m y : Forall2 R l m -> In y m -> exists x, In x l /\ R x y.
Proof. induction 1 as [|a b l m X F IH]; intros []; [subst; exists a; split; [left|]; auto|]. destruct IH as (x & J & K); auto. exists x. split; [right|]; auto. Qed.
Lemma nodup_app2 {A} (l m : list A) : NoDup l -> NoDup m -> (forall x, In x l -> ~ In x m) -> NoDup (l ++ m).
Proof.
  induction 1 as [|x l N ND IH]; cbn [app]; auto. intros M D. constructor.
  - rewrite in_app_iff. intros [H|H]; [contradiction|]. apply (D x); [left|]; auto.
  - apply IH; auto. intros y J. apply D. right. auto.
Qed.
Lemma F2_app_l {A B} (R : A -> B -> Prop) l1 l2 m : Forall2 R (l1 ++ l2) m -> exists m1 m2, m = m1 ++ m2 /\ Forall2 R l1 m1 /\ Forall2 R l2 m2.
Proof. intros H. apply Forall2_app_inv_l in H. destruct H as (m1 & m2 & A1 & A2 & ->). eauto. Qed.

(** The cells of the solids. *)
Definition is_solid (m : mcell) : bool := negb (m_void m) && match m_def m with Some _ => true | None => false end.
Definition solids (ms : list mcell) : list mcell := filter is_solid ms.

Lemma solids_true v ms : filter (cell_true v) (filter (fun m => negb (m_void m)) ms) = filter (cell_true v) (solids ms).
Proof.
  induction ms as [|m ms IH]; auto. unfold solids in *. cbn [filter]. unfold is_solid at 1. destruct (m_void m); cbn [negb andb]; auto.
  destruct (m_def m) eqn:EM; cbn [filter]; [rewrite IH; reflexivity|]. unfold cell_true at 1. rewrite EM. exact IH.
Qed.
Lemma existsb_length {A} (q : A -> bool) x : existsb q x = negb (Nat.eqb (List.length (filter q x)) 0).
Proof. induction x as [|y x IH]; auto. cbn [existsb filter]. destruct (q y); auto. Qed.

(** The list of cells of a conversion: solids, the rest, and the two cells of the graveyard. *)
Lemma start_shape T cls same opp opp_x opp_c al apex sord iord pbox strict k ord mk mode maxsurf maxbracket minSize l u sph d d' ms :
  start T cls same opp opp_x opp_c al apex sord iord pbox strict k ord mk mode maxsurf maxbracket minSize l u sph d = Ok (d', ms) ->
  exists sols rest j id lev t, ms = sols ++ rest ++
      [MC (Some j) true None (Some (Seq AND lev (Lit (- id) :: t))); MC (Some (j + 1)) true None (Some (Seq AND 0 [Lit id]))] /\
    Forall is_sol sols /\ Forall is_rest rest /\ Forall (fun m => m_void m = true \/ m_def m = None) rest /\ sols = solids ms.
Proof.
  intros H. apply start_whole in H. destruct H as (d1 & cs & ci & d2 & infos & vs & rest & d3 & inn & out & EC & EV & EL & EG & _ & EP).
  unfold all_cells in EP. apply process_cones_shape in EP.
  destruct (F2_app_l _ _ _ _ EP) as (sols & r1 & -> & F1 & F2). destruct (F2_app_l _ _ _ _ F2) as (cm & r2 & -> & F3 & F4).
  destruct (F2_app_l _ _ _ _ F4) as (vv & gg & -> & F5 & F6). clear EP F2 F4.
  inversion F6 as [|? a ? r (_ & _ & _ & A) F6']; subst. inversion F6' as [|? b ? r' (_ & _ & _ & B) F6'']; subst. inversion F6''; subst. clear F6 F6' F6''.
  cbn [m_void m_info] in A, B. rewrite (A eq_refl eq_refl), (B eq_refl eq_refl). clear A B a b.
  unfold graveyard, universe_compl in EG. destruct (compl_literals T cls same (bound_planes u) d2) as [[d4 ll]| |] eqn:E; try discriminate. cbn [bind] in EG.
  destruct (add (surface T) cls same (inr sph) d4) as [d5 [id f]]. cbn [append append_loop bind app] in EG. injection EG as <- <- <-.
  assert (FS : Forall is_sol sols).
  { apply Forall_forall. intros m' J. apply (Forall2_in_r _ _ _ _ F1) in J. destruct J as (m & J & A & B & C & _).
    unfold solid_cells in J. apply in_map_iff in J. destruct J as (c & <- & _). cbn [m_id m_void m_def] in *. split; auto. split; [eauto|].
    destruct (m_def m'); [eauto|]. discriminate (proj1 C eq_refl). }
  assert (FR : Forall (fun m => is_rest m /\ (m_void m = true \/ m_def m = None)) (cm ++ vv)).
  { apply Forall_forall. intros m' J. apply in_app_or in J. destruct J as [J|J].
    - apply (Forall2_in_r _ _ _ _ F3) in J. destruct J as (m & [<-|[]] & A & B & C & _). cbn [m_id m_void m_def] in *. assert (X : m_def m' = None) by (apply C; auto).
      split; [right; auto|auto].
    - apply (Forall2_in_r _ _ _ _ F5) in J. destruct J as (m & J & A & B & C & _).
      assert (X : exists i x n, m = MC (Some i) true (Some x) (Some n)).
      { clear - J. revert J. generalize (last_id T l + 1). revert infos. induction vs as [|n vs IH]; intros [|x infos] i J; cbn [void_mcells] in J; try contradiction.
        destruct J as [<-|J]; eauto. }
      destruct X as (i & x & n & ->). cbn [m_id m_void m_def] in *. split; [left; split; auto; split; [eauto|]|auto].
      destruct (m_def m'); [eauto|]. discriminate (proj1 C eq_refl). }
  exists sols, (cm ++ vv), (last_id T l + 1 + Z.of_nat (List.length vs)), id, 1, [Seq OR 0 ll]. split; [|split; [exact FS|split; [|split]]].
  - rewrite <- app_assoc. cbn [m_info]. reflexivity.
  - eapply Forall_impl; [|exact FR]. intros m (A & _). exact A.
  - eapply Forall_impl; [|exact FR]. intros m (_ & A). exact A.
  - unfold solids. rewrite !filter_app. cbn [filter is_solid m_void negb andb]. rewrite Forall_forall in FR, FS.
    assert (N : forall m, In m (cm ++ vv) -> is_solid m = false) by (intros m J; unfold is_solid; destruct (FR m J) as (_ & [-> | ->]); [reflexivity|apply andb_false_r]).
    rewrite (filter_none is_solid cm) by (intros m J; apply N, in_or_app; auto). rewrite (filter_none is_solid vv) by (intros m J; apply N, in_or_app; auto).
    rewrite !app_nil_r. symmetry. apply filter_all. intros m J. destruct (FS m J) as (V & _ & n & X). unfold is_solid. rewrite V, X. reflexivity.
Qed.

Lemma start_nonzero : forall T cls same opp opp_x opp_c al apex sord iord pbox strict k ord mk mode maxsurf maxbracket minSize
    o (h : list (op (surface T))) d l u sph d' ms,
  0 <= o -> (forall i, ~ In (Del i) h) -> run (surface T) cls same h (empty o) = Ok d -> (forall l, Permutation (sord l) l) ->
  (forall i ps pc f, In (i, ps) l -> In pc ps -> In f (p_faces pc) -> found cls same d (p_inv pc) f) ->
  start T cls same opp opp_x opp_c al apex sord iord pbox strict k ord mk mode maxsurf maxbracket minSize l u sph d = Ok (d', ms) ->
  forall m n z, In m ms -> m_def m = Some n -> In z (lits n) -> z <> 0.
Proof.
  intros T cls same opp opp_x opp_c al apex sord iord pbox strict k ord mk mode maxsurf maxbracket minSize o h d l u sph d' ms HO ND R HS HF H m n z I E J ->.
  destruct (C57_known T cls same opp opp_x opp_c al apex sord iord pbox strict k ord mk mode maxsurf maxbracket minSize o h d l u sph d' ms HO ND R HS HF H m n I E 0 J) as (s & RS & ES & _).
  destruct (start_parts _ _ _ _ _ _ _ _ _ _ _ _ _ _ _ _ _ _ _ _ _ _ _ _ _ H) as (d1 & cs & ci & d2 & infos & vs & rest & d3 & inn & out & EC & EV & EL & EG & EP).
  pose proof (run_any _ _ _ _ _ _ ND R) as D.
  destruct (cell_defs_known T cls same opp opp_x sord HS o HO d l HF d d1 cs ci D (grow_refl _ _) EC) as (D1 & G1 & _ & F1).
  destruct (void_level0_on T cls same o HO (anyg _) (fun _ => Logic.I) strict k ord mk mode maxsurf maxbracket minSize (map (void_meta T pbox) cs) u d1 d2 vs rest D1) as (D2 & G2 & F2); auto.
  { apply Forall_map. exact F1. }
  destruct (graveyard_on T cls same o HO (anyg _) (fun _ => Logic.I) _ _ _ _ _ _ Logic.I D2 EG) as (D3 & G3 & F3 & F4).
  assert (G13 : grow (surface T) d1 d3) by (eapply grow_trans; eauto).
  pose proof (fun X => process_cones_on (surface T) cls same o HO (anyg _) opp_c al apex iord (fun _ => Logic.I) ci _ d3 d' ms D3 X EP) as K. destruct K as (D4 & _ & F).
  - apply Forall_app. split; [|apply Forall_app; split; [|apply Forall_app; split]].
    + unfold solid_cells. apply Forall_map. apply Forall_forall. intros c J'. apply filter_In in J'. destruct J' as (J' & _).
      rewrite Forall_forall in F1. unfold onc. cbn [m_def]. eapply on_grow; [exact G13|]. apply F1. exact J'.
    + constructor; auto. exact Logic.I.
    + apply Forall_forall. intros x J'. unfold onc. destruct (m_def x) as [y|] eqn:EX; auto. eapply on_grow; [exact G3|]. apply F2. eapply void_mcells_defs; eauto.
    + constructor; [exact F3|]. constructor; [exact F4|constructor].
  - apply (reg_pos _ _ _ _ HO _ _ D4) in RS. rewrite ES in RS. cbn in RS. lia.
Qed.

(** For every conversion as in C57_known (any boxes, cones, void options; no hypothesis on the geometry):
    the STEP file without enclosures gives a PHITS file.  Its cells are those of the solids, with the same
    definitions and the numbers [sc], [sc] + 1, ...; the inner void cell, without all these numbers; and the
    outer void cell; with different numbers; only the outer one is marked as outside (-1).  At every place where the void cells of the conversion
    are right (exactly one is true outside of the solids, none inside: C57), so are the two
    void cells of the file: the inner one is true exactly where no solid and not the outer one is. *)
Theorem C58_merged : forall T cls same opp opp_x opp_c al apex sord iord pbox strict k ord mk mode maxsurf maxbracket minSize
    o (h : list (op (surface T))) d l u sph d' ms mat_of info_of com_of sc,
  0 <= o -> (forall i, ~ In (Del i) h) -> run (surface T) cls same h (empty o) = Ok d -> (forall l, Permutation (sord l) l) ->
  (forall i ps pc f, In (i, ps) l -> In pc ps -> In f (p_faces pc) -> found cls same d (p_inv pc) f) ->
  start T cls same opp opp_x opp_c al apex sord iord pbox strict k ord mk mode maxsurf maxbracket minSize l u sph d = Ok (d', ms) ->
  exists file outs inner outer,
    merged_file sc (label_cells mat_of info_of com_of sc ms) = Ok file /\
    filter is_cell file = outs ++ [inner; outer] /\
    map def_of outs = map m_def (solids ms) /\
    map number_of outs = map (fun i => sc + Z.of_nat i) (seq 0 (List.length (solids ms))) /\
    (forall c, In c outs -> hashes c = [] /\ outside c = false) /\ hashes inner = map number_of outs /\ hashes outer = [] /\ outside inner = false /\ outside outer = true /\
    NoDup (map number_of (outs ++ [inner; outer])) /\
    forall v, List.length (filter (cell_true v) (filter m_void ms)) = (if existsb (cell_true v) (solids ms) then 0 else 1)%nat ->
      phits_true v file inner = negb (existsb (cell_true v) (solids ms)) && negb (phits_true v file outer) /\
      (existsb (cell_true v) (solids ms) = true -> phits_true v file outer = false) /\
      List.length (filter (phits_true v file) outs) = List.length (filter (cell_true v) (solids ms)) /\
      List.length (filter (phits_true v file) file) = Nat.max 1 (List.length (filter (cell_true v) (solids ms))).
Proof.
  intros T cls same opp opp_x opp_c al apex sord iord pbox strict k ord mk mode maxsurf maxbracket minSize o h d l u sph d' ms mat_of info_of com_of sc HO ND R HS HF H.
  pose proof (start_nonzero _ _ _ _ _ _ _ _ _ _ _ _ _ _ _ _ _ _ _ _ _ _ _ _ _ _ _ HO ND R HS HF H) as NZ.
  destruct (start_shape _ _ _ _ _ _ _ _ _ _ _ _ _ _ _ _ _ _ _ _ _ _ _ _ _ H) as (sols & rest & j & id & lev & t & EM & FS & FR & FV & ES).
  assert (NID : id <> 0).
  { apply (NZ (MC (Some (j + 1)) true None (Some (Seq AND 0 [Lit id]))) (Seq AND 0 [Lit id]) id); [|reflexivity|left; auto]. rewrite EM. apply in_or_app. right. apply in_or_app. right. right. left. reflexivity. }
  destruct (phits_file mat_of info_of com_of sc sols rest (MC (Some j) true None (Some (Seq AND lev (Lit (- id) :: t)))) (MC (Some (j + 1)) true None (Some (Seq AND 0 [Lit id]))) j (j + 1) id lev t FS FR eq_refl eq_refl eq_refl eq_refl eq_refl eq_refl) as (fl & na & E1 & NA & E2).
  rewrite <- EM in E1. rewrite <- ES. set (file := flat_map snd fl) in *.
  match type of E2 with _ = _ ++ [?x; ?y] => set (inner := x) in *; set (outer := y) in * end.
  exists file, (sols_out mat_of info_of com_of sc sols), inner, outer. set (outs := sols_out mat_of info_of com_of sc sols) in *.
  assert (NUM : map number_of outs = map (fun i => sc + Z.of_nat i) (seq 0 (List.length sols))).
  { unfold outs. clear. revert sc. induction sols as [|m sols IH]; intros sc; auto. cbn [sols_out map List.length seq number_of sol_out]. rewrite IH. f_equal; [lia|].
    rewrite <- seq_shift, map_map. apply map_ext. intros a. lia. }
  split; [unfold merged_file; rewrite E1; reflexivity|]. split; [exact E2|]. split.
  { unfold outs. clear - FS. revert sc. induction FS as [|m sols (_ & _ & n & E) F IH]; intros sc; auto. cbn [sols_out map]. rewrite IH. f_equal. unfold sol_out. cbn [def_of]. rewrite E. reflexivity. }
  split; [exact NUM|]. split; [intros c J; destruct (sols_numbers _ _ _ _ _ _ J) as (_ & J1 & _ & J2); auto|]. split.
  { cbn [hashes inner]. rewrite NUM. unfold Verif.Export.zrange. replace (Z.of_nat (List.length sols) + sc - sc) with (Z.of_nat (List.length sols)) by lia. rewrite Nat2Z.id. reflexivity. }
  split; [reflexivity|]. split; [reflexivity|]. split; [reflexivity|]. split.
  { rewrite map_app, NUM. cbn [map number_of inner outer]. apply nodup_app2.
    - apply FinFun.Injective_map_NoDup; [|apply seq_NoDup]. intros a b X. lia.
    - constructor; [intros [X|[]]; lia|]. constructor; [intros []|constructor].
    - intros x J [<-|[<-|[]]]; apply in_map_iff in J; destruct J as (q & X & J); apply in_seq in J; lia. }
  intros v V.
  assert (ST : forall m, sol_true v m = cell_true v m) by reflexivity.
  assert (OUT : phits_true v file outer = eval v (Lit id)).
  { cbn [phits_true outer forallb]. rewrite andb_true_r. cbn. rewrite andb_true_r. reflexivity. }
  assert (INN : phits_true v file inner = negb (existsb (cell_true v) sols) && negb (phits_true v file outer)).
  { pose proof (hash_all mat_of info_of com_of v sols sc [inner; outer] FS) as HA. fold outs in HA. rewrite <- E2 in HA.
    rewrite OUT, phits_true_filter. cbn [phits_true inner]. rewrite HA.
    - replace (eval v (Seq AND lev [Lit (- id)])) with (negb (eval v (Lit id))); [apply andb_comm|]. clear - NID. destruct id; [lia| |]; cbn; rewrite ?negb_involutive, ?andb_true_r; auto.
    - intros c [<-|[<-|[]]]; cbn [number_of inner outer]; lia. }
  assert (OFF : existsb (cell_true v) sols = true -> phits_true v file outer = false).
  { intros X. rewrite X in V. rewrite OUT. destruct (eval v (Lit id)) eqn:EI; auto. exfalso.
    assert (J : In (MC (Some (j + 1)) true None (Some (Seq AND 0 [Lit id]))) (filter (cell_true v) (filter m_void ms))).
    { apply filter_In. split.
      - apply filter_In. split; [|reflexivity]. rewrite EM. apply in_or_app. right. apply in_or_app. right. right. left. reflexivity.
      - unfold cell_true. cbn [m_def]. cbn in *. rewrite EI. reflexivity. }
    destruct (filter (cell_true v) (filter m_void ms)); [destruct J|cbn in V; lia]. }
  split; [exact INN|]. split; [exact OFF|]. split; [apply sols_true; exact FS|].
  pose proof (sols_true mat_of info_of com_of v file sols sc FS) as LS. fold outs in LS.
  rewrite <- (filter_both (phits_true v file) is_cell) by (intros []; [discriminate|reflexivity]). rewrite E2, filter_app, app_length, LS.
  cbn [filter]. change (filter (sol_true v) sols) with (filter (cell_true v) sols).
  destruct (existsb (cell_true v) sols) eqn:EX.
  - rewrite INN, (OFF eq_refl). cbn [negb andb List.length]. apply existsb_exists in EX. destruct EX as (m & J & X).
    assert (List.length (filter (cell_true v) sols) <> 0)%nat; [|lia]. intros C. apply length_zero_iff_nil in C. assert (In m (filter (cell_true v) sols)) as Y by (apply filter_In; auto). rewrite C in Y. destruct Y.
  - rewrite INN. cbn [negb andb]. rewrite (filter_none (cell_true v) sols); [destruct (phits_true v file outer); reflexivity|].
    intros m J. apply not_true_is_false. intros X. assert (existsb (cell_true v) sols = true); [|congruence]. apply existsb_exists. eauto.
Qed.

(** Full property: for every geometry.  Missing: as in C57_cones_partial, whose hypotheses these are
    (see there); the normalisation of planes is C28, the texts are C17.

    The PHITS file with one void cell partitions space: with the cards, the solid cells that are true at
    [p] are as many as the solids there; if there is none, exactly one of the inner and outer
    void cells is true, otherwise none. *)
Theorem C58_partition_partial : forall T (cardT realT : T -> bool) cls same opp opp_x opp_c al apex sord iord pbox k ord mk mode maxsurf maxbracket minSize
    o (h : list (op (surface T))) d (P : surface T -> Prop) p (l : list (solid T)) u sph d' ms inS mat_of info_of com_of sc,
  0 <= o -> (forall i, ~ In (Del i) h) -> (forall g, In (Add g) h -> P g) -> run (surface T) cls same h (empty o) = Ok d ->
  (forall q, P (inl q)) -> P (inr sph) ->
  exact_planes T same -> faithful cls same opp opp_x P (side T realT p) ->
  faithful cls same opp_c opp_c P (side T cardT p) -> two_sheets cls al apex (side T cardT p) (side T realT p) ->
  (forall g, P g -> tilted cls al g -> P (apex g) /\ CellDefSpec.plane cls (apex g)) ->
  (forall s, same (inr sph) s = true -> exists t, s = inr t /\ realT t = realT sph) -> realT sph = negb (in_sphere u p) ->
  (forall l, Permutation (sord l) l) -> (forall l, Permutation (iord l) l) ->
  (forall n x, wf n -> In x (ord n) -> 0 < x) ->
  (forall b d sl t, mk b d sl = Ok t -> regular t /\ pos_keys t) ->
  (forall v b d sl t, mk b d sl = Ok t -> BoxSpec.agrees T realT p v d -> halfb b p = true -> in_box t v) ->
  (0 < minSize)%Q -> (forall a, (0 < len u a)%Q) ->
  (weight minSize u < inject_Z (2 ^ 50) * (minSize * minSize * minSize))%Q ->
  NoDup (map fst l) ->
  (forall i ps pc, In (i, ps) l -> In pc ps -> groups_ok cls same d pc /\
     forall f, In f (p_faces pc) -> found cls same d (p_inv pc) f /\ kinds_ok cls f /\ forall g, geometry f g -> P g) ->
  (forall s, In s l -> (inS s = true <->
     exists pc, In pc (snd s) /\ has_face pc /\ piece_holds cls (side T realT p) (number_in cls same d) pc)) ->
  (forall s pc, In s l -> In pc (snd s) -> piece_holds cls (side T realT p) (number_in cls same d) pc -> inside (pbox pc) p) ->
  (forall s, In s l -> inS s = true -> halfb u p = true) ->
  (forall i ps pc f a ins g, In (i, ps) l -> In pc ps -> In f (p_faces pc) ->
     t_v (f_torus f) = Some (a, ins) -> cls g = cls a -> g = a \/ same a g = true -> ~ tilted cls al g) ->
  (forall d3 ci ms0 m n z,
     start0 T cls same opp opp_x sord pbox true k ord mk mode maxsurf maxbracket minSize l u sph d = Ok (d3, ci, ms0) ->
     In m ms0 -> m_void m = true -> m_def m = Some n -> In z (lits n) -> tilted_number cls al d3 z -> recorded ci m z) ->
  start T cls same opp opp_x opp_c al apex sord iord pbox true k ord mk mode maxsurf maxbracket minSize l u sph d = Ok (d', ms) ->
  exists file outs inner outer,
    merged_file sc (label_cells mat_of info_of com_of sc ms) = Ok file /\ filter is_cell file = outs ++ [inner; outer] /\
    forall v, BoxSpec.agrees T cardT p v d' ->
      List.length (filter (phits_true v file) outs) = List.length (filter inS l) /\
      phits_true v file inner = negb (existsb inS l) && negb (phits_true v file outer) /\
      (existsb inS l = true -> phits_true v file outer = false) /\
      List.length (filter (phits_true v file) file) = Nat.max 1 (List.length (filter inS l)).
Proof.
  intros T cardT realT cls same opp opp_x opp_c al apex sord iord pbox k ord mk mode maxsurf maxbracket minSize o h d P p l u sph d' ms inS mat_of info_of com_of sc
    HO ND PH R HPL HPS HX FA FC TS HAP HSP HSS HS HI HORD HMK HBX HM HU HW NDI HPC HIN HPB HUB HTV HREC H.
  pose proof (C57_cones_partial T cardT realT cls same opp opp_x opp_c al apex sord iord pbox k ord mk mode maxsurf maxbracket minSize o h d P p l u sph d' ms inS
    HO ND PH R HPL HPS HX FA FC TS HAP HSP HSS HS HI HORD HMK HBX HM HU HW NDI HPC HIN HPB HUB HTV HREC H) as (_ & K).
  assert (HF : forall i ps pc f, In (i, ps) l -> In pc ps -> In f (p_faces pc) -> found cls same d (p_inv pc) f).
  { intros i ps pc f A B C. destruct (HPC i ps pc A B) as (_ & X). exact (proj1 (X f C)). }
  destruct (C58_merged T cls same opp opp_x opp_c al apex sord iord pbox true k ord mk mode maxsurf maxbracket minSize o h d l u sph d' ms mat_of info_of com_of sc
    HO ND R HS HF H) as (file & outs & inner & outer & E1 & E2 & _ & _ & _ & _ & _ & _ & _ & _ & M).
  exists file, outs, inner, outer. split; auto. split; auto. intros v AV. destruct (K v AV) as (_ & K1 & K2 & _).
  assert (C : List.length (filter (cell_true v) (solids ms)) = List.length (filter inS l)).
  { rewrite <- K1, solids_true. reflexivity. }
  assert (X : existsb (cell_true v) (solids ms) = existsb inS l).
  { rewrite !existsb_length, C. reflexivity. }
  destruct (M v) as (M1 & M2 & M3 & M4); [rewrite X; exact K2|]. rewrite X in *. rewrite C in *. auto.
Qed.

(** Two boxes with a common face (C57_ex): the conversion has 41 void and graveyard cells, the
    PHITS file two; every place of space is in exactly one of its four cells. *)
Definition file58 : list Verif.Export.ocell :=
  match merged_file 5 (label_cells (fun i => i) (fun _ => "steel"%string) (fun _ => ""%string) 5 cells57) with Ok f => f | _ => [] end.
Example C58_ex : exists d', start57 false = Ok (d', cells57) /\
  merged_file 5 (label_cells (fun i => i) (fun _ => "steel"%string) (fun _ => ""%string) 5 cells57) = Ok file58 /\
  map (fun o => (number_of o, hashes o)) (filter is_cell file58) = [(5, []); (6, []); (46, [5; 6]); (47, [])] /\
  forall p v, BoxSpec.agrees nat (fun _ => negb (in_sphere (cube 8) p)) p v d' ->
    List.length (filter (phits_true v file58) file58) = 1%nat.
Proof.
  destruct C57_ex as (d' & E & _ & K). exists d'. split; [exact E|]. split; [vm_compute; reflexivity|]. split; [vm_compute; reflexivity|].
  intros p v AV. specialize (K p v AV).
  destruct (C58_merged nat cls0 same0 opp57 opp57 opp57 (fun _ => true) (fun g => g) (fun l => l) (fun l => l) pbox57
    false 20 ascending mkno SNo 6 1 1 0 h57 d57 l57 (cube 8) 0%nat d' cells57 (fun i => i) (fun _ => "steel"%string) (fun _ => ""%string) 5)
    as (file & outs & inner & outer & E1 & _ & _ & _ & _ & _ & _ & _ & _ & _ & M).
  - lia.
  - intros i J. cbn in J. repeat (destruct J as [J|J]; [discriminate|]). destruct J.
  - exact run57.
  - auto.
  - assert (F : forall b f, In f (p_faces (box_piece b)) -> found cls0 same0 d57 (p_inv (box_piece b)) f).
    { intros b f J. assert (X : exists o q, f = flat_face o q) by (cbn in J; repeat (destruct J as [<-|J]; [eexists _, _; reflexivity|]); destruct J).
      destruct X as (o & q & ->). intros pos J2. exists (inl q). split; [reflexivity|]. split; [left; unfold CellDefSpec.plane; cbn; destruct (paxis q); auto|]. cbn. destruct (paxis q); discriminate. }
    intros i ps pc f [[= <- <-]|[[= <- <-]|[]]] [<-|[]] J; apply F; exact J.
  - exact E.
  - assert (X : file = file58) by (unfold file58; rewrite E1; reflexivity). subst file.
    rewrite (filter_split (cell_true v) m_void cells57) in K.
    assert (C : List.length (filter (cell_true v) (filter (fun m => negb (m_void m)) cells57)) = List.length (filter (cell_true v) (solids cells57))).
    { rewrite (solids_true v cells57). reflexivity. }
    rewrite C in K.
    assert (L : existsb (cell_true v) (solids cells57) = negb (Nat.eqb (List.length (filter (cell_true v) (solids cells57))) 0)).
    { apply existsb_length. }
    destruct (M v) as (_ & _ & _ & M4).
    + rewrite L. destruct (List.length (filter (cell_true v) (solids cells57))) as [|[|q]]; cbn [Nat.eqb negb]; lia.
    + rewrite M4. destruct (List.length (filter (cell_true v) (solids cells57))) as [|[|q]]; lia.
Qed.
Print Assumptions C58_merged.
Print Assumptions C58_partition_partial.
