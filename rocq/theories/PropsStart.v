(** Property C57: a whole conversion without enclosures, from the faces of the pieces to the
    list of cells. *)
From Coq Require Import QArith Lqa Permutation.
From Verif Require Import Prelude BoolSpec BoolSeq BoolProofs BoolProofs2 CtSpec Ctable VoidCell SurfDict SurfDictProofs
  CellDef CellDefSpec CellDefProofs CellDefProofs2 CellDefProofs3 ConePlanes ConeProofs OnProofs OnProofs2 OnCell OnModel OnSpec
  PropsCellDef PropsOn ReachProofs.
From Verif Require Import VoidBoxes VoidBoxSpec VoidBoxProofs VoidLoopProofs BoxDef BoxSpec BoxDefProofs VoidAll VoidAllProofs PropsBool PropsBox Start StartProofs.
Open Scope Z_scope.

(** The place with sides [v] is in the cell. *)
Definition cell_true (v : point) (m : mcell) : bool :=
  match m_def m with Some n => eval v n | None => false end.

Lemma filter_map {A B} (f : A -> B) (q : B -> bool) l : filter q (map f l) = map f (filter (fun x => q (f x)) l).
Proof. induction l as [|x l IH]; cbn [filter map]; auto. rewrite IH. destruct (q (f x)); reflexivity. Qed.
Lemma filter_all {A} (q : A -> bool) l : (forall x, In x l -> q x = true) -> filter q l = l.
Proof.
  induction l as [|x l IH]; cbn [filter]; intros H; auto. rewrite (H x) by (left; auto). rewrite IH; auto. intros; apply H. right; auto.
Qed.
Lemma filter_none {A} (q : A -> bool) l : (forall x, In x l -> q x = false) -> filter q l = [].
Proof.
  induction l as [|x l IH]; cbn [filter]; intros H; auto. rewrite (H x) by (left; auto). apply IH. intros; apply H. right; auto.
Qed.

Lemma filter_split {A} (q r : A -> bool) l :
  length (filter q l) = (length (filter q (filter r l)) + length (filter q (filter (fun x => negb (r x)) l)))%nat.
Proof.
  induction l as [|x l IH]; auto. cbn [filter]. destruct (r x); cbn [negb filter]; destruct (q x); cbn [length]; rewrite IH; lia.
Qed.

Lemma void_mcells_void : forall vs infos i m, In m (void_mcells i vs infos) -> m_void m = true.
Proof.
  induction vs as [|n vs IH]; intros [|x infos] i m I; cbn [void_mcells] in I; try contradiction. 
  destruct I as [<-|I]; auto. eapply IH; eauto.
Qed.
Lemma void_mcells_count v : forall vs infos i, length infos = length vs ->
  length (filter (cell_true v) (void_mcells i vs infos)) = length (filter (eval v) vs).
Proof.
  induction vs as [|n vs IH]; intros [|x infos] i E; cbn [length] in E; try discriminate; auto. cbn [void_mcells filter]. unfold cell_true at 1. cbn [m_def].
  destruct (eval v n); cbn [length]; rewrite IH; auto.
Qed.
Lemma void_mcells_defs : forall vs infos i m n, In m (void_mcells i vs infos) -> m_def m = Some n -> In n vs.
Proof.
  induction vs as [|n vs IH]; intros [|x infos] i m n' I E; cbn [void_mcells] in I; try contradiction.
  destruct I as [<-|I]; [left; cbn in E; congruence|]. right. eapply IH; eauto.
Qed.

(** Without the events of C15 (ghost run) the run is the real one. *)
Lemma start_strict T cls same opp opp_x opp_c al apex sord iord pbox k ord mk mode maxsurf maxbracket minSize l u sph d x :
  start T cls same opp opp_x opp_c al apex sord iord pbox true k ord mk mode maxsurf maxbracket minSize l u sph d = Ok x ->
  start T cls same opp opp_x opp_c al apex sord iord pbox false k ord mk mode maxsurf maxbracket minSize l u sph d = Ok x.
Proof.
  unfold start, start0. intros H. destruct (cell_defs T cls same opp opp_x sord l d) as [[[d1 cs] ci]| |]; cbn [bind] in *; try discriminate.
  match type of H with bind (bind ?e _) _ = _ => destruct e as [y| |] eqn:E; try discriminate end.
  assert (E' : void_noted0 T cls same false k ord mk mode maxsurf maxbracket minSize (map (void_meta T pbox) cs) u d1 = Ok y).
  { unfold void_noted0 in *. eapply get_void_def_mono; [|exact E]. intros z x0 y0 HV. unfold void_noted in *.
    destruct (void_box T cls same true k ord mk mode z (fst x0)) as [[d2 c]| |] eqn:EB; try discriminate. apply void_box_strict in EB. rewrite EB. exact HV. }
  rewrite E'. exact H.
Qed.

(** The parts of a run. *)
Lemma start_parts T cls same opp opp_x opp_c al apex sord iord pbox strict k ord mk mode maxsurf maxbracket minSize l u sph d d' ms :
  start T cls same opp opp_x opp_c al apex sord iord pbox strict k ord mk mode maxsurf maxbracket minSize l u sph d = Ok (d', ms) ->
  exists d1 cs ci d2 infos vs rest d3 inn out,
    cell_defs T cls same opp opp_x sord l d = Ok (d1, cs, ci) /\
    void_level0 T cls same strict k ord mk mode maxsurf maxbracket minSize (map (void_meta T pbox) cs) u d1 = Ok (d2, (vs, rest)) /\
    length infos = length vs /\
    graveyard T cls same u sph d2 = Ok (d3, (inn, out)) /\
    process_cones (surface T) cls same opp_c al apex iord ci
      (solid_cells T cs ++ [MC None false None None] ++ void_mcells (last_id T l + 1) vs infos ++
       [MC (Some (last_id T l + 1 + Z.of_nat (length vs))) true None (Some inn);
        MC (Some (last_id T l + 1 + Z.of_nat (length vs) + 1)) true None (Some out)]) d3 = Ok (d', ms).
Proof.
  unfold start, start0. intros H. destruct (cell_defs T cls same opp opp_x sord l d) as [[[d1 cs] ci]| |] eqn:EC; cbn [bind] in *; try discriminate.
  match type of H with bind (bind ?e _) _ = _ => destruct e as [[[d2 infos] [vs rest]]| |] eqn:EV; try discriminate end. cbn [bind] in H.
  match type of H with bind (bind ?e _) _ = _ => destruct e as [[d3 [inn out]]| |] eqn:EG; try discriminate end. cbn [bind] in H.
  apply (get_void_def_log Empty_set _ _ maxsurf maxbracket minSize _ _ (void_box T cls same strict k ord mk mode)
           (fun z => cells_in (map (fun m => (mencl m, mid m)) (vobj z)))) in EV.
  destruct EV as (EV & EL).
  exists d1, cs, ci, d2, infos, vs, rest, d3, inn, out. split; auto.
Qed.

(** Every surface of a cell is registered, with any cones and without any hypothesis on the
    void generation. *)
Theorem C57_known : forall T cls same opp opp_x opp_c al apex sord iord pbox strict k ord mk mode maxsurf maxbracket minSize
    o (h : list (op (surface T))) d l u sph d' ms,
  0 <= o -> (forall i, ~ In (Del i) h) -> run (surface T) cls same h (empty o) = Ok d -> (forall l, Permutation (sord l) l) ->
  (forall i ps pc f, In (i, ps) l -> In pc ps -> In f (p_faces pc) -> found cls same d (p_inv pc) f) ->
  start T cls same opp opp_x opp_c al apex sord iord pbox strict k ord mk mode maxsurf maxbracket minSize l u sph d = Ok (d', ms) ->
  forall m n, In m ms -> m_def m = Some n -> known d' n.
Proof.
  intros T cls same opp opp_x opp_c al apex sord iord pbox strict k ord mk mode maxsurf maxbracket minSize o h d l u sph d' ms HO ND R HS HF H m n I E.
  destruct (start_parts _ _ _ _ _ _ _ _ _ _ _ _ _ _ _ _ _ _ _ _ _ _ _ _ _ H) as (d1 & cs & ci & d2 & infos & vs & rest & d3 & inn & out & EC & EV & EL & EG & EP).
  pose proof (run_any _ _ _ _ _ _ ND R) as D.
  destruct (cell_defs_known T cls same opp opp_x sord HS o HO d l HF d d1 cs ci D (grow_refl _ _) EC) as (D1 & G1 & _ & F1).
  destruct (void_level0_on T cls same o HO (anyg _) (fun _ => Logic.I) strict k ord mk mode maxsurf maxbracket minSize (map (void_meta T pbox) cs) u d1 d2 vs rest D1) as (D2 & G2 & F2); auto.
  { apply Forall_map. exact F1. }
  destruct (graveyard_on T cls same o HO (anyg _) (fun _ => Logic.I) _ _ _ _ _ _ Logic.I D2 EG) as (D3 & G3 & F3 & F4).
  assert (G13 : grow (surface T) d1 d3) by (eapply grow_trans; eauto).
  pose proof (fun X => process_cones_on (surface T) cls same o HO (anyg _) opp_c al apex iord (fun _ => Logic.I) ci _ d3 d' ms D3 X EP) as K. destruct K as (D4 & _ & F).
  - apply Forall_app. split; [|apply Forall_app; split; [|apply Forall_app; split]].
    + unfold solid_cells. apply Forall_map. apply Forall_forall. intros c J. apply filter_In in J. destruct J as (J & _).
      rewrite Forall_forall in F1. unfold onc. cbn [m_def]. eapply on_grow; [exact G13|]. apply F1. exact J.
    + constructor; auto. exact Logic.I.
    + apply Forall_forall. intros x J. unfold onc. destruct (m_def x) as [y|] eqn:EX; auto. eapply on_grow; [exact G3|]. apply F2. eapply void_mcells_defs; eauto.
    + constructor; [exact F3|]. constructor; [exact F4|constructor].
  - rewrite Forall_forall in F. specialize (F m I). unfold onc in F. rewrite E in F. eapply on_known; eauto.
Qed.

Section Counts.
  Context {A B : Type}.
  Variable R : A -> B -> Prop.
  Variables (f : A -> bool) (g : B -> bool).
  Hypothesis H : forall a b, R a b -> f a = g b.
  Lemma F2_count l m : Forall2 R l m -> length (filter f l) = length (filter g m).
  Proof. induction 1 as [|a b l m X F IH]; auto. cbn [filter]. rewrite (H a b X). destruct (g b); cbn [length]; auto. Qed.
  Lemma F2_ex l m : Forall2 R l m -> existsb f l = existsb g m.
  Proof. induction 1 as [|a b l m X F IH]; auto. cbn [existsb]. rewrite (H a b X), IH. auto. Qed.
End Counts.

(** The cells before the apex planes. *)
Definition all_cells T (l : list (solid T)) (cs : list (cell T)) vs infos inn out : list mcell :=
  solid_cells T cs ++ [MC None false None None] ++ void_mcells (last_id T l + 1) vs infos ++
       [MC (Some (last_id T l + 1 + Z.of_nat (length vs))) true None (Some inn);
        MC (Some (last_id T l + 1 + Z.of_nat (length vs) + 1)) true None (Some out)].
Definition truths {T} (v : point) (inS : solid T -> bool) (l : list (solid T)) (ms : list mcell) : Prop :=
    (forall s, In s l -> (inS s = true <-> exists m, In m ms /\ m_void m = false /\ m_id m = Some (fst s) /\ cell_true v m = true)) /\
    length (filter (cell_true v) (filter (fun m => negb (m_void m)) ms)) = length (filter inS l) /\
    length (filter (cell_true v) (filter m_void ms)) = (if existsb inS l then 0%nat else 1%nat) /\
    length (filter (cell_true v) ms) = Nat.max 1 (length (filter inS l)).
Lemma start_true : forall T (sideT : T -> bool) cls same opp opp_x sord pbox k ord mk mode maxsurf maxbracket minSize
    o (h : list (op (surface T))) d (P : surface T -> Prop) p (l : list (solid T)) u sph inS,
  0 <= o -> (forall i, ~ In (Del i) h) -> (forall g, In (Add g) h -> P g) -> run (surface T) cls same h (empty o) = Ok d ->
  exact_planes T same -> faithful cls same opp opp_x P (side T sideT p) ->
  (forall s, same (inr sph) s = true -> exists t, s = inr t /\ sideT t = sideT sph) -> sideT sph = negb (in_sphere u p) ->
  (forall l, Permutation (sord l) l) ->
  (forall n x, wf n -> In x (ord n) -> 0 < x) ->
  (forall b d sl t, mk b d sl = Ok t -> regular t /\ pos_keys t) ->
  (forall v b d sl t, mk b d sl = Ok t -> BoxSpec.agrees T sideT p v d -> halfb b p = true -> in_box t v) ->
  (0 < minSize)%Q -> (forall a, (0 < len u a)%Q) ->
  (weight minSize u < inject_Z (2 ^ 50) * (minSize * minSize * minSize))%Q ->
  NoDup (map fst l) ->
  (forall i ps pc, In (i, ps) l -> In pc ps -> groups_ok cls same d pc /\
     forall f, In f (p_faces pc) -> found cls same d (p_inv pc) f /\ kinds_ok cls f /\ forall g, geometry f g -> P g) ->
  (forall s, In s l -> (inS s = true <->
     exists pc, In pc (snd s) /\ has_face pc /\ piece_holds cls (side T sideT p) (number_in cls same d) pc)) ->
  (forall s pc, In s l -> In pc (snd s) -> piece_holds cls (side T sideT p) (number_in cls same d) pc -> inside (pbox pc) p) ->
  (forall s, In s l -> inS s = true -> halfb u p = true) ->
  forall d1 cs ci d2 infos vs rest d3 inn out,
    cell_defs T cls same opp opp_x sord l d = Ok (d1, cs, ci) ->
    void_level0 T cls same true k ord mk mode maxsurf maxbracket minSize (map (void_meta T pbox) cs) u d1 = Ok (d2, (vs, rest)) ->
    length infos = length vs ->
    graveyard T cls same u sph d2 = Ok (d3, (inn, out)) ->
  grow (surface T) d d1 /\ grow (surface T) d1 d3 /\ dok (surface T) cls P o d1 /\
  Forall (fun c => on (num (surface T) d1) (c_def c)) cs /\
  (forall i zs z, In (i, zs) ci -> In z zs -> cone_num T cls d z) /\ NoDup (map fst ci) /\
  Forall2 (cell_rel T cls same (side T sideT p) d d1) l cs /\
  forall v, BoxSpec.agrees T sideT p v d3 -> truths v inS l (all_cells T l cs vs infos inn out).
Proof.
  intros T sideT cls same opp opp_x sord pbox k ord mk mode maxsurf maxbracket minSize o h d P p l u sph inS
    HO ND PH R HX FA HSP HSS HS HORD HMK HBX HM HU HW NDI HPC HIN HPB HUB d1 cs ci d2 infos vs rest d3 inn out EC EV EL EG.
  pose proof (run_dok _ cls same P o h d ND PH R) as D0. pose proof (run_any _ _ _ _ _ _ ND R) as DA.
  assert (PG : forall i ps pc, In (i, ps) l -> In pc ps -> piece_good (surface T) cls same P d pc).
  { intros i ps pc A B. destruct (HPC i ps pc A B) as (X & Y). split; auto. }
  destruct (cell_defs_ok T cls same opp opp_x sord HS o HO P (side T sideT p) FA d D0 l PG d D0 (grow_refl _ _))
    as (d1' & cs' & ci' & EC' & D1 & G1 & FR & CN & _ & NDC). rewrite EC in EC'. injection EC' as <- <- <-.
  specialize (NDC NDI).
  destruct (cell_defs_known T cls same opp opp_x sord HS o HO d l) with (d := d) (d' := d1) (cs := cs) (ci := ci) as (DA1 & _ & RE1 & F1); auto; [|apply grow_refl|].
  { intros i ps pc f A B C. apply (HPC i ps pc A B). auto. }
  destruct (void_level0_on T cls same o HO (anyg _) (fun _ => Logic.I) true k ord mk mode maxsurf maxbracket minSize (map (void_meta T pbox) cs) u d1 d2 vs rest DA1) as (DA2 & G2 & _); auto.
  { apply Forall_map. exact F1. }
  destruct (graveyard_on T cls same o HO (anyg _) (fun _ => Logic.I) _ _ _ _ _ _ Logic.I DA2 EG) as (DA3 & G3 & _ & _).
  assert (G03 : grow (surface T) d d3) by (eapply grow_trans; [exact G1|]; eapply grow_trans; eauto).
  split; [exact G1|]. split; [eapply grow_trans; eauto|]. split; [exact D1|]. split; [exact F1|]. split; [exact CN|]. split; [exact NDC|]. split; [exact FR|].
  intros v AG3. unfold truths, all_cells.
  assert (AC1 : consistent (surface T) (side T sideT p) v d1).
  { apply (grow_cons (surface T) (side T sideT p) v d1 d3); [eapply grow_trans; eauto|]. intros s (kk & J). apply (AG3 kk). auto. }
  set (ALL := solid_cells T cs ++ _) in *.
  assert (REL : forall s c, cell_rel T cls same (side T sideT p) d d1 s c -> In s l -> inS s = eval v (c_def c)).
  { intros s c RC J. apply Bool.eq_iff_eq_true. rewrite (HIN s J). symmetry. apply (cr_holds _ _ _ _ _ _ _ _ RC). exact AC1. }
  assert (FE : Forall2 (fun s c => c_id c = fst s /\ inS s = eval v (c_def c)) l cs).
  { clear -FR REL. revert REL. induction FR as [|s c l cs RC F IH]; intros REL; constructor.
    - split; [apply (cr_id _ _ _ _ _ _ _ _ RC)|]. apply REL; auto. left; auto.
    - apply IH. intros; apply REL; auto. right; auto. }
  assert (NUL : forall c, In c cs -> null (c_def c) = true -> eval v (c_def c) = false).
  { intros c J. clear -FR J. revert J. induction FR as [|s c' l cs RC F IH]; intros J; [destruct J|]. destruct J as [<-|J]; auto.
    destruct RC as [_ _ _ _ (lev & ns & -> & _) _]. destruct ns; [reflexivity|discriminate]. }
  assert (VB : forall m, In m ALL -> m_void m = false -> m = MC None false None None \/ In m (solid_cells T cs)).
  { intros m J EM. apply in_app_or in J. destruct J as [J|J]; auto. cbn [app] in J. destruct J as [<-|J]; auto. apply in_app_or in J.
    destruct J as [J|[<-|[<-|[]]]]; try discriminate. apply void_mcells_void in J. congruence. }
  assert (SOL : forall m, In m (solid_cells T cs) -> exists c, In c cs /\ null (c_def c) = false /\ m = MC (Some (c_id c)) false None (Some (c_def c))).
  { intros m J. unfold solid_cells in J. apply in_map_iff in J. destruct J as (c & <- & J). apply filter_In in J. destruct J as (J & K).
    exists c. split; auto. split; auto. apply negb_true_iff. auto. }
  assert (PAR : forall a b, length (filter (cell_true v) (filter (fun m => negb (m_void m)) ALL)) = length (filter inS l) /\ a = b ->
    b = (if existsb inS l then 0%nat else 1%nat) -> a = length (filter (cell_true v) (filter m_void ALL)) ->
    length (filter (cell_true v) ALL) = Nat.max 1 (length (filter inS l))).
  { intros a b (X & Y) Z W. rewrite (filter_split (cell_true v) m_void ALL). rewrite X, <- W, Y, Z. clear. induction l as [|s l IH]; auto. cbn [filter existsb].
    destruct (inS s); cbn [orb length]; [lia|exact IH]. }
  match goal with |- ?A /\ ?B /\ ?C /\ ?D => enough (A /\ B /\ C) as (XA & XB & XC) by (split; [exact XA|]; split; [exact XB|]; split; [exact XC|]; eapply PAR; [split; [exact XB|reflexivity]|exact XC|reflexivity]) end.
  split; [|split].
  - intros s J. split.
    + intros E. assert (K : exists c, In c cs /\ c_id c = fst s /\ inS s = eval v (c_def c)).
      { clear -FE J. induction FE as [|s' c l cs (A & B) F IH]; [destruct J|]. destruct J as [->|J]; [exists c; split; [left; auto|auto]|].
        destruct (IH J) as (c' & X & Y). exists c'. split; [right; auto|auto]. }
      destruct K as (c & A & B & C). exists (MC (Some (c_id c)) false None (Some (c_def c))). split; [|split; [auto|split; [cbn; congruence|unfold cell_true; cbn; congruence]]].
      apply in_or_app. left. unfold solid_cells. apply in_map_iff. exists c. split; auto. apply filter_In. split; auto.
      apply negb_true_iff. destruct (null (c_def c)) eqn:EN; auto. rewrite (NUL c A EN) in C. congruence.
    + intros (m & A & B & C & E). destruct (VB m A B) as [->|X]; [discriminate|]. destruct (SOL m X) as (c & X1 & _ & ->). cbn in C, E.
      assert (K : exists s', In s' l /\ c_id c = fst s' /\ inS s' = eval v (c_def c)).
      { clear -FE X1. induction FE as [|s' c' l cs (A & B) F IH]; [destruct X1|]. destruct X1 as [->|J]; [exists s'; split; [left; auto|auto]|].
        destruct (IH J) as (s2 & X & Y). exists s2. split; [right; auto|auto]. }
      destruct K as (s' & K1 & K2 & K3). assert (s' = s); [|subst s'; unfold cell_true in E; cbn in E; congruence].
      assert (EF : fst s' = fst s) by congruence.
      clear -NDI J K1 EF. revert NDI J K1. induction l as [|a l IH]; cbn [map]; intros NDI J K1; [destruct J|]. inversion NDI as [|? ? NI ND']; subst.
      destruct J as [->|J], K1 as [->|K1]; auto; exfalso; apply NI; [rewrite <- EF; apply in_map; auto|rewrite EF; apply in_map; auto].
  - assert (EF : filter (fun m => negb (m_void m)) ALL = solid_cells T cs ++ [MC None false None None]).
    { unfold ALL. rewrite !filter_app. rewrite filter_all; [|intros m J; destruct (SOL m J) as (c & _ & _ & ->); reflexivity].
      cbn [filter m_void negb app]. rewrite filter_none; [reflexivity|]. intros m J. rewrite (void_mcells_void _ _ _ _ J). reflexivity. }
    rewrite EF, filter_app, app_length. cbn [filter cell_true m_def length]. rewrite Nat.add_0_r.
    rewrite (@F2_count (solid T) (cell T) (fun s c => c_id c = fst s /\ inS s = eval v (c_def c)) inS (fun c => eval v (c_def c)) (fun a b X => proj2 X) l cs FE).
    unfold solid_cells. rewrite filter_map, map_length.
    f_equal. clear -NUL. induction cs as [|c cs IH]; auto. cbn [filter]. rewrite <- IH by (intros; apply NUL; auto; right; auto).
    destruct (null (c_def c)) eqn:EN; cbn [negb filter]; [rewrite (NUL c) by (auto; left; auto); reflexivity|].
    unfold cell_true at 1. cbn [m_def]. destruct (eval v (c_def c)); reflexivity.
  - assert (EF : filter m_void ALL = void_mcells (last_id T l + 1) vs infos ++
       [MC (Some (last_id T l + 1 + Z.of_nat (length vs))) true None (Some inn);
        MC (Some (last_id T l + 1 + Z.of_nat (length vs) + 1)) true None (Some out)]).
    { unfold ALL. rewrite !filter_app. rewrite filter_none; [|intros m J; destruct (SOL m J) as (c & _ & _ & ->); reflexivity].
      cbn [filter m_void app]. rewrite filter_all; [reflexivity|]. intros m J. apply (void_mcells_void _ _ _ _ J). }
    rewrite EF. 
    assert (CNT : length (filter (cell_true v) (void_mcells (last_id T l + 1) vs infos ++
       [MC (Some (last_id T l + 1 + Z.of_nat (length vs))) true None (Some inn);
        MC (Some (last_id T l + 1 + Z.of_nat (length vs) + 1)) true None (Some out)])) = length (filter (eval v) (vs ++ [inn; out]))).
    { rewrite !filter_app, !app_length, void_mcells_count by auto. f_equal. cbn [filter cell_true m_def]. unfold cell_true. cbn [m_def].
      destruct (eval v inn), (eval v out); reflexivity. }
    rewrite CNT.
    assert (RD1 : reachable T cls same o d1).
    { destruct RE1 as (h1 & N1 & R1). exists (h ++ h1). split; [|eapply run_comp; eauto]. intros i J. apply in_app_or in J. destruct J as [J|J]; [eapply ND|eapply N1]; eauto. }
    assert (ALN : Forall (aligned p v) (map (void_meta T pbox) cs)).
    { apply Forall_map. clear -FR HPB AC1. revert HPB. induction FR as [|s c l cs RC F IH]; intros HPB; constructor.
      - eapply void_meta_aligned; [exact RC|exact AC1|]. intros pc J _ HH. eapply HPB; eauto. left; auto.
      - apply IH. intros s' pc J. apply HPB. right; auto. }
    pose proof (C16_everywhere_partial T sideT cls same o p v k ord mk mode maxsurf maxbracket minSize (map (void_meta T pbox) cs) u sph d1 d2 d3 vs rest inn out
      HO HX RD1 HSP HSS HORD HMK (fun b dd sl t => HBX v b dd sl t) HM HU ALN HW EV EG AG3) as KEY.
    assert (EX : existsb (fun m => eval v (VoidBoxes.mdef m)) (map (void_meta T pbox) cs) = existsb inS l).
    { rewrite (@F2_ex (solid T) (cell T) (fun s c => c_id c = fst s /\ inS s = eval v (c_def c)) inS (fun c => eval v (c_def c)) (fun a b X => proj2 X) l cs FE).
      clear. induction cs as [|c cs IH]; auto. cbn [map existsb]. rewrite IH. reflexivity. }
    rewrite EX in KEY. destruct (existsb inS l) eqn:EI.
    + apply existsb_exists in EI. destruct EI as (s & J & E). rewrite (HUB s J E) in KEY. cbn [andb] in KEY. lia.
    + rewrite andb_false_r in KEY. lia.
Qed.


(** Full property: for every geometry.  Missing: enclosures and settings as in Start.v; cones
    are along X, Y or Z; the events of C15 and too large boxes (see C16) are excluded; the
    surfaces of the faces are registered (C51).

    Fix a place [p].  [inS s]: the place is in the solid [s], that is on the right sides of
    the faces of one of its pieces.  The pieces lie in their bounding boxes, the solids in the
    outer box.  Then: the cells of the solids are true exactly in the solids, one cell
    for each; and exactly one of the void and graveyard cells is true at [p] if it is in no
    solid, none otherwise. *)
Theorem C57_cells_partial : forall T (sideT : T -> bool) cls same opp opp_x opp_c al apex sord iord pbox k ord mk mode maxsurf maxbracket minSize
    o (h : list (op (surface T))) d (P : surface T -> Prop) p (l : list (solid T)) u sph d' ms inS,
  0 <= o -> (forall i, ~ In (Del i) h) -> (forall g, In (Add g) h -> P g) -> run (surface T) cls same h (empty o) = Ok d ->
  exact_planes T same -> faithful cls same opp opp_x P (side T sideT p) ->
  (forall s, same (inr sph) s = true -> exists t, s = inr t /\ sideT t = sideT sph) -> sideT sph = negb (in_sphere u p) ->
  (forall l, Permutation (sord l) l) -> (forall l, Permutation (iord l) l) ->
  (forall n x, wf n -> In x (ord n) -> 0 < x) ->
  (forall b d sl t, mk b d sl = Ok t -> regular t /\ pos_keys t) ->
  (forall v b d sl t, mk b d sl = Ok t -> BoxSpec.agrees T sideT p v d -> halfb b p = true -> in_box t v) ->
  (0 < minSize)%Q -> (forall a, (0 < len u a)%Q) ->
  (weight minSize u < inject_Z (2 ^ 50) * (minSize * minSize * minSize))%Q ->
  NoDup (map fst l) ->
  (forall s, registered_in d s -> cls (geo s) = Cone -> al (geo s) = true) ->
  (forall i ps pc, In (i, ps) l -> In pc ps -> groups_ok cls same d pc /\
     forall f, In f (p_faces pc) -> found cls same d (p_inv pc) f /\ kinds_ok cls f /\ forall g, geometry f g -> P g) ->
  (forall s, In s l -> (inS s = true <->
     exists pc, In pc (snd s) /\ has_face pc /\ piece_holds cls (side T sideT p) (number_in cls same d) pc)) ->
  (forall s pc, In s l -> In pc (snd s) -> piece_holds cls (side T sideT p) (number_in cls same d) pc -> inside (pbox pc) p) ->
  (forall s, In s l -> inS s = true -> halfb u p = true) ->
  start T cls same opp opp_x opp_c al apex sord iord pbox true k ord mk mode maxsurf maxbracket minSize l u sph d = Ok (d', ms) ->
  start T cls same opp opp_x opp_c al apex sord iord pbox false k ord mk mode maxsurf maxbracket minSize l u sph d = Ok (d', ms) /\
  forall v, BoxSpec.agrees T sideT p v d' ->
    (forall s, In s l -> (inS s = true <-> exists m, In m ms /\ m_void m = false /\ m_id m = Some (fst s) /\ cell_true v m = true)) /\
    length (filter (cell_true v) (filter (fun m => negb (m_void m)) ms)) = length (filter inS l) /\
    length (filter (cell_true v) (filter m_void ms)) = (if existsb inS l then 0%nat else 1%nat) /\
    length (filter (cell_true v) ms) = Nat.max 1 (length (filter inS l)).
Proof.
  intros T sideT cls same opp opp_x opp_c al apex sord iord pbox k ord mk mode maxsurf maxbracket minSize o h d P p l u sph d' ms inS
    HO ND PH R HX FA HSP HSS HS HI HORD HMK HBX HM HU HW NDI HAL HPC HIN HPB HUB H.
  split; [apply start_strict; exact H|]. intros v AV.
  destruct (start_parts _ _ _ _ _ _ _ _ _ _ _ _ _ _ _ _ _ _ _ _ _ _ _ _ _ H) as (d1 & cs & ci & d2 & infos & vs & rest & d3 & inn & out & EC & EV & EL & EG & EP).
  pose proof (run_any _ _ _ _ _ _ ND R) as DA.
  destruct (start_true T sideT cls same opp opp_x sord pbox k ord mk mode maxsurf maxbracket minSize o h d P p l u sph inS
    HO ND PH R HX FA HSP HSS HS HORD HMK HBX HM HU HW NDI HPC HIN HPB HUB d1 cs ci d2 infos vs rest d3 inn out EC EV EL EG)
    as (G1 & G13 & D1 & F1 & CN & NDC & _ & TR).
  assert (G03 : grow (surface T) d d3) by (eapply grow_trans; eauto).
  assert (DA1 : dok (surface T) cls (anyg _) o d1).
  { destruct D1 as (A & B & _ & C). split; auto. split; auto. split; [intros; exact Logic.I|auto]. }
  destruct (void_level0_on T cls same o HO (anyg _) (fun _ => Logic.I) true k ord mk mode maxsurf maxbracket minSize (map (void_meta T pbox) cs) u d1 d2 vs rest DA1) as (DA2 & _ & _); auto.
  { apply Forall_map. exact F1. }
  destruct (graveyard_on T cls same o HO (anyg _) (fun _ => Logic.I) _ _ _ _ _ _ Logic.I DA2 EG) as (DA3 & _ & _ & _).
  destruct (process_cones_al (surface T) cls same o opp_c al apex iord HI ci) with (d := d3) (ms := solid_cells T cs ++ [MC None false None None] ++ void_mcells (last_id T l + 1) vs infos ++
       [MC (Some (last_id T l + 1 + Z.of_nat (length vs))) true None (Some inn);
        MC (Some (last_id T l + 1 + Z.of_nat (length vs) + 1)) true None (Some out)]) as (d4 & EP' & _ & G4); [exact NDC|exact DA3|..].
  { intros i zs z A B. destruct (CN i zs z A B) as (s & RS & EI & EK). exists s. split; [eapply grow_reg; eauto|]. split; auto. }
  { intros m J EM. apply in_app_or in J. destruct J as [J|J].
    - unfold solid_cells in J. apply in_map_iff in J. destruct J as (c & <- & _). discriminate.
    - cbn [app] in J. destruct J as [<-|J]; [split; reflexivity|]. apply in_app_or in J. destruct J as [J|J].
      + clear -J EM. exfalso. revert J. generalize (last_id T l + 1). revert infos. induction vs as [|n vs IH]; intros [|x infos] i J; cbn [void_mcells] in J; try contradiction.
        destruct J as [<-|J]; [discriminate|]. eapply IH; eauto.
      + destruct J as [<-|[<-|[]]]; discriminate. }
  rewrite EP in EP'. injection EP' as <- ->.
  assert (AG3 : BoxSpec.agrees T sideT p v d3) by (intros kk s J; apply (AV kk); rewrite G4; auto).
  exact (TR v AG3).
Qed.

(** The numbers of the cells are different; only comment lines have no number and no
    definition. *)
Lemma cell_step_same G cls same opp al apex iord ci d m d' m' : cell_step G cls same opp al apex iord ci d m = Ok (d', m') ->
  m_id m' = m_id m /\ m_void m' = m_void m /\ (m_def m' = None <-> m_def m = None).
Proof.
  assert (K : forall l, put_planes G cls same opp al apex l d m = Ok (d', m') -> m_id m' = m_id m /\ m_void m' = m_void m /\ (m_def m' = None <-> m_def m = None)).
  { intros l H. unfold put_planes in H. destruct (m_def m) as [n|] eqn:E.
    - destruct (cone_loop G cls same opp al apex l d n) as [[d1 n1]| |]; try discriminate. cbn [bind] in H. injection H as <- <-. cbn. split; auto. split; auto. split; discriminate.
    - destruct l; [|discriminate]. injection H as <- <-. rewrite E. tauto. }
  assert (S : Ok (d, m) = Ok (d', m') -> m_id m' = m_id m /\ m_void m' = m_void m /\ (m_def m' = None <-> m_def m = None)) by (intros [= <- <-]; tauto).
  unfold cell_step. intros H. destruct (m_void m).
  - destruct (m_info m) as [[l|]|]; [exact (K _ H)|exact (S H)|exact (S H)].
  - destruct (m_id m); [|exact (S H)]. destruct (info_of ci z); [exact (K _ H)|exact (S H)].
Qed.
Lemma process_cones_same G cls same opp al apex iord ci ms : forall d d' ms', process_cones G cls same opp al apex iord ci ms d = Ok (d', ms') ->
  Forall2 (fun m m' => m_id m' = m_id m /\ m_void m' = m_void m /\ (m_def m' = None <-> m_def m = None)) ms ms'.
Proof.
  induction ms as [|m ms IH]; intros d d' ms' H; cbn [process_cones] in H; [injection H as <- <-; constructor|].
  destruct (cell_step G cls same opp al apex iord ci d m) as [[d1 m1]| |] eqn:E; try discriminate. cbn [bind] in H. apply cell_step_same in E.
  destruct (process_cones G cls same opp al apex iord ci ms d1) as [[d2 r2]| |] eqn:E2; try discriminate. cbn [bind] in H. injection H as <- <-. constructor; eauto.
Qed.
(** The numbers of a list of cells, in order. *)
Definition cell_ids (ms : list mcell) : list Z := flat_map (fun m => match m_id m with Some i => [i] | None => [] end) ms.
Lemma cell_defs_ids T cls same opp opp_x sord l : forall d d' cs ci, cell_defs T cls same opp opp_x sord l d = Ok (d', cs, ci) -> map c_id cs = map fst l.
Proof.
  induction l as [|[i ps] l IH]; intros d d' cs ci H; cbn [cell_defs] in H; [injection H as <- <- <-; auto|].
  destruct (cell_def (surface T) cls same opp opp_x sord ps d) as [[[[d1 kept] def] cones]| |]; try discriminate. cbn [bind] in H.
  destruct (cell_defs T cls same opp opp_x sord l d1) as [[[d2 cs2] ci2]| |] eqn:E2; try discriminate. cbn [bind] in H. injection H as <- <- <-.
  cbn [map c_id fst]. f_equal. eauto.
Qed.
Fixpoint zseq (i : Z) (n : nat) : list Z := match n with O => [] | S n => i :: zseq (i + 1) n end.
Lemma zseq_in n : forall i x, In x (zseq i n) <-> i <= x < i + Z.of_nat n.
Proof. induction n as [|n IH]; intros i x; cbn [zseq]; simpl In; [lia|]. rewrite IH. lia. Qed.
Lemma zseq_nodup n : forall i, NoDup (zseq i n).
Proof. induction n as [|n IH]; intros i; cbn [zseq]; constructor; auto. rewrite zseq_in. lia. Qed.
Lemma zseq_app n : forall i, zseq i n ++ [i + Z.of_nat n; i + Z.of_nat n + 1] = zseq i (n + 2).
Proof.
  induction n as [|n IH]; intros i; cbn [zseq plus app].
  - f_equal; [lia|]. f_equal. lia.
  - f_equal. rewrite <- IH. f_equal. f_equal; [lia|]. f_equal. lia.
Qed.
Lemma void_mcells_ids vs : forall infos i, length infos = length vs -> cell_ids (void_mcells i vs infos) = zseq i (length vs).
Proof.
  induction vs as [|n vs IH]; intros [|x infos] i E; cbn [length] in E; try discriminate; auto. cbn [void_mcells cell_ids flat_map m_id app length zseq]. f_equal. apply IH. lia.
Qed.
Lemma list_eq_dec_nil {A} (l : list A) : l = [] \/ exists l1 s, l = l1 ++ [s].
Proof. destruct (rev l) as [|s r] eqn:E; [left|right; exists (rev r), s]; rewrite <- (rev_involutive l), E; auto. Qed.
(** The cells of the solids keep their numbers; void and graveyard cells get the numbers after
    that of the last solid. *)
Theorem C57_numbers : forall T cls same opp opp_x opp_c al apex sord iord pbox strict k ord mk mode maxsurf maxbracket minSize d l u sph d' ms,
  start T cls same opp opp_x opp_c al apex sord iord pbox strict k ord mk mode maxsurf maxbracket minSize l u sph d = Ok (d', ms) ->
  (exists sub n i, (forall l1 s, l = l1 ++ [s] -> i = fst s + 1) /\ (l = [] -> i = 1) /\
    cell_ids ms = sub ++ zseq i (n + 2) /\ (forall i, In i sub -> In i (map fst l)) /\ (NoDup (map fst l) -> NoDup sub)) /\
  (NoDup (map fst l) -> (forall l1 s, l = l1 ++ [s] -> forall i, In i (map fst l) -> i <= fst s) -> NoDup (cell_ids ms)) /\
  (forall m, In m ms -> (m_id m = None <-> m_def m = None)).
Proof.
  intros T cls same opp opp_x opp_c al apex sord iord pbox strict k ord mk mode maxsurf maxbracket minSize d l u sph d' ms H.
  destruct (start_parts _ _ _ _ _ _ _ _ _ _ _ _ _ _ _ _ _ _ _ _ _ _ _ _ _ H) as (d1 & cs & ci & d2 & infos & vs & rest & d3 & inn & out & EC & _ & EL & _ & EP).
  apply process_cones_same in EP. apply cell_defs_ids in EC.
  assert (EI : forall l l', Forall2 (fun m m' => m_id m' = m_id m /\ m_void m' = m_void m /\ (m_def m' = None <-> m_def m = None)) l l' -> cell_ids l' = cell_ids l).
  { induction 1 as [|m m' a b (X & _) F IH]; auto. cbn [cell_ids flat_map]. rewrite X. f_equal. exact IH. }
  assert (ES : cell_ids (solid_cells T cs) = map c_id (filter (fun c => negb (null (c_def c))) cs)).
  { unfold solid_cells. induction (filter (fun c => negb (null (c_def c))) cs) as [|c l0 IH]; auto. cbn [map cell_ids flat_map m_id app]. f_equal. exact IH. }
  assert (SUB : forall i, In i (cell_ids (solid_cells T cs)) -> In i (map fst l)).
  { intros i J. rewrite ES in J. rewrite <- EC. apply in_map_iff in J. destruct J as (c & <- & J). apply filter_In in J. apply in_map. tauto. }
  assert (NDS : NoDup (map fst l) -> NoDup (cell_ids (solid_cells T cs))).
  { rewrite <- EC, ES. clear. induction cs as [|c cs IH]; cbn [map filter]; intros ND; auto. inversion ND; subst.
    destruct (null (c_def c)); cbn [negb map]; auto. constructor; auto. intros J. apply H1. apply in_map_iff in J. destruct J as (c' & <- & J).
    apply filter_In in J. apply in_map. tauto. }
  assert (IDS : cell_ids ms = cell_ids (solid_cells T cs) ++ zseq (last_id T l + 1) (length vs + 2)).
  { rewrite (EI _ _ EP). unfold cell_ids. rewrite !flat_map_app. f_equal. cbn [flat_map m_id app].
    change (flat_map _ (void_mcells (last_id T l + 1) vs infos)) with (cell_ids (void_mcells (last_id T l + 1) vs infos)).
    rewrite void_mcells_ids by auto. apply zseq_app. }
  assert (LI : forall l1 s, l = l1 ++ [s] -> last_id T l = fst s).
  { intros l1 s ->. unfold last_id. rewrite last_last. auto. }
  split; [eexists _, _, (last_id T l + 1); split; [intros l1 s E; rewrite (LI l1 s E); auto|split; [intros ->; reflexivity|split; [exact IDS|split; auto]]]|]. split.
  - intros ND LE0. assert (LE : forall i, In i (map fst l) -> i <= last_id T l).
    { destruct (list_eq_dec_nil l) as [EN|(l1 & s & EN)]; [rewrite EN; intros i []|]. intros i J. rewrite (LI l1 s EN). exact (LE0 l1 s EN i J). }
    clear LE0 LI. rewrite IDS. specialize (NDS ND). revert NDS SUB LE. clear. intros NDS SUB LE. induction (cell_ids (solid_cells T cs)) as [|i r IH]; cbn [app]; [apply zseq_nodup|].
    inversion NDS; subst. constructor; [|apply IH; auto; intros; apply SUB; right; auto]. intros J. apply in_app_or in J. destruct J as [J|J]; [auto|].
    apply zseq_in in J. specialize (LE i (SUB i (or_introl eq_refl))). lia.
  - intros m J. assert (K : exists m0, In m0 (solid_cells T cs ++ [MC None false None None] ++ void_mcells (last_id T l + 1) vs infos ++
       [MC (Some (last_id T l + 1 + Z.of_nat (length vs))) true None (Some inn);
        MC (Some (last_id T l + 1 + Z.of_nat (length vs) + 1)) true None (Some out)]) /\ m_id m = m_id m0 /\ (m_def m = None <-> m_def m0 = None)).
    { clear -EP J. induction EP as [|a b la lb (X & _ & Y) F IH]; [destruct J|]. destruct J as [<-|J]; [exists a; split; [left; auto|auto]|].
      destruct (IH J) as (m0 & A & B). exists m0. split; [right; auto|auto]. }
    destruct K as (m0 & K & -> & ->). apply in_app_or in K. destruct K as [K|K].
    + unfold solid_cells in K. apply in_map_iff in K. destruct K as (c & <- & _). cbn. split; discriminate.
    + cbn [app] in K. destruct K as [<-|K]; [cbn; tauto|]. apply in_app_or in K. destruct K as [K|[<-|[<-|[]]]]; [|cbn; split; discriminate|cbn; split; discriminate].
      clear -K. revert K. generalize (last_id T l + 1). revert infos. induction vs as [|n vs IH]; intros [|x infos] i K; cbn [void_mcells] in K; try contradiction.
      destruct K as [<-|K]; [cbn; split; discriminate|]. eapply IH; eauto.
Qed.

(* ------------------------------------------------------------------ *)
(** * Two boxes with a common face in a box of side 8 *)
Definition flat_face (o : orientation) (q : BoxDef.plane) : face (surface nat) := Face false o (Some (inl q)) None no_torus.
(** all axes along X, Y, Z: matter on the positive side of the lower planes *)
Definition box_piece (b : box) : piece (surface nat) := Piece false
  [flat_face Reversed (Plane AX true (lo b AX)); flat_face Forward (Plane AX true (hi b AX));
   flat_face Reversed (Plane AY true (lo b AY)); flat_face Forward (Plane AY true (hi b AY));
   flat_face Reversed (Plane AZ true (lo b AZ)); flat_face Reversed (Plane AZ false (hi b AZ))].
Definition b57a : box := upd_box 1 2.
Definition b57b : box := Box (fun a => match a with AX => 2%Q | _ => 1%Q end) (fun a => match a with AX => 3%Q | _ => 2%Q end).
Definition l57 : list (solid nat) := [(1, [box_piece b57a]); (2, [box_piece b57b])].
Definition opp57 (g g' : surface nat) : bool :=
  match g, g' with inl q, inl q' => negb (eqb (pdir q) (pdir q')) | _, _ => false end.
Definition h57 : list (op (surface nat)) :=
  map (fun f => match f_geo f with Some g => Add g | None => Get 0 end) (p_faces (box_piece b57a) ++ p_faces (box_piece b57b)).
Definition d57 : sdict (surface nat) := match run _ cls0 same0 h57 (empty 0) with Ok d => d | _ => empty 0 end.
Lemma run57 : run _ cls0 same0 h57 (empty 0) = Ok d57.
Proof.
  assert (C : match run _ cls0 same0 h57 (empty 0) with Ok _ => true | _ => false end = true) by (vm_compute; reflexivity).
  unfold d57. destruct (run _ cls0 same0 h57 (empty 0)); [auto|discriminate..].
Qed.
Definition P57 (g : surface nat) : Prop := exists q, g = inl q.
Definition pbox57 (pc : piece (surface nat)) : box :=
  match p_faces pc with
  | f :: _ => match f_geo f with Some (inl q) => if Qeq_bool (pco q) 1 then b57a else b57b | _ => b57a end
  | [] => b57a
  end.
Notation start57 strict := (start nat cls0 same0 opp57 opp57 opp57 (fun _ => true) (fun g => g) (fun l => l) (fun l => l) pbox57
  strict 20 ascending mkno SNo 6 1 1 l57 (cube 8) 0%nat d57).
Definition cells57 : list mcell := Eval vm_compute in match start57 true with Ok (_, ms) => ms | _ => [] end.

Lemma faithful57 sT p : faithful cls0 same0 opp57 opp57 P57 (side nat sT p).
Proof.
  intros g g' (q & ->) (q' & ->) _ H. split; intros PL.
  - exfalso. apply PL. unfold CellDefSpec.plane. cbn. destruct (paxis q); auto.
  - assert (K : paxis q' = paxis q /\ (pco q' == pco q)%Q).
    { destruct H as [[= <-]|H]; [split; [auto|reflexivity]|]. destruct (same0_exact q (inl q') H) as (q2 & [= <-] & X). exact X. }
    destruct K as (K1 & K2). cbn [side opp57]. rewrite (plane_side_dir p q q' K1 K2).
    destruct (eqb (pdir q) (pdir q')); cbn [negb]; rewrite ?negb_involutive; auto.
Qed.
Lemma box_holds sT p nb b : piece_holds cls0 (side nat sT p) nb (box_piece b) <-> halfb b p = true.
Proof.
  assert (NX : forall f, In f (p_faces (box_piece b)) -> f_extra f = None).
  { intros f I. cbn in I. repeat (destruct I as [<-|I]; [reflexivity|]). destruct I. }
  rewrite <- bound_half. unfold bound_planes, piece_holds. cbn [forallb]. rewrite !andb_true_iff.
  assert (PS : forall a q, plane_side p (Plane a true q) = false <-> plane_side p (Plane a false q) = true).
  { intros a q. unfold plane_side, Qltb. cbn. rewrite negb_true_iff. tauto. }
  assert (OF : forall o a s q, (forall pos g, matter false (flat_face o (Plane a s q)) pos -> f_geo (flat_face o (Plane a s q)) = Some g ->
       match cls0 g with Tor => True | _ => side nat sT p g = pos end) <->
     match o with Forward => plane_side p (Plane a s q) = false | Reversed => plane_side p (Plane a s q) = true | NoOrientation => True end).
  { intros o a s q. unfold matter. cbn. split.
    - intros X. destruct o; auto.
      + specialize (X false (inl (Plane a s q)) (Logic.conj eq_refl eq_refl) eq_refl). destruct a; exact X.
      + specialize (X true (inl (Plane a s q)) (Logic.conj eq_refl eq_refl) eq_refl). destruct a; exact X.
    - intros X pos g (_ & M) [= <-]. destruct o; [subst pos|subst pos|destruct M]; destruct a; exact X. }
  assert (FH : forall o a s q, face_holds cls0 (side nat sT p) false (flat_face o (Plane a s q)) <->
     match o with Forward => plane_side p (Plane a s q) = false | Reversed => plane_side p (Plane a s q) = true | NoOrientation => True end).
  { intros o a s q. rewrite <- OF. unfold face_holds. split; intros X pos g M E; specialize (X pos g M E); injection E as <-; destruct a; exact X. }
  split.
  - intros (X & _). cbn [p_inv p_faces box_piece] in X.
    pose proof (X _ (or_introl eq_refl)) as X1. pose proof (X _ (or_intror (or_introl eq_refl))) as X2.
    pose proof (X _ (or_intror (or_intror (or_introl eq_refl)))) as X3. pose proof (X _ (or_intror (or_intror (or_intror (or_introl eq_refl))))) as X4.
    pose proof (X _ (or_intror (or_intror (or_intror (or_intror (or_introl eq_refl)))))) as X5.
    pose proof (X _ (or_intror (or_intror (or_intror (or_intror (or_intror (or_introl eq_refl))))))) as X6.
    rewrite FH in X1, X2, X3, X4, X5, X6. rewrite PS in X2, X4. auto 10.
  - intros (X1 & X2 & X3 & X4 & X5 & X6 & _). rewrite <- PS in X2, X4. split.
    + intros f I. cbn [p_faces box_piece p_inv] in *.
      destruct I as [<-|[<-|[<-|[<-|[<-|[<-|[]]]]]]]; rewrite FH; auto.
    + intros f g q sg n I (_ & _ & _ & F). rewrite (NX f I) in F. discriminate.
Qed.
Lemma box_has b : has_face (box_piece b).
Proof. exists (flat_face Reversed (Plane AX true (lo b AX))), true. split; [left; auto|split; reflexivity]. Qed.

Lemma ascending_pos n x : wf n -> In x (ascending n) -> 0 < x.
Proof.
  intros W I. apply (surfs_pos n x W). unfold ascending in I. induction (surfs n) as [|y l IH]; [destruct I|]. cbn [fold_right] in I.
  assert (K : forall a l, In x (insert_sorted a l) -> x = a \/ In x l).
  { clear. intros a l. induction l as [|b l IH]; cbn [insert_sorted]; [intros [<-|[]]; auto|]. destruct (a <=? b); simpl; intuition. }
  destruct (K _ _ I) as [->|J]; [left; auto|right; auto].
Qed.

(** All the hypotheses of C57_cells_partial hold, at every place of space. *)
Example C57_ex : exists d', start57 false = Ok (d', cells57) /\ length (filter m_void cells57) = 41%nat /\
  forall p v, BoxSpec.agrees nat (fun _ => negb (in_sphere (cube 8) p)) p v d' ->
    length (filter (cell_true v) cells57) = 1%nat.
Proof.
  assert (E : exists d', start57 true = Ok (d', cells57)).
  { assert (C : match start57 true with Ok (_, ms) => ms | _ => [] end = cells57) by (vm_compute; reflexivity).
    destruct (start57 true) as [[d' ms]| |]; [|discriminate..]. subst ms. eauto. }
  destruct E as (d' & E). exists d'. split; [exact (start_strict _ _ _ _ _ _ _ _ _ _ _ _ _ _ _ _ _ _ _ _ _ _ _ E)|]. split; [vm_compute; reflexivity|].
  intros p v AV.
  set (inS := fun s : solid nat => halfb (if fst s =? 1 then b57a else b57b) p).
  assert (DIS : halfb b57a p = true -> halfb b57b p = true -> False).
  { clear. intros A B. pose proof (proj1 (halfb_spec _ _) A AX) as X. pose proof (proj1 (halfb_spec _ _) B AX) as Y. cbn in X, Y. lra. }
  destruct (C57_cells_partial nat (fun _ => negb (in_sphere (cube 8) p)) cls0 same0 opp57 opp57 opp57 (fun _ => true) (fun g => g) (fun l => l) (fun l => l) pbox57
    20 ascending mkno SNo 6 1 1 0 h57 d57 P57 p l57 (cube 8) 0%nat d' cells57 inS) as (_ & K).
  - lia.
  - intros i I. cbn in I. repeat (destruct I as [I|I]; [discriminate|]). destruct I.
  - intros g I. cbn in I. repeat (destruct I as [I|I]; [injection I as <-; eexists; reflexivity|]). destruct I.
  - exact run57.
  - exact same0_exact.
  - apply faithful57.
  - intros [q|n] S; [discriminate|]. exists n. auto.
  - reflexivity.
  - auto.
  - auto.
  - intros n x W I. exact (ascending_pos n x W I).
  - discriminate.
  - discriminate.
  - reflexivity.
  - intros []; reflexivity.
  - vm_compute. reflexivity.
  - cbn. repeat constructor; cbn; intuition lia.
  - auto.
  - assert (K : forall b, groups_ok cls0 same0 d57 (box_piece b) /\ forall f, In f (p_faces (box_piece b)) ->
       found cls0 same0 d57 (p_inv (box_piece b)) f /\ kinds_ok cls0 f /\ forall g, geometry f g -> P57 g).
    { intros b. split.
      - intros f f' pos pos' g g' I I' M M' E1 E1' T T' GE. exfalso. cbn in I. repeat (destruct I as [<-|I]; [injection E1 as <-; discriminate|]). destruct I.
      - intros f I. assert (X : exists o q, f = flat_face o q) by (cbn in I; repeat (destruct I as [<-|I]; [eexists _, _; reflexivity|]); destruct I).
        destruct X as (o & q & ->). split; [|split].
        + intros pos M. exists (inl q). split; [reflexivity|]. split; [left; unfold CellDefSpec.plane; cbn; destruct (paxis q); auto|]. cbn. destruct (paxis q); discriminate.
        + split; intros ? ? [=].
        + intros g [[= <-]|[(sg & [=])|[(r & [=])|[(r & [=])|(r & [=])]]]]. exists q. auto. }
    intros i ps pc [[= <- <-]|[[= <- <-]|[]]] [<-|[]]; apply K.
  - intros s [<-|[<-|[]]]; cbn [snd].
    + split.
      * intros X. exists (box_piece b57a). split; [left; auto|]. split; [apply box_has|]. apply box_holds. exact X.
      * intros (pc & [<-|[]] & _ & X). apply box_holds in X. exact X.
    + split.
      * intros X. exists (box_piece b57b). split; [left; auto|]. split; [apply box_has|]. apply box_holds. exact X.
      * intros (pc & [<-|[]] & _ & X). apply box_holds in X. exact X.
  - intros s pc [<-|[<-|[]]] [<-|[]] X; apply box_holds in X; intros a; destruct (proj1 (halfb_spec _ _) X a) as (U & V);
      (split; [exact U|apply Qlt_le_weak; exact V]).
  - intros s [<-|[<-|[]]] X; unfold inS in X; cbn [fst] in X; apply halfb_spec; intros a; pose proof (proj1 (halfb_spec _ _) X a) as Y; clear -Y; revert Y; destruct a; cbn; intros (Y & Z); split; lra.
  - exact E.
  - destruct (K v AV) as (_ & _ & _ & L). rewrite L. unfold l57, inS. cbn [filter fst Z.eqb Pos.eqb].
    destruct (halfb b57a p) eqn:EA, (halfb b57b p) eqn:EB; try reflexivity. exfalso. auto.
Qed.
