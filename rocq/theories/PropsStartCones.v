(** Property C57 with cones of any direction: the written cells with two-sheeted cards. *)
From Coq Require Import QArith Lqa Permutation.
From Verif Require Import Prelude BoolSpec BoolSeq BoolProofs BoolProofs2 CtSpec Ctable VoidCell SurfDict SurfDictProofs
  CellDef CellDefSpec CellDefProofs CellDefProofs2 CellDefProofs3 ConePlanes ConeSpec ConeProofs ConeProofs2 OnProofs OnProofs2 OnCell OnModel OnSpec
  PropsCellDef PropsOn ReachProofs.
From Verif Require Import VoidBoxes VoidBoxSpec VoidBoxProofs VoidLoopProofs BoxDef BoxSpec BoxDefProofs VoidAll VoidAllProofs PropsBool PropsBox Start StartProofs
  ConeStart PropsStart.
From Verif Require CellCones.
Open Scope Z_scope.

Lemma start_whole T cls same opp opp_x opp_c al apex sord iord pbox strict k ord mk mode maxsurf maxbracket minSize l u sph d d' ms :
  start T cls same opp opp_x opp_c al apex sord iord pbox strict k ord mk mode maxsurf maxbracket minSize l u sph d = Ok (d', ms) ->
  exists d1 cs ci d2 infos vs rest d3 inn out,
    cell_defs T cls same opp opp_x sord l d = Ok (d1, cs, ci) /\
    void_level0 T cls same strict k ord mk mode maxsurf maxbracket minSize (map (void_meta T pbox) cs) u d1 = Ok (d2, (vs, rest)) /\
    length infos = length vs /\
    graveyard T cls same u sph d2 = Ok (d3, (inn, out)) /\
    start0 T cls same opp opp_x sord pbox strict k ord mk mode maxsurf maxbracket minSize l u sph d = Ok (d3, ci, all_cells T l cs vs infos inn out) /\
    process_cones (surface T) cls same opp_c al apex iord ci (all_cells T l cs vs infos inn out) d3 = Ok (d', ms).
Proof.
  unfold start. intros H. destruct (start0 T cls same opp opp_x sord pbox strict k ord mk mode maxsurf maxbracket minSize l u sph d) as [[[d3 ci] ms0]| |] eqn:E0; try discriminate.
  cbn [bind] in H. pose proof E0 as E1. unfold start0 in E1.
  destruct (cell_defs T cls same opp opp_x sord l d) as [[[d1 cs] ci1]| |] eqn:EC; cbn [bind] in E1; try discriminate.
  match type of E1 with bind ?e _ = _ => destruct e as [[[d2 infos] [vs rest]]| |] eqn:EV; try discriminate end. cbn [bind] in E1.
  match type of E1 with bind ?e _ = _ => destruct e as [[d4 [inn out]]| |] eqn:EG; try discriminate end. cbn [bind] in E1. injection E1 as <- <- <-.
  apply (get_void_def_log Empty_set _ _ maxsurf maxbracket minSize _ _ (void_box T cls same strict k ord mk mode)
           (fun z => cells_in (map (fun m => (mencl m, mid m)) (vobj z)))) in EV.
  destruct EV as (EV & EL). exists d1, cs, ci1, d2, infos, vs, rest, d4, inn, out. split; auto.
Qed.

(** The cones of the solids are recorded with the signs that they have in the definition: from
    registered surfaces, a number of the definition of a solid that stands for a tilted
    cone is one of the cones of this solid.  [t_v]: the second surface of a torus face
    (a cylinder, cone or plane about the axis of the torus) is not found the same as a tilted cone. *)
Theorem C55_solids : forall T cls same opp opp_x al sord o (h : list (op (surface T))) d (l : list (solid T)) d' cs ci,
  0 <= o -> (forall i, ~ In (Del i) h) -> run (surface T) cls same h (empty o) = Ok d ->
  (forall l, Permutation (sord l) l) ->
  (forall i ps pc f, In (i, ps) l -> In pc ps -> In f (p_faces pc) -> found cls same d (p_inv pc) f /\ kinds_ok cls f /\
     forall a ins g, t_v (f_torus f) = Some (a, ins) -> cls g = cls a -> g = a \/ same a g = true -> ~ tilted cls al g) ->
  cell_defs T cls same opp opp_x sord l d = Ok (d', cs, ci) ->
  forall c z, In c cs -> In z (lits (c_def c)) -> tilted_number cls al d' z -> exists zs, In (c_id c, zs) ci /\ In z zs.
Proof.
  intros T cls same opp opp_x al sord o h d l d' cs ci HO ND R HS HF H c z Jc Jz (s & RS & ES & TS).
  assert (D0 : dok (surface T) cls (fun _ => True) o d) by (eapply run_dok; eauto).
  destruct (CellCones.cell_defs_rec T cls same opp opp_x al (fun _ => True) o HO sord HS l d d' cs ci D0) as (D1 & _ & FA); auto.
  { intros i ps pc A B f Jf. destruct (HF i ps pc f A B Jf) as (X & Y & Z0). split; auto. split; auto. split; auto.
    intros a ins E g K1 K2. eapply Z0; eauto. }
  rewrite Forall_forall in FA. destruct (FA c Jc) as (zs & ON & IC). destruct (ON z Jz) as (s' & RS' & ES' & TI).
  assert (s' = s) as -> by (eapply (reg_uniq (surface T)); eauto; congruence). specialize (TI TS).
  destruct IC as [->|IC]; [destruct TI|]. exists zs. auto.
Qed.

(** Full property: for every geometry.  Missing: enclosures and settings as in Start.v; the
    events of C15 and too large boxes (see C16) are excluded; the surfaces of the faces are
    registered (C51); the tilted cones of a void, before the apex planes, must be recorded
    for it (C55; C55_simplify_refuted shows that a void can have others; those of solids are: C55_solids);
    and the second surface of a torus face is not a tilted cone.

    Fix a place [p].  [realT]: the sides of [p] of the surfaces of the solids;
    [cardT]: of the surfaces as they are written, where a cone that is not along X, Y or Z
    has both sheets ([two_sheets]).  The solids and boxes are as in C57_cells_partial.  Then with
    the cards: the cells of the solids are true exactly in the solids, one cell for
    each; and exactly one of the void and graveyard cells is true at [p] if it is in no
    solid, none otherwise. *)
Theorem C57_cones_partial : forall T (cardT realT : T -> bool) cls same opp opp_x opp_c al apex sord iord pbox k ord mk mode maxsurf maxbracket minSize
    o (h : list (op (surface T))) d (P : surface T -> Prop) p (l : list (solid T)) u sph d' ms inS,
  0 <= o -> (forall i, ~ In (Del i) h) -> (forall g, In (Add g) h -> P g) -> run (surface T) cls same h (empty o) = Ok d ->
  (forall q, P (inl q)) -> P (inr sph) ->
  exact_planes T same -> faithful cls same opp opp_x P (side T realT p) ->
  faithful cls same opp_c opp_c P (side T cardT p) -> two_sheets cls al apex (side T cardT p) (side T realT p) ->
  (forall g, P g -> tilted cls al g -> P (apex g) /\ CellDefSpec.plane cls (apex g)) ->
  (forall s, same (inr sph) s = true -> exists t, s = inr t /\ realT t = realT sph) -> realT sph = negb (in_sphere u p) ->
  (forall l, Permutation (sord l) l) -> (forall l, Permutation (iord l) l) ->
  (forall n x, wf n -> In x (ord n) -> 0 < x) ->
  (forall b d sl t, mk b d sl = Ok t -> regular t /\ pos_keys t) ->
  (forall v b d sl t, mk b d sl = Ok t -> BoxSpec.agrees T realT p v d -> halfb b p = true -> in_box t v) ->
  (0 < minSize)%Q -> (forall a, (0 < len u a)%Q) ->
  (weight minSize u < inject_Z (2 ^ 50) * (minSize * minSize * minSize))%Q ->
  NoDup (map fst l) ->
  (forall i ps pc, In (i, ps) l -> In pc ps -> groups_ok cls same d pc /\
     forall f, In f (p_faces pc) -> found cls same d (p_inv pc) f /\ kinds_ok cls f /\ forall g, geometry f g -> P g) ->
  (forall s, In s l -> (inS s = true <->
     exists pc, In pc (snd s) /\ has_face pc /\ piece_holds cls (side T realT p) (number_in cls same d) pc)) ->
  (forall s pc, In s l -> In pc (snd s) -> piece_holds cls (side T realT p) (number_in cls same d) pc -> inside (pbox pc) p) ->
  (forall s, In s l -> inS s = true -> halfb u p = true) ->
  (forall i ps pc f a ins g, In (i, ps) l -> In pc ps -> In f (p_faces pc) ->
     t_v (f_torus f) = Some (a, ins) -> cls g = cls a -> g = a \/ same a g = true -> ~ tilted cls al g) ->
  (forall d3 ci ms0 m n z,
     start0 T cls same opp opp_x sord pbox true k ord mk mode maxsurf maxbracket minSize l u sph d = Ok (d3, ci, ms0) ->
     In m ms0 -> m_void m = true -> m_def m = Some n -> In z (lits n) -> tilted_number cls al d3 z -> recorded ci m z) ->
  start T cls same opp opp_x opp_c al apex sord iord pbox true k ord mk mode maxsurf maxbracket minSize l u sph d = Ok (d', ms) ->
  start T cls same opp opp_x opp_c al apex sord iord pbox false k ord mk mode maxsurf maxbracket minSize l u sph d = Ok (d', ms) /\
  forall v, BoxSpec.agrees T cardT p v d' ->
    (forall s, In s l -> (inS s = true <-> exists m, In m ms /\ m_void m = false /\ m_id m = Some (fst s) /\ cell_true v m = true)) /\
    length (filter (cell_true v) (filter (fun m => negb (m_void m)) ms)) = length (filter inS l) /\
    length (filter (cell_true v) (filter m_void ms)) = (if existsb inS l then 0%nat else 1%nat) /\
    length (filter (cell_true v) ms) = Nat.max 1 (length (filter inS l)).
Proof.
  intros T cardT realT cls same opp opp_x opp_c al apex sord iord pbox k ord mk mode maxsurf maxbracket minSize o h d P p l u sph d' ms inS
    HO ND PH R HPL HPS HX FA FC TS HAP HSP HSS HS HI HORD HMK HBX HM HU HW NDI HPC HIN HPB HUB HTV HREC H.
  split; [apply start_strict; exact H|]. intros v AV.
  destruct (start_whole _ _ _ _ _ _ _ _ _ _ _ _ _ _ _ _ _ _ _ _ _ _ _ _ _ H) as (d1 & cs & ci & d2 & infos & vs & rest & d3 & inn & out & EC & EV & EL & EG & E0 & EP).
  destruct (start_true T realT cls same opp opp_x sord pbox k ord mk mode maxsurf maxbracket minSize o h d P p l u sph inS
    HO ND PH R HX FA HSP HSS HS HORD HMK HBX HM HU HW NDI HPC HIN HPB HUB d1 cs ci d2 infos vs rest d3 inn out EC EV EL EG)
    as (G1 & G13 & D1 & F1 & CN & NDC & CR & TR).
  destruct (void_level0_on T cls same o HO P HPL true k ord mk mode maxsurf maxbracket minSize (map (void_meta T pbox) cs) u d1 d2 vs rest D1) as (D2 & G2 & F2); auto.
  { apply Forall_map. exact F1. }
  destruct (graveyard_on T cls same o HO P HPL _ _ _ _ _ _ HPS D2 EG) as (D3 & G3 & FI & FO).
  destruct (cell_defs_shape _ _ _ _ _ _ _ _ _ _ _ EC) as (NC & NDZ).
  assert (G03 : grow (surface T) d d3) by (eapply grow_trans; eauto).
  assert (LITS : forall n, on (num (surface T) d3) n -> forall z, In z (lits n) -> z <> 0 /\ exists s, registered_in d3 s /\ index s = Z.abs z).
  { intros n ON z J. destruct (ON z J) as (s & RS & EI). split; [|eauto]. pose proof (reg_pos (surface T) cls P o HO d3 s D3 RS). lia. }
  set (ALL := all_cells T l cs vs infos inn out) in *.
  assert (SH : forall m, In m ALL -> match m_def m with
     | Some n => is_seq n /\ no_const n /\ on (num (surface T) d3) n
     | None => m_id m = None /\ m_void m = false end).
  { intros m J. unfold ALL, all_cells in J. apply in_app_or in J. destruct J as [J|J].
    - unfold solid_cells in J. apply in_map_iff in J. destruct J as (c & <- & J). apply filter_In in J. destruct J as (J & _). cbn [m_def].
      rewrite Forall_forall in NC, F1. specialize (NC c J). specialize (F1 c J).
      assert (SQ : exists lev ns, c_def c = Seq OR lev ns).
      { clear -CR J. induction CR as [|s c' l0 cs0 RC F IH]; [destruct J|]. destruct J as [<-|J]; auto. destruct RC as [_ _ _ _ (lev & ns & E & _) _]. eauto. }
      destruct SQ as (lev & ns & ES). rewrite ES in *. split; [exact Logic.I|]. split; [exact NC|]. eapply on_grow; [exact G13|exact F1].
    - cbn [app] in J. destruct J as [<-|J]; [split; reflexivity|]. apply in_app_or in J. destruct J as [J|J].
      + apply void_level0_plain in EV. assert (X : exists n, m_def m = Some n /\ In n vs).
        { clear -J. revert J. generalize (last_id T l + 1). revert infos. induction vs as [|n vs IH]; intros [|x infos] i J; cbn [void_mcells] in J; try contradiction.
          destruct J as [<-|J]; [exists n; split; [reflexivity|left; auto]|]. destruct (IH _ _ J) as (n' & A & B). exists n'. split; [auto|right; auto]. }
        destruct X as (n & -> & I2). rewrite Forall_forall in EV. destruct (EV n I2) as (A & B). split; auto. split; auto. eapply on_grow; [exact G3|]. apply F2. auto.
      + apply graveyard_plain in EG. destruct EG as ((A1 & B1) & (A2 & B2)). destruct J as [<-|[<-|[]]]; cbn [m_def]; auto. }
  destruct (process_ok (surface T) cls same opp_c al apex iord HI P o HO ci NDC NDZ d3) with (ms := ALL) (d := d3) as (d4 & ms4 & EP' & D4 & G4 & F4); auto.
  - intros i zs c A B. destruct (CN i zs c A B) as (s & RS & EI & EK). exists s. split; [eapply grow_reg; eauto|]. auto.
  - intros s RS TL. apply HAP; auto. destruct D3 as (_ & _ & X & _). auto.
  - apply grow_refl.
  - apply Forall_forall. intros m J. pose proof (SH m J) as X. unfold cell_ok. destruct (m_def m) as [n|] eqn:EM; [|exact X].
    destruct X as (A & B & C). split; auto. split; auto. split; [apply LITS; auto|]. intros z Iz TN. destruct (m_void m) eqn:VM; [eapply HREC; eauto|].
    unfold ALL, all_cells in J. apply in_app_or in J. destruct J as [J|J].
    + unfold solid_cells in J. apply in_map_iff in J. destruct J as (c & <- & J). apply filter_In in J. destruct J as (J & _). cbn [m_def m_void m_id] in *. injection EM as <-.
      destruct (C55_solids T cls same opp opp_x al sord o h d l d1 cs ci HO ND R HS) with (c := c) (z := z) as (zs & Z1 & Z2); auto.
      * intros i ps pc f X1 X2 X3. destruct (HPC i ps pc X1 X2) as (_ & Y). destruct (Y f X3) as (Y1 & Y2 & _). split; auto. split; auto. intros a ins g. eapply HTV; eauto.
      * rewrite Forall_forall in F1. destruct (F1 c J z Iz) as (s' & RS' & ES'). destruct TN as (s & RS & ES & TLT).
        assert (s' = s) as -> by (eapply (reg_uniq (surface T)); [exact D3| |exact RS|congruence]; [exact (grow_reg _ _ _ _ G13 RS')]).
        exists s. auto.
      * unfold recorded. cbn [m_void m_id]. exists (c_id c), zs. auto.
    + exfalso. cbn [app] in J. destruct J as [<-|J]; [discriminate|]. apply in_app_or in J. destruct J as [J|[<-|[<-|[]]]]; [|discriminate VM|discriminate VM].
      clear -J VM. revert J. generalize (last_id T l + 1). revert infos. induction vs as [|n vs IH]; intros [|x infos] i J; cbn [void_mcells] in J; try contradiction.
      destruct J as [<-|J]; [discriminate|]. eapply IH; eauto.
  - rewrite EP in EP'. injection EP' as <- <-.
    assert (KW : exists w, BoxSpec.agrees T realT p w d').
    { exists (fun i => match get_surface i d' with Ok (_, Some s) => side T realT p (geo s) | _ => true end).
      intros kk s J. destruct (get_reg (surface T) cls P o d' s D4) as (dx & -> & _); [exists kk; auto|]. reflexivity. }
    destruct KW as (w & AW).
    assert (AW3 : BoxSpec.agrees T realT p w d3).
    { intros kk s J. destruct (G4 kk) as (lx & E). apply (AW kk). rewrite E. apply in_or_app. auto. }
    pose proof (TR w AW3) as TRU.
    assert (FX : Forall2 (fun m m' => m_id m' = m_id m /\ m_void m' = m_void m /\ cell_true w m = cell_true v m') ALL ms).
    { eapply F2_impl; [|exact F4]. intros m m' (A & B & _ & S). split; auto. split; auto. specialize (S d' D4 (grow_refl _ d') _ _ FC TS). unfold same_cell in S.
      unfold cell_true. destruct (m_def m) as [n|], (m_def m') as [n'|]; try contradiction; auto. symmetry. apply S.
      - intros s (kk & J). exact (AV kk s J).
      - intros s (kk & J). exact (AW kk s J). }
    clear -TRU FX. unfold truths in TRU. destruct TRU as (A & B & C & E).
    assert (X1 : length (filter (cell_true w) ALL) = length (filter (cell_true v) ms)).
    { clear -FX. induction FX as [|m m' a b (_ & _ & X) F IH]; auto. cbn [filter]. rewrite X. destruct (cell_true v m'); cbn [length]; auto. }
    assert (X2 : length (filter (cell_true w) (filter m_void ALL)) = length (filter (cell_true v) (filter m_void ms))).
    { clear -FX. induction FX as [|m m' a b (_ & Y & X) F IH]; auto. cbn [filter]. rewrite Y. destruct (m_void m); auto. cbn [filter]. rewrite X. destruct (cell_true v m'); cbn [length]; auto. }
    assert (X3 : length (filter (cell_true w) (filter (fun m => negb (m_void m)) ALL)) = length (filter (cell_true v) (filter (fun m => negb (m_void m)) ms))).
    { clear -FX. induction FX as [|m m' a b (_ & Y & X) F IH]; auto. cbn [filter]. rewrite Y. destruct (m_void m); auto. cbn [negb filter]. rewrite X. destruct (cell_true v m'); cbn [length]; auto. }
    rewrite X1, X2, X3 in *. split; [|auto]. intros s J. rewrite (A s J). split; intros (m & I1 & I2 & I3 & I4).
    + clear -FX I1 I2 I3 I4. induction FX as [|m0 m0' a b (Y1 & Y2 & Y3) F IH]; [destruct I1|]. destruct I1 as [->|I1].
      * exists m0'. split; [left; auto|]. split; [congruence|]. split; [congruence|congruence].
      * destruct (IH I1) as (m' & U1 & U2). exists m'. split; [right; auto|auto].
    + clear -FX I1 I2 I3 I4. induction FX as [|m0 m0' a b (Y1 & Y2 & Y3) F IH]; [destruct I1|]. destruct I1 as [->|I1].
      * exists m0. split; [left; auto|]. split; [congruence|]. split; [congruence|congruence].
      * destruct (IH I1) as (m' & U1 & U2). exists m'. split; [right; auto|auto].
Qed.

(* ------------------------------------------------------------------ *)
(** * A box cut by a cone, and a box *)
(** Surface 1 is the cone about (1, 1, 0) with apex 0 and half angle 45 degrees, 2 its apex
    plane, any other number is the sphere. *)
Definition clsc (s : surface nat) : key := match s with inr 1%nat => Cone | inr 2%nat => PP | _ => cls0 s end.
Definition alc (g : surface nat) : bool := match g with inr 1%nat => false | _ => true end.
Definition apexc (g : surface nat) : surface nat := match g with inr 1%nat => inr 2%nat | _ => g end.
Definition two_sides (p : place) : bool := Qltb (2 * p AX * p AY) (p AZ * p AZ).
Definition front (p : place) : bool := Qle_bool 0 (p AX + p AY).
Definition cardc (p : place) (t : nat) : bool :=
  match t with 1%nat => two_sides p | 2%nat => front p | _ => negb (in_sphere (cube 8) p) end.
Definition realc (p : place) (t : nat) : bool :=
  match t with 1%nat => two_sides p || negb (front p) | _ => cardc p t end.
Definition cone_face : face (surface nat) := Face false Forward (Some (inr 1%nat)) None no_torus.
Definition cone_piece : piece (surface nat) := Piece false (p_faces (box_piece b57a) ++ [cone_face]).
Definition lc : list (solid nat) := [(1, [cone_piece]); (2, [box_piece b57b])].
Definition hc : list (op (surface nat)) :=
  map (fun f => match f_geo f with Some g => Add g | None => Get 0 end) (p_faces cone_piece ++ p_faces (box_piece b57b)).
Definition dc : sdict (surface nat) := Eval vm_compute in match run _ clsc same0 hc (empty 0) with Ok d => d | _ => empty 0 end.
Notation start0c := (start0 nat clsc same0 opp57 opp57 (fun l => l) pbox57 true 20 ascending mkno SNo 100 100 1 lc (cube 8) 0%nat dc).
Notation startc strict := (start nat clsc same0 opp57 opp57 opp57 alc apexc (fun l => l) (fun l => l) pbox57
  strict 20 ascending mkno SNo 100 100 1 lc (cube 8) 0%nat dc).
Definition cellsc : list mcell := Eval vm_compute in match startc true with Ok (_, ms) => ms | _ => [] end.

Lemma two_sheetsc p : two_sheets clsc alc apexc (side nat (cardc p) p) (side nat (realc p) p).
Proof.
  split; intros [q|[|[|[|n]]]] T; try reflexivity.
  - destruct T as (T & _). cbn in T. destruct (paxis q); discriminate.
  - destruct T as (_ & T). discriminate.
  - destruct T as (T & _). discriminate.
  - destruct T as (T & _). discriminate.
  - exfalso. apply T. split; reflexivity.
Qed.
Lemma faithfulc sT p : faithful clsc same0 opp57 opp57 (fun _ => True) (side nat sT p).
Proof.
  intros [q|n] g' _ _ K H.
  - destruct g' as [q'|n']; [|exfalso; destruct H as [H|H]; discriminate].
    destruct (faithful57 sT p (inl q) (inl q') (ex_intro _ q eq_refl) (ex_intro _ q' eq_refl) K H) as (A & B).
    split; [exact A|]. intros PL. apply B. exact PL.
  - destruct g' as [q'|n']; [exfalso; destruct H as [H|H]; discriminate|].
    assert (n' = n) as -> by (destruct H as [[= ->]|H]; [auto|cbn in H; apply Nat.eqb_eq in H; auto]).
    split; intros _; cbn; auto.
Qed.
Lemma flat_is f b : In f (p_faces (box_piece b)) -> exists o q, f = flat_face o q.
Proof. intros I. cbn in I. repeat (destruct I as [<-|I]; [eexists _, _; reflexivity|]). destruct I. Qed.
Lemma flat_holds sd f b inv : In f (p_faces (box_piece b)) -> face_holds clsc sd inv f <-> face_holds cls0 sd inv f.
Proof.
  intros J. destruct (flat_is f b J) as (o & q & ->). unfold face_holds.
  split; intros X pos g M E; specialize (X pos g M E); cbn [f_geo flat_face] in E; injection E as <-; exact X.
Qed.
Lemma box_holdsc sT p nb b : piece_holds clsc (side nat sT p) nb (box_piece b) <-> halfb b p = true.
Proof.
  rewrite <- (box_holds sT p nb b). unfold piece_holds. split; intros (A & _); (split; [intros f I; apply (flat_holds _ f b); auto|]);
    intros f g q sg n I (_ & _ & _ & F); destruct (flat_is f b I) as (o & q0 & ->); discriminate.
Qed.
Lemma cone_holdsc p nb : piece_holds clsc (side nat (realc p) p) nb cone_piece <-> halfb b57a p = true /\ two_sides p = false /\ front p = true.
Proof.
  rewrite <- (box_holdsc (realc p) p nb b57a). unfold piece_holds. cbn [p_inv cone_piece p_faces].
  assert (CF : face_holds clsc (side nat (realc p) p) false cone_face <-> two_sides p = false /\ front p = true).
  { split.
    - intros X. specialize (X false _ (Logic.conj eq_refl eq_refl) eq_refl). cbn in X. apply orb_false_iff in X. rewrite negb_false_iff in X. auto.
    - intros (X & Y) pos g (_ & M) [= <-]. cbn in *. subst pos. rewrite X, Y. auto. }
  split.
  - intros (A & _). split; [split|].
    + intros f J. apply A, in_or_app. auto.
    + intros f g q sg n J (_ & _ & _ & F). destruct (flat_is f b57a J) as (o & q0 & ->). discriminate.
    + apply CF, A, in_or_app. right. left. auto.
  - intros ((A & _) & C). split.
    + intros f J. apply in_app_or in J. destruct J as [J|[<-|[]]]; [auto|apply CF; auto].
    + intros f g q sg n J (_ & _ & _ & F). apply in_app_or in J. destruct J as [J|[<-|[]]]; [|discriminate].
      destruct (flat_is f b57a J) as (o & q0 & ->). discriminate.
Qed.
(** the cones among the numbers *)
Lemma tiltedc (d : sdict (surface nat)) z : tilted_number clsc alc d z ->
  In (Z.abs z) (flat_map (fun s => match geo s with inr 1%nat => [index s] | _ => [] end) (all_surfs d)).
Proof.
  intros (s & (kk & J) & <- & (K & A)). apply in_flat_map. exists s. split.
  - unfold all_surfs. apply in_flat_map. exists kk. split; auto. destruct kk; cbn; tauto.
  - destruct s as [ix g]. cbn [geo index] in *. destruct g as [q|[|[|[|n]]]]; cbn in K, A; try discriminate. left. reflexivity.
Qed.

Definition recordedb (ci : cinfo) (m : mcell) (z : Z) : bool :=
  if m_void m then match m_info m with
    | Some (Some l) => existsb (fun i => existsb (fun e => (fst e =? i) && existsb (Z.eqb (- z)) (snd e)) ci) l
    | _ => false end
  else match m_id m with Some i => existsb (fun e => (fst e =? i) && existsb (Z.eqb z) (snd e)) ci | None => false end.
Lemma recordedb_ok ci m z : recordedb ci m z = true -> recorded ci m z.
Proof.
  unfold recordedb, recorded. destruct (m_void m).
  - destruct (m_info m) as [[l|]|]; try discriminate. intros H. apply existsb_exists in H. destruct H as (i & A & H).
    apply existsb_exists in H. destruct H as ([j cs] & B & H). cbn [fst snd] in H. apply andb_prop in H. destruct H as (E & C). apply Z.eqb_eq in E. subst j.
    apply existsb_exists in C. destruct C as (x & C & E). apply Z.eqb_eq in E. subst x. exists l, i, cs. auto.
  - destruct (m_id m) as [i|]; [|discriminate]. intros H. apply existsb_exists in H. destruct H as ([j cs] & B & H). cbn [fst snd] in H.
    apply andb_prop in H. destruct H as (E & C). apply Z.eqb_eq in E. subst j. apply existsb_exists in C. destruct C as (x & C & E). apply Z.eqb_eq in E. subst x. exists i, cs. auto.
Qed.

Example C57_cones_ex : exists d', startc false = Ok (d', cellsc) /\
  (exists n, In (MC (Some 1) false None (Some n)) cellsc /\ In 16 (lits n)) /\
  forall p v, BoxSpec.agrees nat (cardc p) p v d' ->
    length (filter (cell_true v) cellsc) = 1%nat /\
    (halfb b57a p = true -> two_sides p = false -> front p = true -> exists m, In m cellsc /\ m_id m = Some 1 /\ cell_true v m = true).
Proof.
  assert (E : exists d', startc true = Ok (d', cellsc)).
  { assert (C : match startc true with Ok (_, ms) => ms | _ => [] end = cellsc) by (vm_compute; reflexivity).
    destruct (startc true) as [[d' ms]| |]; [|discriminate..]. subst ms. eauto. }
  destruct E as (d' & E). exists d'. split; [apply start_strict; exact E|].
  split; [eexists; split; [left; reflexivity|vm_compute; tauto]|]. intros p v AV.
  set (inS := fun s : solid nat => if fst s =? 1 then halfb b57a p && negb (two_sides p) && front p else halfb b57b p).
  assert (DIS : halfb b57a p = true -> halfb b57b p = true -> False).
  { clear. intros A B. pose proof (proj1 (halfb_spec _ _) A AX) as X. pose proof (proj1 (halfb_spec _ _) B AX) as Y. cbn in X, Y. lra. }
  assert (IC : inS (1, [cone_piece]) = true <-> halfb b57a p = true /\ two_sides p = false /\ front p = true).
  { unfold inS. cbn [fst Z.eqb Pos.eqb]. rewrite !andb_true_iff, negb_true_iff. tauto. }
  assert (FND : forall pc, In pc [cone_piece; box_piece b57b] -> groups_ok clsc same0 dc pc /\
     forall f, In f (p_faces pc) -> found clsc same0 dc (p_inv pc) f /\ kinds_ok clsc f /\ forall g, geometry f g -> True).
  { intros pc J. assert (FF : forall f, In f (p_faces pc) -> (exists o q, f = flat_face o q) \/ f = cone_face).
    { intros f Jf. destruct J as [<-|[<-|[]]].
      - cbn [p_faces cone_piece] in Jf. apply in_app_or in Jf. destruct Jf as [Jf|[<-|[]]]; [left; eapply flat_is; eauto|auto].
      - left. eapply flat_is; eauto. }
    split.
    - intros f f' pos pos' g g' I I' M M' E1 E1' T T' GE. exfalso. destruct (FF f I) as [(o & q & ->)| ->]; injection E1 as <-; cbn in T; [destruct (paxis q)|]; discriminate.
    - intros f Jf. destruct (FF f Jf) as [(o & q & ->)| ->]; (split; [|split; [split; intros ? ? [=]|auto]]); intros pos M.
      + exists (inl q). split; [reflexivity|]. split; [left; unfold CellDefSpec.plane; cbn; destruct (paxis q); auto|]. cbn. destruct (paxis q); discriminate.
      + exists (inr 1%nat). split; [reflexivity|]. split; [|discriminate]. right. right. exists 7, [], (Surf 7 (inr 1%nat)), []. split; [reflexivity|]. split; [reflexivity|].
        split; [reflexivity|intros ? []]. }
  destruct (C57_cones_partial nat (cardc p) (realc p) clsc same0 opp57 opp57 opp57 alc apexc (fun l => l) (fun l => l) pbox57
    20 ascending mkno SNo 100 100 1 0 hc dc (fun _ => True) p lc (cube 8) 0%nat d' cellsc inS) as (_ & K).
  - lia.
  - intros i I. cbn in I. repeat (destruct I as [I|I]; [discriminate|]). destruct I.
  - auto.
  - vm_compute. reflexivity.
  - auto.
  - auto.
  - exact same0_exact.
  - apply faithfulc.
  - apply faithfulc.
  - apply two_sheetsc.
  - clear. intros [q|[|[|[|n]]]] _ (_ & A); [discriminate A|discriminate A| |discriminate A|discriminate A].
    split; [exact Logic.I|]. right. right. right. reflexivity.
  - clear. intros [q|n] W; [discriminate|]. apply Nat.eqb_eq in W. subst n. exists 0%nat. split; reflexivity.
  - reflexivity.
  - clear. auto.
  - clear. auto.
  - clear. intros n x W I. exact (ascending_pos n x W I).
  - discriminate.
  - discriminate.
  - reflexivity.
  - intros []; reflexivity.
  - vm_compute. reflexivity.
  - cbn. repeat constructor; cbn; intuition lia.
  - intros i ps pc [[= <- <-]|[[= <- <-]|[]]] J; apply FND; destruct J as [<-|[]]; [left|right; left]; auto.
  - intros s [<-|[<-|[]]]; cbn [snd].
    + rewrite IC. split.
      * intros X. exists cone_piece. split; [left; auto|]. split; [|apply cone_holdsc; exact X].
        exists cone_face, false. split; [apply in_or_app; right; left; auto|split; reflexivity].
      * intros (pc & [<-|[]] & _ & X). apply cone_holdsc in X. exact X.
    + split.
      * intros X. exists (box_piece b57b). split; [left; auto|]. split; [apply box_has|]. apply box_holdsc. exact X.
      * intros (pc & [<-|[]] & _ & X). apply box_holdsc in X. exact X.
  - intros s pc [<-|[<-|[]]] [<-|[]] X; [apply cone_holdsc in X; destruct X as (X & _)|apply box_holdsc in X];
      intros a; destruct (proj1 (halfb_spec _ _) X a) as (U & V); (split; [exact U|apply Qlt_le_weak; exact V]).
  - assert (K : forall b, halfb b p = true -> b = b57a \/ b = b57b -> halfb (cube 8) p = true).
    { intros b X Y. apply halfb_spec. intros a. pose proof (proj1 (halfb_spec _ _) X a) as W. clear -Y W. destruct Y as [-> | ->]; revert W; destruct a; cbn; intros (W & Z); split; lra. }
    intros s [<-|[<-|[]]] X; [apply IC in X; destruct X as (X & _); apply (K _ X); auto|apply (K b57b X); auto].
  - intros i ps pc f a ins g [[= <- <-]|[[= <- <-]|[]]] [<-|[]] Jf TV.
    + apply in_app_or in Jf. destruct Jf as [Jf|[<-|[]]]; [|discriminate TV]. destruct (flat_is f b57a Jf) as (oo & q & ->). discriminate TV.
    + destruct (flat_is f b57b Jf) as (oo & q & ->). discriminate TV.
  - assert (C : match start0c with Ok (d3, ci, ms0) => forallb (fun m => match m_def m with None => true | Some n => forallb (fun z =>
       negb (existsb (Z.eqb (Z.abs z)) (flat_map (fun s => match geo s with inr 1%nat => [index s] | _ => [] end) (all_surfs d3))) || recordedb ci m z) (lits n) end) ms0
       | _ => true end = true) by (vm_compute; reflexivity).
    intros d3 ci ms0 m n z E0 Jm _ Em Jz TZ. rewrite E0 in C. rewrite forallb_forall in C. specialize (C m Jm). rewrite Em in C. rewrite forallb_forall in C. specialize (C z Jz).
    apply recordedb_ok. apply orb_prop in C. destruct C as [C|C]; [|exact C]. exfalso. apply negb_true_iff in C. apply tiltedc in TZ.
    assert (X : existsb (Z.eqb (Z.abs z)) (flat_map (fun s => match geo s with inr 1%nat => [index s] | _ => [] end) (all_surfs d3)) = true).
    { apply existsb_exists. exists (Z.abs z). split; [exact TZ|apply Z.eqb_refl]. }
    congruence.
  - exact E.
  - destruct (K v AV) as (S1 & _ & _ & L). split.
    + rewrite L. unfold lc. cbn [filter].
      assert (DJ : inS (1, [cone_piece]) = true -> inS (2, [box_piece b57b]) = true -> False).
      { intros X Y. apply (proj1 IC) in X. destruct X as (X & _). exact (DIS X Y). }
      revert DJ. clear. destruct (inS (1, [cone_piece])), (inS (2, [box_piece b57b])); intros DJ; try reflexivity. exfalso. auto.
    + intros X Y Z0. destruct (proj1 (S1 _ (or_introl eq_refl)) (proj2 IC (Logic.conj X (Logic.conj Y Z0)))) as (m & M1 & _ & M2 & M3). exists m. auto.
Qed.
