(** Property C55: cones that are not along X, Y or Z. *)
From Coq Require Import Permutation.
From Verif Require Import Prelude BoolSpec BoolSeq BoolEdit CtSpec Ctable VoidCell SurfDict SurfDictProofs
  CellDef CellDefSpec CellDefProofs PropsCellDef NoOverlap ConePlanes ConeSpec ConeProofs ConeProofs2.

(** Full property: for every conversion the cells written mean, with the two sheets of the
    cards, what the cells mean with the one sheet of the solids.  Missing (and refuted below): the tilted
    cones in the definition of a cell must be those recorded for it; definitions are not
    constant.

    [d]: the surfaces, after any history of additions and look-ups.  [ci]: the numbers of
    the cones of each solid.  The step returns; surfaces keep their numbers; every cell
    keeps its id and place in the list; and at every place where the planes that
    the code takes for the same have the place on the same side, the written cell
    holds exactly if the original one holds with the real surfaces. *)
Theorem C55_cells_partial : forall (G place : Type) cls same opp aligned apex iord (P : G -> Prop) (card real : place -> G -> bool)
    o (h : list (op G)) d ci ms,
  0 <= o -> (forall i, ~ In (Del i) h) -> (forall g, In (Add g) h -> P g) -> run G cls same h (empty o) = Ok d ->
  (forall l, Permutation (iord l) l) ->
  NoDup (map fst ci) -> (forall i cs, In (i, cs) ci -> NoDup cs) ->
  (forall i cs c, In (i, cs) ci -> In c cs -> exists s, registered_in d s /\ index s = Z.abs c /\ cls (geo s) = Cone) ->
  (forall s, registered_in d s -> tilted cls aligned (geo s) -> P (apex (geo s)) /\ plane cls (apex (geo s))) ->
  (forall m n, In m ms -> m_def m = Some n -> is_seq n /\ no_const n /\
     forall z, In z (lits n) -> z <> 0 /\ (exists s, registered_in d s /\ index s = Z.abs z) /\
       (tilted_number cls aligned d z -> recorded ci m z)) ->
  (forall m, In m ms -> m_def m = None -> m_id m = None /\ m_void m = false) ->
  exists d' ms', process_cones G cls same opp aligned apex iord ci ms d = Ok (d', ms') /\
    (forall s, registered_in d s -> registered_in d' s) /\
    (forall x, exists v w, agrees (card x) v d' /\ agrees (real x) w d') /\
    Forall2 (fun m m' => m_id m' = m_id m /\ m_void m' = m_void m /\ m_info m' = m_info m /\
      forall x, faithful cls same opp opp P (card x) -> two_sheets cls aligned apex (card x) (real x) ->
        same_cell (card x) (real x) d' m m') ms ms'.
Proof.
  intros G place cls same opp aligned apex iord P card real o h d ci ms HO ND PH R IO CND CSD CR AP HM HN.
  pose proof (run_dok G cls same P o h d ND PH R) as D.
  destruct (process_ok G cls same opp aligned apex iord IO P o HO ci CND CSD d CR AP ms d D (grow_refl G d)) as (d' & ms' & E & D' & GR & F).
  - apply Forall_forall. intros m I. unfold cell_ok. destruct (m_def m) as [n|] eqn:EM; [|auto].
    destruct (HM m n I EM) as (SQ & NC & H). split; auto. split; auto. split; intros z Iz; destruct (H z Iz) as (A & B & C); auto.
  - exists d', ms'. split; auto. split; [intros s; apply grow_reg; auto|]. split.
    + assert (K : forall side : G -> bool, exists v, agrees side v d').
      { intros side. exists (fun i => match get_surface i d' with Ok (_, Some s) => side (geo s) | _ => true end).
        intros s RS. destruct (get_reg G cls P o d' s D' RS) as (d2 & -> & _). reflexivity. }
      intros x. destruct (K (card x)) as (v & V), (K (real x)) as (w & W). exists v, w. auto.
    + eapply F2_impl; [|exact F]. intros m m' (A & B & C & S). split; auto. split; auto. split; auto.
      intros x FA TS. apply S; auto. apply grow_refl.
Qed.

(* ------------------------------------------------------------------ *)
(** * A geometry in a plane *)
(** Places (x, y); the cone |y| < x, whose card is |y| < |x|; planes x = a with the axis to
    +x or -x. *)
Inductive pgeo := QCone | QPl (a : Z) (f : bool).
Definition q_key (g : pgeo) : key := match g with QCone => Cone | QPl _ _ => PX end.
Definition q_same (g g' : pgeo) : bool :=
  match g, g' with QCone, QCone => true | QPl a _, QPl b _ => a =? b | _, _ => false end.
Definition q_opp (g g' : pgeo) : bool := match g, g' with QPl _ f, QPl _ f' => xorb f f' | _, _ => false end.
Definition q_apex (g : pgeo) : pgeo := QPl 0 false.
Definition q_card (p : Z * Z) (g : pgeo) : bool :=
  match g with QCone => Z.abs (fst p) <=? Z.abs (snd p) | QPl a f => xorb f (a <? fst p) end.
Definition q_real (p : Z * Z) (g : pgeo) : bool :=
  match g with QCone => fst p <=? Z.abs (snd p) | QPl a f => xorb f (a <? fst p) end.
Definition q_al (g : pgeo) : bool := false.
Lemma q_faithful p : faithful q_key q_same q_opp q_opp (fun _ => True) (q_card p).
Proof.
  intros [|a f] [|b f'] _ _ K H; try discriminate K.
  - split; intros PL; [reflexivity|]. unfold plane in PL. cbn in PL. intuition discriminate.
  - assert (b = a) as -> by (destruct H as [H|H]; cbn in H; [congruence|lia]).
    split; intros PL; [exfalso; apply PL; left; reflexivity|]. cbn. destruct f, f', (a <? fst p); auto.
Qed.
Lemma q_sheets p : two_sheets q_key q_al q_apex (q_card p) (q_real p).
Proof.
  split; intros [|a f] T; auto; try (destruct T; discriminate).
  - cbn. destruct (Z.leb_spec (fst p) (Z.abs (snd p))), (Z.leb_spec (Z.abs (fst p)) (Z.abs (snd p))), (Z.ltb_spec 0 (fst p)); cbn; auto; lia.
  - exfalso. apply T. split; auto.
Qed.
(** Surface 1 is the cone, 2 and 3 the planes x = 10 and x = -10, 4 the plane x = 0 with the
    axis to -x. *)
Definition q_hist : list (op pgeo) := [Add QCone; Add (QPl 10 false); Add (QPl (-10) false); Add (QPl 0 true)].
Definition q_dict : sdict pgeo := match run pgeo q_key q_same q_hist (empty 0) with Ok d => d | _ => empty 0 end.
Definition q_run := process_cones pgeo q_key q_same q_opp q_al q_apex (fun l => l).
Lemma q_reg s : registered_in q_dict s -> In s [Surf 1 QCone; Surf 2 (QPl 10 false); Surf 3 (QPl (-10) false); Surf 4 (QPl 0 true)].
Proof. intros (k & I). destruct k; vm_compute in I; simpl; intuition. Qed.
Lemma q_reg' s : In s [Surf 1 QCone; Surf 2 (QPl 10 false); Surf 3 (QPl (-10) false); Surf 4 (QPl 0 true)] -> registered_in q_dict s.
Proof. intros [<-|I]; [exists Cone; vm_compute; auto|]. exists PX. vm_compute. simpl in I. intuition. Qed.

(** The hypotheses hold: solid 7 is the cone cut at x = 10, solid 8 what is
    in front of the cone, there is a comment line, and a void with both of them.  The plane x = 0
    is there with the opposite axis. *)
Definition q_ms : list mcell :=
  [MC (Some 7) false None (Some (Seq OR 1 [Seq AND 0 [Lit (-1); Lit (-2)]]));
   MC (Some 8) false None (Some (Seq OR 1 [Seq AND 0 [Lit 1; Lit (-4); Lit (-2)]]));
   MC None false None None;
   MC (Some 9) true (Some (Some [7; 8])) (Some (Seq AND 1 [Lit 3; Lit (-2); Seq OR 0 [Lit 1; Lit 2]; Seq OR 0 [Lit (-1); Lit 4; Lit 2]]))].
Example C55_ex :
  run pgeo q_key q_same q_hist (empty 0) = Ok q_dict /\
  (forall i cs c, In (i, cs) [(7, [-1]); (8, [1])] -> In c cs -> exists s, registered_in q_dict s /\ index s = Z.abs c /\ q_key (geo s) = Cone) /\
  (forall s, registered_in q_dict s -> tilted q_key q_al (geo s) -> plane q_key (q_apex (geo s))) /\
  (forall m n, In m q_ms -> m_def m = Some n -> is_seq n /\ no_const n /\
     forall z, In z (lits n) -> z <> 0 /\ (exists s, registered_in q_dict s /\ index s = Z.abs z) /\
       (tilted_number q_key q_al q_dict z -> recorded [(7, [-1]); (8, [1])] m z)) /\
  (forall p, faithful q_key q_same q_opp q_opp (fun _ => True) (q_card p) /\ two_sheets q_key q_al q_apex (q_card p) (q_real p)) /\
  exists d', q_run [(7, [-1]); (8, [1])] q_ms q_dict = Ok (d',
    [MC (Some 7) false None (Some (Seq OR 2 [Seq AND 1 [Seq AND 0 [Lit (-1); Lit (-4)]; Lit (-2)]]));
     MC (Some 8) false None (Some (Seq OR 2 [Seq AND 1 [Seq OR 0 [Lit 1; Lit 4]; Lit (-4); Lit (-2)]]));
     MC None false None None;
     MC (Some 9) true (Some (Some [7; 8]))
       (Some (Seq AND 2 [Lit 3; Lit (-2); Seq OR 1 [Seq OR 0 [Lit 1; Lit 4]; Lit 2]; Seq OR 1 [Seq AND 0 [Lit (-1); Lit (-4)]; Lit 4; Lit 2]]))]).
Proof.
  split; [reflexivity|]. split; [|split; [|split; [|split]]].
  - intros i cs c [[= <- <-]|[[= <- <-]|[]]] [<-|[]]; (exists (Surf 1 QCone); split; [apply q_reg'; left; auto|auto]).
  - intros s R T. apply q_reg in R. left. auto.
  - assert (TN : forall z, tilted_number q_key q_al q_dict z -> Z.abs z = 1).
    { intros z (s & R & <- & T). apply q_reg in R. destruct R as [<-|[<-|[<-|[<-|[]]]]]; auto; destruct T; discriminate. }
    assert (RG : forall z, 1 <= Z.abs z <= 4 -> z <> 0 /\ exists s, registered_in q_dict s /\ index s = Z.abs z).
    { intros z B. split; [lia|]. assert (Z.abs z = 1 \/ Z.abs z = 2 \/ Z.abs z = 3 \/ Z.abs z = 4) as [-> |[-> |[-> | ->]]] by lia;
        [exists (Surf 1 QCone)|exists (Surf 2 (QPl 10 false))|exists (Surf 3 (QPl (-10) false))|exists (Surf 4 (QPl 0 true))];
        (split; [apply q_reg'; simpl; auto|reflexivity]). }
    intros m n I E. unfold q_ms in I. simpl in I.
    destruct I as [<-|[<-|[<-|[<-|[]]]]]; cbn [m_def] in E; try discriminate; injection E as <-; (split; [exact Logic.I|]; split; [cbn; tauto|]);
      intros z Iz; simpl in Iz; (destruct (RG z) as (A & B); [intuition lia|]); (split; [auto|]; split; [auto|]); intros T; apply TN in T; unfold recorded; cbn [m_void m_id m_info].
    + exists 7, [-1]. split; auto. split; [left; auto|]. left. lia.
    + exists 8, [1]. split; auto. split; [right; left; auto|]. left. lia.
    + assert (z = 1 \/ z = -1) as [-> | ->] by lia.
      * exists [7; 8], 7, [-1]. split; auto. split; [left; auto|]. split; [left; auto|left; auto].
      * exists [7; 8], 8, [1]. split; auto. split; [right; left; auto|]. split; [right; left; auto|left; auto].
  - intros p. split; [apply q_faithful|apply q_sheets].
  - eexists. vm_compute. reflexivity.
Qed.

(* ------------------------------------------------------------------ *)
(** * What is not recorded *)

Definition q_at (p : Z * Z) (side : Z * Z -> pgeo -> bool) : point := fun i =>
  match get_surface i q_dict with Ok (_, Some s) => side p (geo s) | _ => true end.
Lemma q_agrees p side : agrees (side p) (q_at p side) q_dict.
Proof. intros s R. apply q_reg in R. destruct R as [<-|[<-|[<-|[<-|[]]]]]; reflexivity. Qed.

(** The cones of enclosures.  Enclosure 5 is the cone cut at x = 10; it is the only object in the
    box -10 < x < 10 of a void of the level above.  The ids kept for the void leave
    enclosures out, so the void is not changed, and the place (-5, 0), which is in the
    box and outside the enclosure, is not in the void that is written. *)
Definition q_box := Seq AND 0 [Lit 3; Lit (-2)].
Definition q_solid := Seq OR 1 [Seq AND 0 [Lit (-1); Lit (-2)]].
Theorem C55_enclosure_refuted : exists n m,
  get_void false 20 surfs (fun _ => Err TypeError) SNo false q_box [q_solid] = Ok (Some n) /\
  m = MC (Some 9) true (Some (cells_in [(true, 5)])) (Some n) /\
  q_run [(5, [-1])] [m] q_dict = Ok (q_dict, [m]) /\
  eval (q_at (-5, 0) q_real) q_box = true /\ eval (q_at (-5, 0) q_real) q_solid = false /\
  eval (q_at (-5, 0) q_real) n = true /\ eval (q_at (-5, 0) q_card) n = false.
Proof. eexists _, _. split; [vm_compute; reflexivity|]. split; [reflexivity|]. vm_compute. auto. Qed.
(** The void inside the same enclosure, without solids, is its definition; it is written
    without the plane and holds at (-5, 0), behind the apex. *)
Theorem C55_inside_refuted : exists n m,
  get_void false 20 surfs (fun _ => Err TypeError) SNo true q_solid [] = Ok (Some n) /\
  m = MC (Some 9) true (Some (cells_in [])) (Some n) /\
  q_run [(5, [-1])] [m] q_dict = Ok (q_dict, [m]) /\
  eval (q_at (-5, 0) q_real) q_solid = false /\ eval (q_at (-5, 0) q_card) n = true.
Proof. eexists _, _. split; [vm_compute; reflexivity|]. split; [reflexivity|]. vm_compute. auto. Qed.
(** forceNoOverlap: cell 8, the slab, becomes the slab minus cell 7, the cone cut at x = 10.  The cone is
    recorded for cell 7 only: cell 8 is written without (-5, 0). *)
Theorem C55_overlap_refuted : exists n simp all d' n7 m,
  new_defs unit (fun _ _ => true) [Meta (Some q_solid) tt [tt]; Meta (Some q_box) tt [tt]] = Ok ([(n, simp)], all) /\
  m = MC (Some 8) false None (Some n) /\
  q_run [(7, [-1])] [MC (Some 7) false None (Some q_solid); m] q_dict = Ok (d', [MC (Some 7) false None (Some n7); m]) /\
  eval (q_at (-5, 0) q_card) n7 = false /\ eval (q_at (-5, 0) q_card) n = false /\
  eval (q_at (-5, 0) q_real) q_solid = false /\ eval (q_at (-5, 0) q_real) q_box = true /\ eval (q_at (-5, 0) q_real) n = true.
Proof. do 6 eexists. split; [vm_compute; reflexivity|]. split; [reflexivity|]. split; [vm_compute; reflexivity|]. vm_compute. auto 10. Qed.
(** A solid whose definition has been simplified to a constant, with a tilted cone recorded:
    the conversion stops. *)
Theorem C55_constant_refuted : forall op lev b i,
  q_run [(i, [-1])] [MC (Some i) false None (Some (Cst op lev b))] q_dict = Err TypeError /\
  q_run [(i, [-1])] [MC None true (Some (Some [i])) (Some (Cst op lev b))] q_dict = Err TypeError.
Proof.
  intros op lev b i. unfold q_run, process_cones, cell_step, info_of. cbn [m_void m_id m_info find fst]. rewrite Z.eqb_refl. split; [reflexivity|].
  cbn [void_cones info_of find fst]. unfold info_of. cbn [find fst]. rewrite Z.eqb_refl. reflexivity.
Qed.
