(** Property C51: from the faces of the pieces of a solid to the definition of the cell. *)
From Coq Require Import Ascii String Permutation.
From Verif Require Import Prelude BoolSpec BoolSeq BoolProofs BoolProofs2 CellText Writers ParenModel
  SurfDict SurfDictProofs CellDef CellDefSpec CellDefProofs CellDefProofs2 CellDefProofs3.

(** [v] gives each registered surface the side on which the place is. *)
Definition agrees {G} (side : G -> bool) (v : point) (d : sdict G) : Prop :=
  forall s, registered_in d s -> v (index s) = side (geo s).

Section History.
  Variable G : Type.
  Variable cls : G -> key.
  Variable same : G -> G -> bool.
  Variable P : G -> Prop.
  Definition typed (d : sdict G) : Prop :=
    (forall s, registered_in d s -> P (geo s)) /\ (forall k s, In s (group d k) -> cls (geo s) = k).
  Lemma typed_group d d' : group d' = group d -> typed d -> typed d'.
  Proof. unfold typed, registered_in. intros ->. auto. Qed.
  Lemma typed_add g d : P g -> typed d -> typed (fst (add G cls same g d)).
  Proof.
    intros PG (A & B). unfold add. destruct (find_same G same g 0 (group d (cls g))) as [[i ix]|]; cbn [fst]; [split; auto|].
    assert (K : forall k s, In s (upd (group d) (cls g) (group d (cls g) ++ [Surf (number d + 1 + offset d) g]) k) ->
      In s (group d k) \/ s = Surf (number d + 1 + offset d) g /\ k = cls g).
    { intros k s. destruct (key_eqb_spec k (cls g)) as [->|NE]; [rewrite upd_same|rewrite upd_other by auto; auto].
      rewrite in_app_iff. simpl. intuition. }
    split; cbn [group].
    - intros s (k & I). cbn [group] in I. destruct (K _ _ I) as [J|(-> & _)]; auto. apply A. exists k. auto.
    - intros k s I. destruct (K _ _ I) as [J|(-> & ->)]; auto.
  Qed.
  Lemma run_typed o : forall h d d', no_del G h -> (forall g, In (Add g) h -> P g) ->
    Good G o d -> complete G o (o + number d) d -> last_ok G d -> typed d -> run G cls same h d = Ok d' -> typed d'.
  Proof.
    induction h as [|x h IH]; intros d d' ND PH GD C L T R; cbn [run] in R; [congruence|].
    assert (ND' : no_del G h) by (intros i Hi; apply (ND i); right; auto).
    assert (NX : no_del G [x]) by (intros i [Hi|[]]; apply (ND i); left; auto).
    assert (PH' : forall g, In (Add g) h -> P g) by (intros; apply PH; right; auto).
    destruct (run_total G cls same o [x] d NX GD C L) as (d1 & R1 & GD1 & C1 & L1). cbn [run] in R1.
    destruct (step G cls same x d) as [d2| |] eqn:ES; cbn [bind] in R1; [|discriminate|discriminate].
    injection R1 as ->. cbn [bind] in R. apply (IH d1 d'); auto. clear IH R PH' ND'. destruct x as [g|i|i]; cbn [step] in ES.
    - injection ES as <-. apply typed_add; auto. apply PH. left; auto.
    - destruct GD as (OO & NN & I). destruct (get_ok _ _ _ i d I L) as (d3 & r & E & SC & _). rewrite E in ES. cbn [bind] in ES.
      injection ES as <-. destruct SC as (_ & E2 & _). apply (typed_group d); auto.
    - exfalso. apply (ND i). left; auto.
  Qed.
  Lemma run_dok o h d : (forall i, ~ In (Del i) h) -> (forall g, In (Add g) h -> P g) ->
    run G cls same h (empty o) = Ok d -> dok G cls P o d.
  Proof.
    intros ND PH R. destruct (empty_good G o) as (GD & C & L).
    destruct (run_total G cls same o h (empty o) ND GD C L) as (d' & R' & GD' & C' & L'). rewrite R in R'. injection R' as <-.
    destruct (run_typed o h (empty o) d ND PH GD C L) as (A & B); auto; [|split; auto].
    split; [intros s (k & [])|intros k s []].
  Qed.
End History.

Lemma F2_impl {A B} (Q R : A -> B -> Prop) : (forall a b, Q a b -> R a b) -> forall l m, Forall2 Q l m -> Forall2 R l m.
Proof. induction 2; constructor; auto. Qed.
Lemma or_pieces {A} v (Q : A -> Prop) kept ns : Forall2 (fun p n => eval v n = true <-> Q p) kept ns ->
  (evl v OR ns = true <-> exists p, In p kept /\ Q p).
Proof.
  induction 1 as [|p n kept ns H F IH].
  - rewrite evl_nil. split; [discriminate|intros (? & [] & _)].
  - rewrite evl_cons. cbn [opb]. rewrite orb_true_iff, H, IH. split.
    + intros [?|(q & I & ?)]; [exists p|exists q]; simpl; auto.
    + intros (q & [<-|I] & K); auto. right. exists q. auto.
Qed.
Lemma kept_in {A} (ps : list A) : forall bs p, List.length bs = List.length ps ->
  (In p (map fst (filter snd (combine ps bs))) <-> In (p, true) (combine ps bs)) /\
  (In p ps <-> In (p, true) (combine ps bs) \/ In (p, false) (combine ps bs)).
Proof.
  induction ps as [|a ps IH]; intros [|b bs] p E; simpl in E; try discriminate; [simpl; tauto|].
  destruct (IH bs p) as (A1 & A2); [lia|]. cbn [combine filter snd]. split.
  - destruct b; cbn [map fst]; simpl; rewrite A1.
    + split; intros [H|H]; auto; left; congruence.
    + split; auto. intros [H|H]; auto. discriminate.
  - simpl. rewrite A2. destruct b; intuition congruence.
Qed.

(** Full property: no hypothesis on the surfaces of the faces.  Missing (and refuted
    below): faces whose surface is found in no registered one, unknown kinds, tori with a
    tilted axis; the additional surfaces are given.

    Any history of additions and look-ups gives the dictionary [d]; the pieces have
    faces whose surfaces are known.  The definition is made; surfaces keep their
    numbers; and at every place where the surfaces that the code takes for the same
    have the place on the same side, the definition is true exactly if the place
    is on the right side of all the faces of one of the pieces (and of the additional
    surfaces of concave and torus faces).  The cones are exactly those of the faces,
    with the sign of the side. *)
Theorem C51_cell_partial : forall (G place : Type) cls same opp opp_x (P : G -> Prop) (side : place -> G -> bool) (x0 : place)
    o (h : list (op G)) d sord ps,
  0 <= o -> (forall i, ~ In (Del i) h) -> (forall g, In (Add g) h -> P g) -> run G cls same h (empty o) = Ok d ->
  (forall l, Permutation (sord l) l) ->
  (forall p f, In p ps -> In f (p_faces p) ->
     found cls same d (p_inv p) f /\ kinds_ok cls f /\ forall g, geometry f g -> P g) ->
  (forall p, In p ps -> groups_ok cls same d p) ->
  faithful cls same opp opp_x P (side x0) ->
  exists d' kept def cones, cell_def G cls same opp opp_x sord ps d = Ok (d', kept, def, cones) /\
    (forall s, registered_in d s -> registered_in d' s) /\
    (forall x, exists v, agrees (side x) v d') /\
    (forall x, faithful cls same opp opp_x P (side x) -> forall v, agrees (side x) v d' ->
       (eval v def = true <->
        exists p, In p ps /\ has_face p /\ piece_holds cls (side x) (number_in cls same d) p)) /\
    (forall z, In z cones <-> exists p f pos g n, In p ps /\ In f (p_faces p) /\ matter (p_inv p) f pos /\
       f_geo f = Some g /\ cls g = Cone /\ number_in cls same d g n /\ z = if pos then n else - n).
Proof.
  intros G place cls same opp opp_x P side x0 o h d sord ps HO ND PH R HS HF HG FA.
  pose proof (run_dok G cls same P o h d ND PH R) as D.
  assert (PG : forall p, In p ps -> piece_good G cls same P d p) by (intros p I; split; auto).
  destruct (cell_ok G cls same opp opp_x P (side x0) FA o HO d D sord HS [] ps d 0 [] [] PG D (grow_refl G d))
    as (d' & bs & lev & ns & c & LB & E & D' & GR & CN & DR & F2 & _).
  eexists _, _, _, _. split; [exact E|]. split; [intros s; apply grow_reg; auto|]. split; [|split].
  - intros x. exists (fun i => match get_surface i d' with Ok (_, Some s) => side x (geo s) | _ => true end).
    intros s RS. destruct (get_reg G cls P o d' s D' RS) as (d2 & -> & _). reflexivity.
  - clear LB DR F2 CN. intros x FX v AV.
    destruct (cell_ok G cls same opp opp_x P (side x) FX o HO d D sord HS [] ps d 0 [] [] PG D (grow_refl G d))
      as (d1 & bs1 & lev1 & ns1 & c1 & LB & E1 & _ & _ & _ & DR & F2 & _).
    rewrite E in E1. cbn [app] in E1. injection E1 as <- EK <- <- <-.
    rewrite eval_seq. cbn [app].
    rewrite (or_pieces v (fun p => has_face p /\ piece_holds cls (side x) (number_in cls same d) p) (map fst (filter snd (combine ps bs1))) ns).
    + split.
      * intros (p & I & H). exists p. split; auto. apply (kept_in ps bs1 p LB) in I. apply (kept_in ps bs1 p LB). auto.
      * intros (p & I & H). exists p. split; auto. apply (kept_in ps bs1 p LB). apply (kept_in ps bs1 p LB) in I. destruct I as [I|I]; auto.
        exfalso. destruct H as (H1 & H2). destruct (DR p I) as [N|N]; [auto|exact (N v AV H2)].
    + eapply F2_impl; [|exact F2]. cbv beta. intros p n (HFc & W & SH & V). specialize (V v AV). tauto.
  - intros z. rewrite CN. split.
    + intros [[]|(p & f & I & J & pos & g & n & K)]. exists p, f, pos, g, n. auto.
    + intros (p & f & pos & g & n & I & J & K). right. exists p, f. split; auto. split; auto. exists pos, g, n. auto.
Qed.

(** The pieces kept are, in order, those with a non-empty element in the
    definition, each with its own element; the others have no face that counts, or
    no place at all is inside them at [x]. *)
Theorem C51_pieces_partial : forall (G : Type) cls same opp opp_x (P : G -> Prop) side
    o (h : list (op G)) d sord ps d' kept def cones,
  0 <= o -> (forall i, ~ In (Del i) h) -> (forall g, In (Add g) h -> P g) -> run G cls same h (empty o) = Ok d ->
  (forall l, Permutation (sord l) l) ->
  (forall p f, In p ps -> In f (p_faces p) ->
     found cls same d (p_inv p) f /\ kinds_ok cls f /\ forall g, geometry f g -> P g) ->
  (forall p, In p ps -> groups_ok cls same d p) ->
  faithful cls same opp opp_x P side ->
  cell_def G cls same opp opp_x sord ps d = Ok (d', kept, def, cones) ->
  exists bs lev ns, List.length bs = List.length ps /\ kept = map fst (filter snd (combine ps bs)) /\
    def = Seq OR lev ns /\
    Forall2 (fun p n => has_face p /\ (exists op lv x l, n = Seq op lv (x :: l)) /\
       forall v, agrees side v d' -> (eval v n = true <-> piece_holds cls side (number_in cls same d) p)) kept ns /\
    (forall p, In (p, false) (combine ps bs) ->
       ~ has_face p \/ forall v, agrees side v d' -> ~ piece_holds cls side (number_in cls same d) p).
Proof.
  intros G cls same opp opp_x P side o h d sord ps d' kept def cones HO ND PH R HS HF HG FA E.
  pose proof (run_dok G cls same P o h d ND PH R) as D.
  assert (PG : forall p, In p ps -> piece_good G cls same P d p) by (intros p I; split; auto).
  destruct (cell_ok G cls same opp opp_x P side FA o HO d D sord HS [] ps d 0 [] [] PG D (grow_refl G d))
    as (d1 & bs & lev & ns & c & LB & E1 & D' & GR & CN & DR & F2 & _).
  unfold cell_def in E. rewrite E in E1. cbn [app] in E1. injection E1 as -> -> -> ->.
  exists bs, lev, ns. split; auto. split; auto. split; auto. split; auto.
  eapply F2_impl; [|exact F2]. cbv beta. intros p n (HFc & W & SH & V). split; auto.
Qed.

(* ------------------------------------------------------------------ *)
(** * A geometry on a line *)

(** Planes x = a with an axis that points to -x or +x, cylinders and spheres
    |x| = a, tori, with places x; two surfaces are the same up to [tol]. *)
Record line_geo := LG { lg_key : key; lg_a : Z; lg_neg : bool }.
Definition lg_same (tol : Z) (g g' : line_geo) : bool := Z.abs (lg_a g - lg_a g') <=? tol.
Definition lg_opp (g g' : line_geo) : bool := xorb (lg_neg g) (lg_neg g').
Definition lg_side (x : Z) (g : line_geo) : bool :=
  match lg_key g with
  | PX | PY | PZ | PP => xorb (lg_neg g) (lg_a g <? x)
  | _ => lg_a g <? Z.abs x
  end.
Lemma lg_faithful x : faithful lg_key (lg_same 0) lg_opp lg_opp (fun _ => True) (lg_side x).
Proof.
  intros [k a n] [k' a' n'] _ _ K H. simpl in K. subst k'.
  assert (a' = a) as ->. { destruct H as [H|H]; [congruence|]. unfold lg_same in H. simpl in H. lia. }
  unfold lg_side, lg_opp, plane. simpl. split; intros PL.
  - destruct k; auto; exfalso; apply PL; auto 10.
  - destruct PL as [-> | [-> | [-> | ->]]]; destruct n, n', (a <? x); auto.
Qed.

Definition no_torus {G} : torus G := Torus false false 0 None None.
(** The slab -9 < x < 9 without the sphere |x| < 2; the sphere has the additional
    plane x = 1 with the face on its positive side; the plane at 9 has the axis that
    is opposite to the registered one. *)
Definition ex_piece : piece line_geo := Piece false
  [Face false Reversed (Some (LG PX (-9) false)) None no_torus;
   Face false Reversed (Some (LG PX 9 true)) None no_torus;
   Face true Forward (Some (LG PX 7 false)) None no_torus;
   Face false Reversed (Some (LG Sph 2 false)) (Some (LG PX 1 true, false)) no_torus].
(** The shell 20 < |x| < 30 between two tori, the inner one with an annex plane. *)
Definition ex_piece2 : piece line_geo := Piece true
  [Face false Reversed (Some (LG Tor 30 false)) None (Torus true false 0 None None);
   Face false Forward (Some (LG Tor 20 false)) None (Torus true false 1 (Some (LG PX 0 false, None)) None)].
Definition ex_hist : list (op line_geo) :=
  [Add (LG PX 9 false); Add (LG PX (-9) false); Add (LG Sph 2 false); Get 1; Add (LG Tor 20 false); Add (LG Tor 30 false); Add (LG PX 9 true)].
Definition ex_dict : sdict line_geo :=
  match run line_geo lg_key (lg_same 0) ex_hist (empty 0) with Ok d => d | _ => empty 0 end.
Definition ex_show (r : res (sdict line_geo * list (piece line_geo) * node * list Z)) : res (Z * nat * node * list Z) :=
  match r with Ok (d, k, n, c) => Ok (number d, List.length k, n, c) | Err e => Err e | Fuel => Fuel end.
Lemma ex_number g n : match find_same line_geo (lg_same 0) g 0 (group ex_dict (lg_key g)) with Some (_, ix) => ix =? n | None => false end = true ->
  number_in lg_key (lg_same 0) ex_dict g n.
Proof.
  intros H. pose proof (find_same_spec line_geo lg_key (lg_same 0) g (group ex_dict (lg_key g)) 0) as F.
  destruct (find_same line_geo (lg_same 0) g 0 (group ex_dict (lg_key g))) as [[i ix]|]; [|discriminate].
  destruct F as (l1 & t & l2 & E & EI & SM & FR & _). exists l1, t, l2. split; auto. split; auto. split; auto. lia.
Qed.
Ltac ltbs := repeat match goal with
  | H : context [?a <? ?b] |- _ => destruct (Z.ltb_spec a b); cbn in H
  | |- context [?a <? ?b] => destruct (Z.ltb_spec a b); cbn
  end; try discriminate; try reflexivity; try lia.
(** The hypotheses hold for the two pieces, and what comes out. *)
Example C51_ex :
  run line_geo lg_key (lg_same 0) ex_hist (empty 0) = Ok ex_dict /\
  (forall p f, In p [ex_piece; ex_piece2] -> In f (p_faces p) ->
     found lg_key (lg_same 0) ex_dict (p_inv p) f /\ kinds_ok lg_key f) /\
  (forall p, In p [ex_piece; ex_piece2] -> groups_ok lg_key (lg_same 0) ex_dict p) /\
  (forall x, faithful lg_key (lg_same 0) lg_opp lg_opp (fun _ => True) (lg_side x)) /\
  ex_show (cell_def line_geo lg_key (lg_same 0) lg_opp lg_opp (fun l => l) [ex_piece; ex_piece2] ex_dict) =
    Ok (7, 2%nat, Seq OR 1 [Seq AND 0 [Lit 2; Lit (-1); Lit 3; Lit (-6)]; Seq AND 0 [Lit (-5); Lit 4; Lit 7]], []) /\
  (forall x, piece_holds lg_key (lg_side x) (number_in lg_key (lg_same 0) ex_dict) ex_piece <-> 2 < x <= 9).
Proof.
  split; [reflexivity|]. split; [|split; [|split; [exact lg_faithful|split; [vm_compute; reflexivity|]]]].
  - intros p f [<-|[<-|[]]] I; simpl in I.
    + destruct I as [<-|[<-|[<-|[<-|[]]]]]; (split; [intros pos (A & B); simpl in A, B|]).
      * eexists. split; [reflexivity|]. split; [left; left; reflexivity|discriminate].
      * split; intros ? ? [=].
      * eexists. split; [reflexivity|]. split; [left; left; reflexivity|discriminate].
      * split; intros ? ? [=].
      * discriminate.
      * split; intros ? ? [=].
      * eexists. split; [reflexivity|]. split; [right; right; exists 3; apply ex_number; reflexivity|discriminate].
      * split; [intros ? ? [= <- <-]; left; reflexivity|intros ? ? [=]].
    + destruct I as [<-|[<-|[]]]; (split; [intros pos (A & B); simpl in A, B|]).
      * eexists. split; [reflexivity|]. split; [right; right; exists 5; apply ex_number; reflexivity|simpl; split; auto; lia].
      * split; intros ? ? [=].
      * eexists. split; [reflexivity|]. split; [right; right; exists 4; apply ex_number; reflexivity|simpl; split; auto; lia].
      * split; [intros ? ? [=]|]. intros ? ? [= <- <-]. split; [left; reflexivity|discriminate].
  - intros p [<-|[<-|[]]] f f' pos pos' g g' I I' M M' E E' T T' GE; simpl in I, I'.
    + destruct I as [<-|[<-|[<-|[<-|[]]]]]; simpl in E; injection E as <-; discriminate.
    + destruct I as [<-|[<-|[]]], I' as [<-|[<-|[]]]; simpl in GE; try lia; simpl in E, E'; rewrite E in E'; injection E' as <-;
        destruct M as (_ & M), M' as (_ & M'); simpl in M, M'; (split; [auto|split; [congruence|auto]]).
  - intros x. unfold piece_holds. split.
    + intros (H & X).
      pose proof (H _ (or_intror (or_introl eq_refl)) true _ (Logic.conj eq_refl eq_refl) eq_refl) as H2.
      pose proof (H _ (or_intror (or_intror (or_intror (or_introl eq_refl)))) true _ (Logic.conj eq_refl eq_refl) eq_refl) as H3.
      destruct (X _ (LG Sph 2 false) (LG PX 1 true) false 3 (or_intror (or_intror (or_intror (or_introl eq_refl))))) as (f & g & p & sg & I & (_ & _ & _ & F) & _ & S).
      { split; [split; reflexivity|]. split; [reflexivity|]. split; auto. }
      { apply ex_number. reflexivity. }
      simpl in I. destruct I as [<-|[<-|[<-|[<-|[]]]]]; try discriminate F. injection F as <- <-.
      unfold lg_side in *. simpl in *. ltbs.
    + intros B. split.
      * intros f I pos g (A & M) E. simpl in I. destruct I as [<-|[<-|[<-|[<-|[]]]]]; simpl in *; try discriminate A; injection E as <-; subst pos; unfold lg_side; simpl; ltbs.
      * intros f g p sg n I CO NB. exists f, g, p, sg. split; auto. split; auto. split; auto.
        destruct CO as (_ & _ & _ & F). simpl in I. destruct I as [<-|[<-|[<-|[<-|[]]]]]; try discriminate F. injection F as <- <-.
        unfold lg_side. simpl. ltbs.
Qed.

(* ------------------------------------------------------------------ *)
(** * What goes wrong outside these hypotheses *)

(** Tolerances are not transitive.  The sphere 4 of the piece is the same as the
    sphere 2 found in its solid, and so is not registered; the sphere 2 is the same
    as a sphere 0 of another solid, and is not registered either.  get_id finds
    nothing for the sphere 4, and the definition holds the number 0. *)
Theorem C51_zero_refuted :
  let sph a := LG Sph a false in
  lg_same 2 (sph 4) (sph 2) = true /\
  exists d, run line_geo lg_key (lg_same 2) [Add (sph 0); Add (LG PX 9 false); Add (sph 2)] (empty 0) = Ok d /\
    ex_show (cell_def line_geo lg_key (lg_same 2) lg_opp lg_opp (fun l => l)
      [Piece false [Face false Forward (Some (sph 4)) None no_torus;
                    Face false Forward (Some (LG PX 9 false)) None no_torus]] d) =
    Ok (2, 1%nat, Seq OR 1 [Seq AND 0 [Lit 0; Lit (-2)]], []).
Proof. cbv zeta. split; [reflexivity|]. eexists. split; [reflexivity|]. vm_compute. reflexivity. Qed.

(** The same for a surface of a kind that the code does not know (a warning is
    logged): number 0. *)
Theorem C51_unknown_refuted : 
  ex_show (cell_def line_geo lg_key (lg_same 0) lg_opp lg_opp (fun l => l)
    [Piece false [Face false Forward None None no_torus; Face false Forward (Some (LG PX 9 false)) None no_torus]] ex_dict) =
  Ok (5, 1%nat, Seq OR 1 [Seq AND 0 [Lit 0; Lit (-1)]], []).
Proof. vm_compute. reflexivity. Qed.

(** A torus whose axis is not along X, Y or Z is left out: the definition is true
    at places that are not inside the torus face of the piece. *)
Theorem C51_torus_refuted : exists p n d kept cones x v,
  cell_def line_geo lg_key (lg_same 0) lg_opp lg_opp (fun l => l) [p] ex_dict = Ok (d, kept, n, cones) /\
  agrees (lg_side x) v d /\ eval v n = true /\
  ~ piece_holds lg_key (lg_side x) (number_in lg_key (lg_same 0) ex_dict) p.
Proof.
  exists (Piece false [Face false Forward (Some (LG Tor 20 false)) None (Torus false false 0 None None);
                       Face false Forward (Some (LG PX (-9) false)) None no_torus]).
  eexists _, _, _, _. exists (-25), (fun i => match i with 1 => false | 2 => false | 3 => true | 4 => true | _ => false end).
  split; [vm_compute; reflexivity|]. split; [|split; [vm_compute; reflexivity|]].
  - intros s (k & I). destruct k; vm_compute in I; intuition; subst; reflexivity.
  - intros (H & _). pose proof (H _ (or_introl eq_refl) false _ (Logic.conj eq_refl eq_refl) eq_refl) as K. vm_compute in K. destruct K as (K & _). discriminate.
Qed.
