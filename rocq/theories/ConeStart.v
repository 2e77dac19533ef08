(** Proofs for C57 with cones of any direction: definitions have no constant inside, the
    numbers of the cones of a solid are different. *)
From Coq Require Import Ascii String Permutation QArith.
From Verif Require Import Prelude BoolSpec BoolSeq BoolEdit BoolProofs BoolProofs2 BoolEditProofs CtSpec Ctable VoidCell
  CellText Writers ParenModel SurfDict SurfDictProofs CellDef CellDefSpec CellDefProofs ConePlanes ConeSpec ConeProofs OnProofs.
From Verif Require Import VoidBoxes BoxDef VoidAll Start.
Open Scope Z_scope.

(** * No constant inside *)
Definition nc (n : node) : Prop := match n with Cst _ _ _ => True | _ => no_const n end.
Lemma nc_seq op lev l : nc (Seq op lev l) <-> Forall no_const l.
Proof. apply (no_const_seq op lev). Qed.
Definition ncarg (a : arg) : Prop := match a with AN n => nc n | AB _ => True end.
Lemma append_loop_nc op args : forall lev l, Forall no_const l -> Forall ncarg args -> nc (append_loop op lev l args).
Proof.
  induction args as [|a args IH]; intros lev l HL HA; cbn [append_loop]; [apply nc_seq; auto|].
  inversion HA as [|? ? A B]; subst. destruct a as [n|b].
  - destruct n as [s|o' lv b|o' lv l']; cbn [ncarg] in A.
    + destruct (in_lits s l); auto. destruct (in_lits (- s) l); [exact Logic.I|]. apply IH; auto. apply Forall_app. split; auto.
    + destruct (eqb b (absorbing op)); [exact Logic.I|]. auto.
    + apply IH; auto. apply Forall_app. split; auto.
  - destruct (eqb b (neutral op)); [|exact Logic.I]. auto.
Qed.
Lemma append_nc self args r : nc self -> Forall ncarg args -> append self args = Ok r -> nc r.
Proof.
  intros HS HA H. destruct self as [z|op lev b|op lev l]; cbn [append] in H; try discriminate.
  - destruct (eqb b (neutral op)); [|injection H as <-; exact Logic.I]. destruct args as [|a [|]]; try discriminate; destruct a as [n|]; try discriminate.
    + inversion HA; subst. destruct n; try discriminate; cbn [assign_tuple] in H; injection H as <-; auto.
    + destruct n; discriminate.
  - injection H as <-. apply append_loop_nc; auto. apply nc_seq in HS. auto.
Qed.
Lemma append1_nc self n r : nc self -> nc n -> append self [AN n] = Ok r -> nc r.
Proof. intros A B. apply append_nc; auto. Qed.
Lemma append_is_seq self args r : append self args = Ok r -> is_seq r.
Proof.
  assert (K : forall op args lev l, is_seq (append_loop op lev l args)).
  { clear. intros op. induction args as [|a args IH]; intros lev l; cbn [append_loop]; [exact Logic.I|].
    destruct a as [[z|o lv b|o lv l']|b]; repeat match goal with |- context [if ?c then _ else _] => destruct c end; auto; exact Logic.I. }
  destruct self as [z|op lev b|op lev l]; cbn [append]; try discriminate.
  - destruct (eqb b (neutral op)); [|intros [= <-]; exact Logic.I]. destruct args as [|a [|]]; try discriminate; [|destruct a as [[]|]; discriminate].
    destruct a as [[]|]; try discriminate; cbn [assign_tuple]; intros [= <-]; exact Logic.I.
  - intros [= <-]. apply K.
Qed.

Lemma Forall_incl {A} (Q : A -> Prop) l l' : incl l' l -> Forall Q l -> Forall Q l'.
Proof. rewrite !Forall_forall. auto. Qed.
Lemma gs_loop_nc i : forall l g l' g', Forall no_const l -> Forall no_const g -> gs_loop i l g = Ok (l', g') -> Forall no_const l' /\ Forall no_const g'.
Proof.
  induction i as [|j IH]; intros l g l' g' HL HG H; cbn [gs_loop] in H; [injection H as <- <-; auto|].
  destruct (nth_error l j) as [x|] eqn:E; [|injection H as <- <-; auto].
  assert (OX : no_const x) by (rewrite Forall_forall in HL; apply HL; eapply nth_error_In; eauto).
  destruct x as [z|o lev b|o lev xs].
  - apply IH in H; auto; [eapply Forall_incl; [apply remove_lit_incl|auto]|apply Forall_app; auto].
  - destruct OX.
  - destruct xs as [|x [|]]; try (apply IH in H; auto; fail). destruct (lev =? 0); apply IH in H; auto.
    + eapply Forall_incl; [apply remove_at_incl|auto].
    + apply (no_const_seq o lev) in OX. apply Forall_app. auto.
Qed.
Lemma group_single_nc n r : nc n -> group_single n = Ok r -> nc r.
Proof.
  intros HN H. destruct n as [z|op lev b|op lev l]; cbn [group_single] in H; [discriminate|injection H as <-; auto|].
  destruct (lev =? 0); [injection H as <-; auto|]. destruct (gs_loop (List.length l) l []) as [[l' g]| |] eqn:E; try discriminate. cbn [bind] in H.
  apply nc_seq in HN. destruct (gs_loop_nc _ _ _ _ _ HN (Forall_nil _) E) as (A & B). destruct g; injection H as <-; apply nc_seq; auto.
  constructor; auto. apply (no_const_seq op 0). auto.
Qed.
Lemma set_level_nc lev n : nc n -> nc (set_level lev n).
Proof. destruct n; auto. Qed.
Lemma def_loop_nc rec terms : (forall t n, rec t = Ok n -> nc n) -> forall self ints self' ints', nc self ->
  def_loop rec terms self ints = Ok (self', ints') -> nc self'.
Proof.
  intros HR. induction terms as [|t ts IH]; intros self ints self' ints' HS H; cbn [def_loop] in H; [injection H as <- <-; auto|].
  destruct (as_integer t) as [z|]; [eapply IH; eauto|]. destruct t as [|c t]; [discriminate|].
  destruct (rec (c :: t)) as [x| |] eqn:ER; try discriminate. cbn [bind] in H.
  match type of H with bind ?e _ = _ => destruct e as [s'| |] eqn:EA; try discriminate end. cbn [bind] in H.
  eapply IH; [|exact H]. eapply append1_nc; [|exact (HR _ _ ER)|exact EA]. apply set_level_nc; auto.
Qed.
Lemma set_def_nc sord : forall fuel s n, ParenModel.set_def sord fuel s = Ok n -> nc n.
Proof.
  induction fuel as [|fuel IH]; intros s n H; cbn [ParenModel.set_def] in H; [discriminate|].
  destruct (outer_terms s) as [[terms op]| |]; try discriminate. cbn [bind] in H.
  destruct (def_loop (ParenModel.set_def sord fuel) terms (Seq op 0 []) []) as [[self ints]| |] eqn:ED; try discriminate. cbn [bind] in H. cbv zeta in H.
  apply def_loop_nc in ED; [|exact IH|apply nc_seq; constructor].
  match type of H with bind ?e _ = _ => destruct e as [s'| |] eqn:ES; try discriminate end. cbn [bind] in H.
  eapply group_single_nc; [|exact H]. destruct (Nat.eqb _ _).
  - eapply append_nc; [exact ED| |exact ES]. apply Forall_forall. intros a I. apply in_map_iff in I. destruct I as (z & <- & I). exact Logic.I.
  - injection ES as <-. exact Logic.I.
Qed.

Lemma clean_nc n : nc (clean n).
Proof.
  induction n as [z|op lev b|op lev l IH] using node_ind'; try exact Logic.I. cbn [clean].
  assert (K : match clean_list clean op l with inl _ => True | inr l' => Forall no_const l' end).
  { induction IH as [|e l HE HL IHl]; cbn [clean_list]; [constructor|]. destruct (clean_list clean op l) as [b|l']; auto.
    destruct (clean e) as [z|o lv b|o lv xs] eqn:EC; [constructor; auto; exact Logic.I| |constructor; auto].
    destruct (eqb b (absorbing op)); auto. }
  destruct (clean_list clean op l) as [b|[|x l']]; cbn [clean_end]; try exact Logic.I. apply nc_seq. auto.
Qed.
Lemma clean_is_seq n : is_seq n -> is_seq (clean n).
Proof. destruct n as [z|op lev b|op lev l]; auto. intros _. cbn [clean]. destruct (clean_list clean op l) as [b|[|x l']]; exact Logic.I. Qed.
Lemma level_update_shape n : is_seq n -> nc n -> match level_update n with Cst _ _ _ => True | m => is_seq m /\ no_const m end.
Proof.
  intros A B. destruct n as [z|op lev b|op lev l]; [destruct A|exact Logic.I|]. apply (level_update_no_const (Seq op lev l)) in B. cbn [level_update] in *.
  split; [exact Logic.I|exact B].
Qed.
Lemma get_void_shape strict k ord mk m bd defs n : is_seq bd -> no_const bd -> get_void strict k ord mk m false bd defs = Ok (Some n) -> is_seq n /\ no_const n.
Proof.
  intros SB NB H. unfold get_void in H. destruct (get_void_pre strict k ord mk m false bd defs) as [x| |] eqn:EP; try discriminate. cbn [bind] in H.
  assert (K : match x with inl (Some c) => is_seq c /\ no_const c | inl None => True | inr c => is_seq c end).
  { clear H. unfold get_void_pre in EP. destruct (void_union (Seq OR 0 []) defs) as [vsd| |]; try discriminate. cbn [bind] in EP. cbv zeta in EP.
    assert (K : (do compl0 <- append (Seq AND 0 []) [AN bd];
        do red <- reduce strict ord mk m false bd vsd;
        match red with
        | inl r => Ok (inl r)
        | inr (vsd2, t) => finish strict k ord m false bd compl0 vsd2 t
        end) = Ok x -> match x with inl (Some c) => is_seq c /\ no_const c | inl None => True | inr c => is_seq c end).
    { clear EP. intros E. destruct (append (Seq AND 0 []) [AN bd]) as [c0| |]; try discriminate. cbn [bind] in E.
      destruct (reduce strict ord mk m false bd vsd) as [red| |] eqn:ER; try discriminate. cbn [bind] in E. destruct red as [q|[v2 t]].
      - injection E as <-. destruct q as [q|]; auto. assert (q = bd) as ->; auto. clear -ER. unfold reduce in ER. destruct m.
        + destruct (wrap0 vsd); discriminate.
        + cbv zeta in ER. destruct (elems_of bd) as [bs| |]; try discriminate. cbn [bind] in ER. destruct (subst_box bs vsd) as [s1| |]; try discriminate. cbn [bind] in ER.
          assert (G : forall s2, (do t <- mk (surfs vsd); do w <- wrap0 s2;
             match w with
             | Seq op _ l => if strict && bop_eqb op AND then Err AndVoid else
                 do r <- reduce_loop strict ord true t l (Seq OR 0 []); match r with None => Ok (inl None) | Some n => Ok (inr (n, Some t)) end
             | _ => Err TypeError end) = Ok (inl (Some q)) -> q = bd).
          { intros s2 G. destruct (mk (surfs vsd)); try discriminate. cbn [bind] in G. destruct (wrap0 s2) as [w| |]; try discriminate. cbn [bind] in G.
            destruct w; try discriminate. destruct (_ && _); try discriminate. destruct (reduce_loop strict ord true a l (Seq OR 0 [])) as [[r|]| |]; discriminate. }
          destruct (clean s1) as [z|o lv []|o lv l]; try discriminate; try (exact (G _ ER)). injection ER as <-. auto.
        + cbv zeta in ER. destruct (elems_of bd) as [bs| |]; try discriminate. cbn [bind] in ER. destruct (subst_box bs vsd) as [s1| |]; try discriminate. cbn [bind] in ER.
          assert (G : forall s2, (do t <- mk (surfs vsd); do w <- wrap0 s2;
             match w with
             | Seq op _ l => if strict && bop_eqb op AND then Err AndVoid else
                 do r <- reduce_loop strict ord false t l (Seq OR 0 []); match r with None => Ok (inl None) | Some n => Ok (inr (n, Some t)) end
             | _ => Err TypeError end) = Ok (inl (Some q)) -> q = bd).
          { intros s2 G. destruct (mk (surfs vsd)); try discriminate. cbn [bind] in G. destruct (wrap0 s2) as [w| |]; try discriminate. cbn [bind] in G.
            destruct w; try discriminate. destruct (_ && _); try discriminate. destruct (reduce_loop strict ord false a l (Seq OR 0 [])) as [[r|]| |]; discriminate. }
          destruct (clean s1) as [z|o lv []|o lv l]; try discriminate; try (exact (G _ ER)). injection ER as <-. auto.
      - unfold finish in E.
        assert (K : (do cs <- comp_seq (match m with SNo => true | _ => false end) v2;
            match cs with
            | None => Ok (inl None)
            | Some compSeq => do c <- assemble strict k ord m false t c0 compSeq; Ok (inr c)
            end) = Ok x -> match x with inl (Some c) => is_seq c /\ no_const c | inl None => True | inr c => is_seq c end).
        { clear E. intros E. destruct (comp_seq _ v2) as [[cs|]| |]; try discriminate; cbn [bind] in E; [|injection E as <-; auto].
          destruct (assemble strict k ord m false t c0 cs) as [c| |] eqn:EA; try discriminate. cbn [bind] in E. injection E as <-.
          unfold assemble in EA.
          assert (N : (do cs0 <- simpl strict k ord None cs; do c1 <- simpl strict k ord None c0;
             if has_op OR c1 then append (Seq AND 0 []) [AN c1; AN cs0] else append c1 [AN cs0]) = Ok c -> is_seq c).
          { clear. intros E. destruct (simpl strict k ord None cs); try discriminate. cbn [bind] in E. destruct (simpl strict k ord None c0); try discriminate. cbn [bind] in E.
            destruct (has_op OR a0); eapply append_is_seq; eauto. }
          destruct m; [exact (N EA)|exact (N EA)|]. destruct t as [t|]; [|exact (N EA)].
          destruct (simpl strict k ord (Some (get_constraint_set t)) cs); try discriminate. cbn [bind] in EA. eapply append_is_seq; eauto. }
        destruct v2 as [z|o lv [|]|o lv [|y l]]; try (exact (K E)); injection E as <-; auto. }
    destruct vsd as [z|o lv [|]|o lv [|y l]]; try (exact (K EP)); injection EP as <-; auto. }
  destruct x as [q|c]; [injection H as ->; auto|].
  pose proof (level_update_shape (clean c) (clean_is_seq _ K) (clean_nc c)) as L.
  destruct (level_update (clean c)); [injection H as <-; auto|discriminate|injection H as <-; auto].
Qed.

(** * Every void cell *)
Section Turns.
  Variable E : Type.
  Variable bb : E -> box.
  Variable common : E -> box -> cut E.
  Variables maxsurf maxbracket : Z.
  Variable minSize : Q.
  Variable D : Type.
  Variable void : vbox E -> D -> res (D * option node).
  Variable R : node -> Prop.
  Hypothesis HV : forall z d d' n, void z d = Ok (d', Some n) -> R n.
  Lemma pass_all : forall l d d' t v, pass E bb common maxsurf maxbracket minSize D void l d = Ok (d', (t, v)) -> Forall R v.
  Proof.
    induction l as [|z l IH]; intros d d' t v H; cbn [pass] in H; [injection H as <- <- <-; auto|].
    destruct (try_split E bb common maxsurf maxbracket minSize z) as [[zs|]| |]; cbn [bind] in *; try discriminate.
    - match type of H with bind ?e _ = _ => destruct e as [[d1 [t1 v1]]| |] eqn:EP; try discriminate end. cbn [bind] in H. injection H as <- <- <-. eauto.
    - destruct (void z d) as [[d1 c]| |] eqn:EV; cbn [bind] in *; try discriminate.
      match type of H with bind ?e _ = _ => destruct e as [[d2 [t1 v1]]| |] eqn:EP; try discriminate end. cbn [bind] in H. injection H as <- <- <-.
      destruct c as [c|]; eauto.
  Qed.
  Lemma turns_all n : forall l d d' v rest, turns E bb common maxsurf maxbracket minSize D void n l d = Ok (d', (v, rest)) -> Forall R v.
  Proof.
    induction n as [|n IH]; intros l d d' v rest H; cbn [turns] in H; [injection H as <- <- <-; auto|].
    match type of H with bind ?e _ = _ => destruct e as [[d1 [t1 v1]]| |] eqn:EP; try discriminate end. cbn [bind] in H. apply pass_all in EP.
    destruct t1 as [|z t1]; [injection H as <- <- <-; auto|].
    match type of H with bind ?e _ = _ => destruct e as [[d2 [t2 v2]]| |] eqn:ET; try discriminate end. cbn [bind] in H. injection H as <- <- <-.
    apply Forall_app. eauto.
  Qed.
End Turns.

Section Shapes.
  Variable T : Type.
  Variable cls : surface T -> key.
  Variable same : surface T -> surface T -> bool.
  Definition plain (n : node) : Prop := is_seq n /\ no_const n.
  Lemma box_literals_lits b ps : forall d d' l, box_literals T cls same b ps d = Ok (d', l) -> Forall no_const l.
  Proof.
    induction ps as [|p ps IH]; intros d d' l H; cbn [box_literals] in H; [injection H as <- <-; auto|].
    destruct (box_literal T cls same b p d) as [[d1 z]| |]; try discriminate. cbn [bind] in H.
    destruct (box_literals T cls same b ps d1) as [[d2 l2]| |] eqn:E; try discriminate. cbn [bind] in H. injection H as <- <-. constructor; [exact Logic.I|eauto].
  Qed.
  Lemma compl_literals_lits ps : forall d d' l, compl_literals T cls same ps d = Ok (d', l) -> Forall no_const l.
  Proof.
    induction ps as [|p ps IH]; intros d d' l H; cbn [compl_literals] in H; [injection H as <- <-; auto|].
    destruct (compl_literal T cls same p d) as [[d1 z]| |]; try discriminate. cbn [bind] in H.
    destruct (compl_literals T cls same ps d1) as [[d2 l2]| |] eqn:E; try discriminate. cbn [bind] in H. injection H as <- <-. constructor; [exact Logic.I|eauto].
  Qed.
  Lemma graveyard_plain u sph d d' inn out : graveyard T cls same u sph d = Ok (d', (inn, out)) -> plain inn /\ plain out.
  Proof.
    unfold graveyard, universe_compl. intros H. destruct (compl_literals T cls same (bound_planes u) d) as [[d1 l]| |] eqn:E; try discriminate. cbn [bind] in H.
    destruct (add (surface T) cls same (inr sph) d1) as [d2 [id f]]. cbn [append append_loop bind] in H. injection H as <- <- <-.
    apply compl_literals_lits in E. split; (split; [exact Logic.I|]); [|cbn; auto]. apply (no_const_seq AND 0). cbn [app]. constructor; [exact Logic.I|]. constructor; auto.
    apply (no_const_seq OR 0). auto.
  Qed.
  Lemma void_level0_plain strict k ord mk mode maxsurf maxbracket minSize ms u d d' vs rest :
    void_level0 T cls same strict k ord mk mode maxsurf maxbracket minSize ms u d = Ok (d', (vs, rest)) -> Forall plain vs.
  Proof.
    unfold void_level0, get_void_def. intros H. match type of H with bind ?e _ = _ => destruct e as [z| |]; try discriminate end. cbn [bind] in H.
    eapply turns_all; [|exact H]. clear. intros z d d' n H. unfold void_box in H. destruct (vreg z) as [b|e]; [|destruct e].
    destruct (box_def T cls same b d) as [[d1 bd]| |] eqn:EB; try discriminate. cbn [bind] in H.
    match type of H with bind ?e _ = _ => destruct e as [c| |] eqn:EV; try discriminate end. cbn [bind] in H. injection H as <- ->.
    unfold box_def in EB. destruct (box_literals T cls same b (bound_planes b) d) as [[d2 l]| |] eqn:EL; try discriminate. cbn [bind] in EB. injection EB as <- <-.
    apply box_literals_lits in EL. eapply get_void_shape; [|exact (proj2 (no_const_seq AND 0 l) EL)|exact EV]. exact Logic.I.
  Qed.
End Shapes.

(** * The cells of the solids *)
Section Solids.
  Variable G : Type.
  Variable cls : G -> key.
  Variable same : G -> G -> bool.
  Variable opp opp_x : G -> G -> bool.
  Variable sord : list Z -> list Z.
  Lemma add_cone_nodup z l : NoDup l -> NoDup (add_cone z l).
  Proof.
    intros ND. unfold add_cone. destruct (existsb (Z.eqb z) l) eqn:E; auto.
    assert (N : ~ In z l). { intros I. assert (existsb (Z.eqb z) l = true); [|congruence]. apply existsb_exists. exists z. split; auto. apply Z.eqb_refl. }
    eapply Permutation_NoDup; [apply Permutation_cons_append|]. constructor; auto.
  Qed.
  Lemma face_step_nodup inv f s s' : NoDup (s_cones s) -> face_step G cls same opp opp_x inv f s = Ok s' -> NoDup (s_cones s').
  Proof.
    intros ND H. unfold face_step in H. destruct (f_small f); [injection H as <-; auto|].
    assert (ST : forall oo,
      match f_geo f with
        | None => Ok (St (s_dict s) (add_str (str_int 0) (s_piece s)) (s_extra s) (s_last s) (s_cones s))
        | Some g =>
            match cls g, oo with
            | Tor, _ => torus_step G cls same opp oo f g s
            | Cyl, Reversed | Cone, Reversed | Sph, Reversed => curved_step G cls same opp_x f g s
            | _, _ => other_step G cls same opp oo g s
            end
        end = Ok s' -> NoDup (s_cones s')).
    { clear H. intros oo H. destruct (f_geo f) as [g|]; [|injection H as <-; auto].
      assert (OT : other_step G cls same opp oo g s = Ok s' -> NoDup (s_cones s')).
      { clear H. intros H. unfold other_step in H. cbv zeta in H.
        match type of H with (let '(d, id) := ?e in _) = _ => destruct e as [d1 id1] end.
        match type of H with bind ?e _ = _ => destruct e as [[d2 var]| |]; try discriminate end. cbn [bind] in H. injection H as <-. cbn [s_cones].
        destruct (cls g); auto. apply add_cone_nodup; auto. }
      assert (CU : curved_step G cls same opp_x f g s = Ok s' -> NoDup (s_cones s')).
      { clear H. intros H. unfold curved_step in H. cbv zeta in H. destruct (f_extra f) as [[p sg]|].
        - match type of H with bind ?e _ = _ => destruct e as [[d1 id]| |]; try discriminate end. cbn [bind] in H. injection H as <-. cbn [s_cones].
          destruct (cls g); auto. apply add_cone_nodup; auto.
        - injection H as <-. cbn [s_cones]. destruct (cls g); auto. apply add_cone_nodup; auto. }
      assert (TO : torus_step G cls same opp oo f g s = Ok s' -> NoDup (s_cones s')).
      { clear H. intros H. unfold torus_step in H. cbv zeta in H. destruct (t_aligned (f_torus f)); [|injection H as <-; auto]. destruct (_ =? s_last s); [injection H as <-; auto|].
        match type of H with bind ?e _ = _ => destruct e as [[d1 u]| |]; try discriminate end. cbn [bind] in H.
        match type of H with bind ?e _ = _ => destruct e as [[d2 v]| |]; try discriminate end. cbn [bind] in H. injection H as <-. auto. }
      destruct (cls g); destruct oo; auto. }
    destruct (f_orient f); [exact (ST _ H)|exact (ST _ H)|injection H as <-; auto].
  Qed.
  Lemma cell_loop_shape ps : forall d def kept c d' k' def' c', NoDup c -> nc def ->
    cell_loop G cls same opp opp_x sord ps d def kept c = Ok (d', k', def', c') -> NoDup c' /\ nc def'.
  Proof.
    induction ps as [|p ps IH]; intros d def kept c d' k' def' c' ND N H; cbn [cell_loop] in H; [injection H as <- <- <- <-; auto|].
    destruct (piece_step G cls same opp opp_x sord p d c) as [[[d1 c1] r]| |] eqn:E; try discriminate. cbn [bind] in H.
    unfold piece_step in E. destruct (face_loop G cls same opp opp_x (p_inv p) (p_faces p) (St d [] [] (-1) c)) as [s| |] eqn:EF; try discriminate. cbn [bind] in E.
    destruct (piece_node sord (put_extra (s_extra s) (s_piece s))) as [n| |] eqn:EN; try discriminate. cbn [bind] in E. injection E as <- <- <-.
    assert (NS : NoDup (s_cones s)).
    { clear -EF ND. revert EF. assert (K : NoDup (s_cones (St d [] [] (-1) c))) by exact ND. revert K. generalize (St d [] [] (-1) c).
      induction (p_faces p) as [|f fs IH]; intros s0 K H; cbn [face_loop] in H; [injection H as <-; auto|].
      destruct (face_step G cls same opp opp_x (p_inv p) f s0) as [s1| |] eqn:E; try discriminate. cbn [bind] in H. eapply IH; [|exact H]. eapply face_step_nodup; eauto. }
    destruct n as [n|]; [|eapply IH; eauto].
    destruct (append def [AN n]) as [def1| |] eqn:EA; try discriminate. cbn [bind] in H. eapply IH; [exact NS| |exact H].
    eapply append1_nc; [exact N| |exact EA]. unfold piece_node in EN. destruct (join_str (cs " ") _) as [|a t]; [discriminate|].
    destruct (parse sord (a :: t)) as [m| |] eqn:EP; try discriminate. cbn [bind] in EN. apply set_def_nc in EP.
    destruct m as [z|o lv []|o lv [|]]; try discriminate; injection EN as <-; auto.
  Qed.
End Solids.
Lemma cell_defs_shape T cls same opp opp_x sord l : forall d d' cs ci,
  cell_defs T cls same opp opp_x sord l d = Ok (d', cs, ci) -> Forall (fun c => nc (c_def c)) cs /\ forall i zs, In (i, zs) ci -> NoDup zs.
Proof.
  induction l as [|[i ps] l IH]; intros d d' cs ci H; cbn [cell_defs] in H; [injection H as <- <- <-; split; [auto|intros ? ? []]|].
  destruct (cell_def (surface T) cls same opp opp_x sord ps d) as [[[[d1 kept] def] cones]| |] eqn:E; try discriminate. cbn [bind] in H.
  destruct (cell_defs T cls same opp opp_x sord l d1) as [[[d2 cs2] ci2]| |] eqn:E2; try discriminate. cbn [bind] in H. injection H as <- <- <-.
  destruct (IH _ _ _ _ E2) as (A & B). unfold cell_def in E. apply cell_loop_shape in E; [|constructor|apply nc_seq; constructor]. destruct E as (C & N).
  split; [constructor; auto|]. intros j zs J. destruct cones; [eauto|]. destruct J as [[= <- <-]|J]; eauto.
Qed.
