(** Every step of the conversion changes the dictionary by additions and look-ups only. *)
From Coq Require Import Ascii String.
From Verif Require Import Prelude BoolSpec BoolSeq BoolEdit CellText Writers SurfDict CellDef ConePlanes.

Section Reach.
  Variable G : Type.
  Variable cls : G -> key.
  Variable same : G -> G -> bool.
  Definition Reach (d d' : sdict G) : Prop := exists h, (forall i, ~ In (Del i) h) /\ run G cls same h d = Ok d'.

  Lemma run_comp h1 h2 : forall d d1 d2, run G cls same h1 d = Ok d1 -> run G cls same h2 d1 = Ok d2 -> run G cls same (h1 ++ h2) d = Ok d2.
  Proof.
    induction h1 as [|x h1 IH]; intros d d1 d2 A B; cbn [app run] in *; [congruence|].
    destruct (step G cls same x d) as [d0| |]; try discriminate. cbn [bind] in *. eauto.
  Qed.
  Lemma reach_refl d : Reach d d.
  Proof. exists []. split; auto. Qed.
  Lemma reach_trans a b c : Reach a b -> Reach b c -> Reach a c.
  Proof.
    intros (h & A & B) (h' & A' & B'). exists (h ++ h'). split; [|eapply run_comp; eauto].
    intros i I. apply in_app_or in I. destruct I as [I|I]; [eapply A|eapply A']; eauto.
  Qed.
  Lemma reach_add g d d' r : add G cls same g d = (d', r) -> Reach d d'.
  Proof. intros E. exists [Add g]. split; [intros i [H|[]]; discriminate|]. cbn [run step bind]. rewrite E. reflexivity. Qed.
  Lemma reach_get i d d' r : get_surface i d = Ok (d', r) -> Reach d d'.
  Proof. intros E. exists [Get i]. split; [intros j [H|[]]; discriminate|]. cbn [run step bind]. rewrite E. reflexivity. Qed.

  Lemma add_signed_reach opp g d d' z : add_signed G cls same opp g d = Ok (d', z) -> Reach d d'.
  Proof.
    unfold add_signed. destruct (add G cls same g d) as (d1 & id & b) eqn:E. apply reach_add in E. intros H. destruct b; [|injection H as <- <-; auto].
    destruct (get_surface id d1) as [[d2 r]| |] eqn:EG; try discriminate. cbn [bind] in H. apply reach_get in EG. destruct r; [|discriminate].
    injection H as <- <-. eapply reach_trans; eauto.
  Qed.
  Variable opp opp_x : G -> G -> bool.
  Lemma torus_u_reach u d d' x : torus_u G cls same opp u d = Ok (d', x) -> Reach d d'.
  Proof.
    destruct u as [[p [q|]]|]; cbn [torus_u]; intros H.
    - destruct (add_signed G cls same opp p d) as [[d1 z1]| |] eqn:E1; try discriminate. cbn [bind] in H.
      destruct (add_signed G cls same opp q d1) as [[d2 z2]| |] eqn:E2; try discriminate. cbn [bind] in H. injection H as <- _.
      eapply reach_trans; eapply add_signed_reach; eauto.
    - destruct (add_signed G cls same opp p d) as [[d1 z1]| |] eqn:E1; try discriminate. cbn [bind] in H. injection H as <- _. eapply add_signed_reach; eauto.
    - injection H as <- _. apply reach_refl.
  Qed.
  Lemma torus_v_reach or i tv d d' x : torus_v G cls same opp or i tv d = Ok (d', x) -> Reach d d'.
  Proof.
    intros H. unfold torus_v in H.
    assert (R : match tv with
        | None => Ok (d, str_int i)
        | Some (a, ins) =>
            do (d1, id2) <- (if is_plane (cls a) then add_signed G cls same opp a d
                             else let '(d1, (id2, _)) := add G cls same a d in Ok (d1, id2));
            Ok (d1, str_int i ++ cs " " ++ str_int (if (ins : bool) then - id2 else id2))
        end = Ok (d', x) -> Reach d d').
    { clear H. destruct tv as [[a ins]|]; intros H; [|injection H as <- _; apply reach_refl].
      match type of H with bind ?e _ = _ => destruct e as [[d1 z]| |] eqn:E; try discriminate end. cbn [bind] in H. injection H as <- _.
      destruct (is_plane (cls a)); [eapply add_signed_reach; eauto|]. destruct (add G cls same a d) as (d2 & id & b) eqn:EA. injection E as <- _. eapply reach_add; eauto. }
    destruct or; [injection H as <- _; apply reach_refl|exact (R H)|exact (R H)].
  Qed.
  Lemma other_reach oo g s s' : other_step G cls same opp oo g s = Ok s' -> Reach (s_dict s) (s_dict s').
  Proof.
    unfold other_step. cbv zeta. intros H.
    match type of H with (let '(d, id) := ?e in _) = _ => assert (A : Reach (s_dict s) (fst e)); [|destruct e as [d1 id1]; cbn [fst] in A] end.
    { destruct (_ =? 0); [|apply reach_refl]. destruct (add G cls same g (s_dict s)) as (d1 & ix & b) eqn:E. apply reach_add in E.
      destruct (cls g); cbn [fst]; auto; apply reach_refl. }
    match type of H with bind ?e _ = _ => destruct e as [[d2 z]| |] eqn:E; try discriminate end. cbn [bind] in H. injection H as <-. cbn [s_dict].
    destruct (is_plane (cls g)); [|injection E as <- _; auto].
    destruct (get_surface id1 d1) as [[d3 r]| |] eqn:EG; try discriminate. cbn [bind] in E. apply reach_get in EG. destruct r; [|discriminate].
    injection E as <- _. eapply reach_trans; eauto.
  Qed.
  Lemma curved_reach f g s s' : curved_step G cls same opp_x f g s = Ok s' -> Reach (s_dict s) (s_dict s').
  Proof.
    unfold curved_step. cbv zeta. intros H. destruct (f_extra f) as [[p sg]|]; [|injection H as <-; apply reach_refl].
    destruct (add_signed G cls same opp_x p (s_dict s)) as [[d1 z1]| |] eqn:E1; try discriminate. cbn [bind] in H. injection H as <-. eapply add_signed_reach; eauto.
  Qed.
  Lemma torus_reach oo f g s s' : torus_step G cls same opp oo f g s = Ok s' -> Reach (s_dict s) (s_dict s').
  Proof.
    unfold torus_step. cbv zeta. intros H. destruct (t_aligned (f_torus f)); [|injection H as <-; apply reach_refl].
    destruct (_ =? s_last s); [injection H as <-; apply reach_refl|].
    destruct (torus_u G cls same opp (t_u (f_torus f)) (s_dict s)) as [[d1 u]| |] eqn:EU; try discriminate. cbn [bind] in H.
    match type of H with bind ?e _ = _ => destruct e as [[d2 v]| |] eqn:EV; try discriminate end. cbn [bind] in H. injection H as <-. cbn [s_dict].
    eapply reach_trans; [eapply torus_u_reach; eauto|eapply torus_v_reach; eauto].
  Qed.
  Lemma face_reach inv f s s' : face_step G cls same opp opp_x inv f s = Ok s' -> Reach (s_dict s) (s_dict s').
  Proof.
    unfold face_step. destruct (f_small f); [intros [= <-]; apply reach_refl|].
    assert (K : forall oo, match f_geo f with
        | None => Ok (St (s_dict s) (add_str (str_int 0) (s_piece s)) (s_extra s) (s_last s) (s_cones s))
        | Some g =>
            match cls g, oo with
            | Tor, _ => torus_step G cls same opp oo f g s
            | Cyl, Reversed | Cone, Reversed | Sph, Reversed => curved_step G cls same opp_x f g s
            | _, _ => other_step G cls same opp oo g s
            end
        end = Ok s' -> Reach (s_dict s) (s_dict s')).
    { intros oo. destruct (f_geo f) as [g|]; [|intros [= <-]; apply reach_refl].
      pose proof (other_reach oo g s s'). pose proof (curved_reach f g s s'). pose proof (torus_reach oo f g s s'). destruct (cls g), oo; auto. }
    destruct (f_orient f); [exact (K _)|exact (K _)|intros [= <-]; apply reach_refl].
  Qed.
  Lemma face_loop_reach inv fs : forall s s', face_loop G cls same opp opp_x inv fs s = Ok s' -> Reach (s_dict s) (s_dict s').
  Proof.
    induction fs as [|f fs IH]; intros s s' H; cbn [face_loop] in H; [injection H as <-; apply reach_refl|].
    destruct (face_step G cls same opp opp_x inv f s) as [s1| |] eqn:E; try discriminate. cbn [bind] in H.
    eapply reach_trans; [eapply face_reach; eauto|eauto].
  Qed.
  Variable sord : list Z -> list Z.
  Lemma piece_reach p d c d' c' r : piece_step G cls same opp opp_x sord p d c = Ok (d', c', r) -> Reach d d'.
  Proof.
    unfold piece_step. intros H. destruct (face_loop G cls same opp opp_x (p_inv p) (p_faces p) (St d [] [] (-1) c)) as [s| |] eqn:E; try discriminate. cbn [bind] in H.
    destruct (piece_node sord (put_extra (s_extra s) (s_piece s))) as [n| |]; try discriminate. cbn [bind] in H. injection H as <- _ _.
    apply face_loop_reach in E. exact E.
  Qed.
  Lemma cell_loop_reach ps : forall d def kept c d' k' def' c', cell_loop G cls same opp opp_x sord ps d def kept c = Ok (d', k', def', c') -> Reach d d'.
  Proof.
    induction ps as [|p ps IH]; intros d def kept c d' k' def' c' H; cbn [cell_loop] in H; [injection H as <- _ _ _; apply reach_refl|].
    destruct (piece_step G cls same opp opp_x sord p d c) as [[[d1 c1] n]| |] eqn:E; try discriminate. cbn [bind] in H. apply piece_reach in E.
    destruct n as [n|]; [|eapply reach_trans; eauto]. destruct (append def [AN n]); try discriminate. cbn [bind] in H. eapply reach_trans; eauto.
  Qed.
  Lemma cell_def_reach ps d d' k' def' c' : cell_def G cls same opp opp_x sord ps d = Ok (d', k', def', c') -> Reach d d'.
  Proof. apply cell_loop_reach. Qed.

  Variable aligned : G -> bool.
  Variable apex : G -> G.
  Variable iord : list Z -> list Z.
  Lemma cone_step_reach c d n d' n' : cone_step G cls same opp aligned apex c d n = Ok (d', n') -> Reach d d'.
  Proof.
    unfold cone_step. intros H. destruct (get_surface (Z.abs c) d) as [[d1 s]| |] eqn:E; try discriminate. cbn [bind] in H. apply reach_get in E.
    destruct s as [s|]; [|discriminate]. destruct (aligned (geo s)); [injection H as <- _; auto|].
    destruct (add_signed G cls same opp (apex (geo s)) d1) as [[d2 pid]| |] eqn:E2; try discriminate. cbn [bind] in H. apply add_signed_reach in E2.
    match type of H with bind ?e _ = _ => destruct e as [n1| |]; try discriminate end. cbn [bind] in H. injection H as <- _. eapply reach_trans; eauto.
  Qed.
  Lemma cone_loop_reach l : forall d n d' n', cone_loop G cls same opp aligned apex l d n = Ok (d', n') -> Reach d d'.
  Proof.
    induction l as [|c l IH]; intros d n d' n' H; cbn [cone_loop] in H; [injection H as <- _; apply reach_refl|].
    destruct (cone_step G cls same opp aligned apex c d n) as [[d1 n1]| |] eqn:E; try discriminate. cbn [bind] in H. apply cone_step_reach in E. eapply reach_trans; eauto.
  Qed.
  Lemma cell_step_reach ci d m d' m' : cell_step G cls same opp aligned apex iord ci d m = Ok (d', m') -> Reach d d'.
  Proof.
    assert (K : forall l, put_planes G cls same opp aligned apex l d m = Ok (d', m') -> Reach d d').
    { intros l H. unfold put_planes in H. destruct (m_def m) as [n|]; [|destruct l; [|discriminate]; injection H as <- _; apply reach_refl].
      destruct (cone_loop G cls same opp aligned apex l d n) as [[d1 n1]| |] eqn:E; try discriminate. cbn [bind] in H. injection H as <- _. eapply cone_loop_reach; eauto. }
    unfold cell_step. intros H. destruct (m_void m).
    - destruct (m_info m) as [[l|]|]; [exact (K _ H)| |]; injection H as <- _; apply reach_refl.
    - destruct (m_id m); [|injection H as <- _; apply reach_refl]. destruct (info_of ci z); [exact (K _ H)|injection H as <- _; apply reach_refl].
  Qed.
  Lemma process_cones_reach ci ms : forall d d' ms', process_cones G cls same opp aligned apex iord ci ms d = Ok (d', ms') -> Reach d d'.
  Proof.
    induction ms as [|m ms IH]; intros d d' ms' H; cbn [process_cones] in H; [injection H as <- _; apply reach_refl|].
    destruct (cell_step G cls same opp aligned apex iord ci d m) as [[d1 m1]| |] eqn:E; try discriminate. cbn [bind] in H. apply cell_step_reach in E.
    destruct (process_cones G cls same opp aligned apex iord ci ms d1) as [[d2 r2]| |] eqn:E2; try discriminate. cbn [bind] in H. injection H as <- _. eapply reach_trans; eauto.
  Qed.
End Reach.
