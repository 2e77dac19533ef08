(** The box of a whole cell. *)
From Verif Require Import Prelude BoolSpec BoolSeq BoolProofs RBool RBoolProofs Vec3 Prim PrimSpec RBox RBoxSpec RBoxProofs RPlanes RPlaneSpec RPlaneGeo RPlaneDefProofs RPlaneDefProofs2 RPlaneQuad RVertex RVertexSpec RVertexComp.
Open Scope R_scope.

Lemma reval_list_eval v f op vs : forall l none r l', reval_list f op vs none l = Ok (r, l') ->
  (forall e w e', In e l -> f e = Ok (w, e') -> eval v e' = eval v e) -> evl v op l' = evl v op l.
Proof.
  induction l as [|e l IH]; intros none r l' H Hf; cbn [reval_list] in H.
  - injection H as <- <-. auto.
  - inv_bind. destruct a as (w, e'). assert (E1 : eval v e' = eval v e).
    { destruct e as [z|o lv b1|o lv xs]; [injection Ha as _ <-; auto|eapply Hf; eauto; now left|eapply Hf; eauto; now left]. }
    assert (Hf' : forall e w e', In e l -> f e = Ok (w, e') -> eval v e' = eval v e) by (intros; eapply Hf; eauto; now right).
    destruct w as [c|]; [destruct (eqb c (absorbing op))|].
    + injection H as <- <-. now rewrite !evl_cons, E1.
    + inv_bind. destruct a as (w, r'). injection H as <- <-. now rewrite !evl_cons, E1, (IH _ _ _ Ha0 Hf').
    + inv_bind. destruct a as (w, r'). injection H as <- <-. now rewrite !evl_cons, E1, (IH _ _ _ Ha0 Hf').
Qed.
Lemma reval_f_eval v vs : forall k n r n', reval_f k vs n = Ok (r, n') -> eval v n' = eval v n.
Proof.
  induction k as [|k IH]; intros n r n' H; cbn [reval_f] in H; [discriminate|].
  destruct n as [z|o lv c|op lev l]; [discriminate|injection H as <- <-; auto|].
  inv_bind. pose proof (group_single_eval v _ _ Ha) as E. destruct (group_single_shape _ _ _ _ Ha) as (l2 & ->).
  inv_bind. destruct a as (w, l3). injection H as <- <-.
  rewrite <- E, !eval_seq. apply (reval_list_eval v _ _ _ _ _ _ _ Ha0). intros; eapply IH; eauto.
Qed.
Lemma orient_count_eval v tol planes : forall l n k n', orient_count tol planes l n = Ok (k, n') -> eval v n' = eval v n.
Proof.
  induction l as [|p l IH]; intros n k n' H; cbn [orient_count] in H; [injection H as _ <-; reflexivity|].
  inv_bind. destruct a as (w, n1). inv_bind. destruct a as (k2, n2). injection H as _ <-. rewrite (IH _ _ _ Ha0). unfold revaluate in Ha. apply (reval_f_eval v _ _ _ _ _ Ha).
Qed.
Lemma cell_orientation_eval v tol planes U n o n' : cell_orientation tol planes U n = Ok (o, n') -> eval v n' = eval v n.
Proof. unfold cell_orientation. intros H. inv_bind. destruct a as (k, n1). injection H as _ <-. apply (orient_count_eval v _ _ _ _ _ _ Ha). Qed.

Definition cell_hyps (surfaces : Z -> option prim) (signed : list Z) (n : node) : Prop :=
  plain n /\ (forall z, In z signed <-> In z (lits n)) /\
  (forall z s, In z (lits n) -> surfaces (Z.abs z) = Some s -> unit_plane s \/ (proper s /\ boxable s)) /\
  (forall z s, In z (lits n) -> In (- z)%Z (lits n) -> surfaces (Z.abs z) = Some s -> is_plane s).

Lemma solid_planes_ok surfaces signed fuel tol U n o planes r : cell_hyps surfaces signed n ->
  solid_planes surfaces signed fuel tol U n = Ok (o, (planes, r)) ->
  forall x v, sides surfaces n x v ->
  (o = OFwd -> eval v n = true -> eval (plane_sides planes x) r = true) /\
  (o = ORev -> eval (plane_sides planes x) r = true -> eval v n = true).
Proof.
  intros (PL & SG & OK & ONE) H x v SD. unfold solid_planes in H.
  destruct (quadric_to_plane surfaces OFwd signed) as [qs| |] eqn:Q; try discriminate. cbn [bind] in H.
  destruct (plane_definition fuel OFwd (q_entries qs) n) as [r0| |] eqn:D; try discriminate. cbn [bind] in H.
  destruct (cell_orientation tol (q_planes qs) U r0) as [[o1 r1]| |] eqn:C; try discriminate. cbn [bind] in H.
  destruct o1.
  - injection H as <- <- <-. split; [|discriminate]. intros _ E. rewrite (cell_orientation_eval _ _ _ _ _ _ _ C).
    destruct (planes_conservative surfaces OFwd signed n qs fuel r0 ltac:(discriminate) PL SG OK ONE Q D) as (_ & X). exact (X x v SD E).
  - destruct (quadric_to_plane surfaces ORev signed) as [qs'| |] eqn:Q'; try discriminate. cbn [bind] in H.
    destruct (plane_definition fuel ORev (q_entries qs') n) as [r'| |] eqn:D'; try discriminate. cbn [bind] in H. injection H as <- <- <-.
    split; [discriminate|]. intros _ E. destruct (planes_conservative surfaces ORev signed n qs' fuel r' ltac:(discriminate) PL SG OK ONE Q' D') as (_ & X). exact (X x v SD E).
  - destruct (quadric_to_plane surfaces OUnd signed) as [qs'| |] eqn:Q'; try discriminate. cbn [bind] in H.
    destruct (plane_definition fuel OUnd (q_entries qs') n) as [r'| |] eqn:D'; try discriminate. cbn [bind] in H. injection H as <- <- <-.
    split; discriminate.
Qed.
