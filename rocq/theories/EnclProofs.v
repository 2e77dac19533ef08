From Coq Require Import Permutation Sorted.
From Verif Require Import Prelude Enclosures EnclSpec.

Lemma memZ_spec i l : memZ i l = true <-> In i l.
Proof.
  unfold memZ. rewrite existsb_exists. split; [intros (x & I & E); apply Z.eqb_eq in E; congruence|].
  intros I. exists i. split; auto. apply Z.eqb_refl.
Qed.
Lemma memZ_false i l : memZ i l = false <-> ~ In i l.
Proof. rewrite <- memZ_spec. destruct (memZ i l); split; congruence || auto. Qed.

(** ** labels *)
Lemma repeated_spec : forall l sid, NoDup sid -> (repeated sid l = false <-> NoDup (sid ++ map eid l)).
Proof.
  induction l as [|e l IH]; intros sid N; cbn [repeated map]; [rewrite app_nil_r; split; auto|].
  destruct (memZ (eid e) sid) eqn:M.
  - apply memZ_spec in M. split; [discriminate|]. intros H. exfalso. apply NoDup_remove_2 in H. apply H. apply in_or_app; auto.
  - apply memZ_false in M. rewrite IH.
    + rewrite <- app_assoc. reflexivity.
    + rewrite <- (app_nil_r (sid ++ [eid e])), <- app_assoc. apply NoDup_Add with (a := eid e) (l := sid ++ []).
      * cbn [app]. apply Add_app.
      * rewrite app_nil_r. auto.
Qed.
Lemma check_ids_spec l : check_ids l = Ok tt <-> NoDup (map eid l) /\ ~ In 0 (map eid l) /\ In 0 (map pid l).
Proof.
  unfold check_ids. destruct (memZ 0 (map eid l)) eqn:A; cbn [orb].
  { apply memZ_spec in A. split; [discriminate|tauto]. }
  apply memZ_false in A. destruct (memZ 0 (map pid l)) eqn:B; cbn [negb orb].
  2:{ apply memZ_false in B. split; [discriminate|tauto]. }
  apply memZ_spec in B. pose proof (repeated_spec l [] (NoDup_nil _)) as R. cbn [app] in R.
  destruct (repeated [] l); split; try discriminate; try tauto.
  intros (N & _). apply R in N. discriminate.
Qed.

(** ** dictionaries *)
Lemma get_add k' k i d : dict_get k' (dict_add k i d) =
  if k' =? k then Some (match dict_get k d with Some l => l ++ [i] | None => [i] end) else dict_get k' d.
Proof.
  induction d as [|[k0 l] d IH]; cbn [dict_add dict_get].
  - rewrite (Z.eqb_sym k k'). destruct (k' =? k); reflexivity.
  - destruct (Z.eqb_spec k0 k) as [->|NE]; cbn [dict_get].
    + rewrite (Z.eqb_sym k k'). destruct (k' =? k); reflexivity.
    + rewrite IH. destruct (Z.eqb_spec k0 k'); auto. destruct (Z.eqb_spec k' k); auto. congruence.
Qed.
Definition children (l : list encl) (k : Z) : list Z := map eid (filter (fun e => pid e =? k) l).
Lemma get_encl k l : dict_get k (encl_dict l) = match children l k with [] => None | c => Some c end.
Proof.
  unfold encl_dict. induction l as [|e l IH] using rev_ind; [reflexivity|].
  rewrite fold_left_app. cbn [fold_left]. rewrite get_add. unfold children in *. rewrite filter_app, map_app. cbn [filter].
  rewrite (Z.eqb_sym (pid e) k). destruct (Z.eqb_spec k (pid e)) as [->|NE]; cbn [map].
  - rewrite IH. destruct (map eid (filter (fun e0 => pid e0 =? pid e) l)); reflexivity.
  - rewrite app_nil_r. exact IH.
Qed.
Lemma get_del k k' d : dict_get k (dict_del k' d) = if k =? k' then None else dict_get k d.
Proof.
  unfold dict_del. induction d as [|[k0 l] d IH]; cbn [filter dict_get fst]; [destruct (k =? k'); auto|].
  destruct (Z.eqb_spec k0 k') as [->|NE]; cbn [negb].
  - rewrite IH. rewrite (Z.eqb_sym k' k). destruct (k =? k'); reflexivity.
  - cbn [dict_get]. rewrite IH. destruct (Z.eqb_spec k0 k), (Z.eqb_spec k k'); auto. congruence.
Qed.
Lemma len_del k d l : dict_get k d = Some l -> (length (dict_del k d) < length d)%nat.
Proof.
  unfold dict_del. assert (LE : forall d : dict, (length (filter (fun x => negb (Z.eqb (fst x) k)) d) <= length d)%nat).
  { induction d0 as [|x d0 IH0]; cbn [filter length]; auto. destruct (negb (fst x =? k)); simpl; lia. }
  induction d as [|[k0 l0] d IH]; cbn [filter dict_get fst length]; [discriminate|].
  destruct (Z.eqb_spec k0 k); cbn [negb length]; intros H; [specialize (LE d); lia|]. specialize (IH H). lia.
Qed.
Lemma len_add k i d : (length (dict_add k i d) <= S (length d))%nat.
Proof. induction d as [|[k0 l] d IH]; cbn [dict_add]; simpl; [lia|]. destruct (k0 =? k); simpl; lia. Qed.
Lemma len_encl l : (length (encl_dict l) <= length l)%nat.
Proof.
  unfold encl_dict. induction l as [|e l IH] using rev_ind; [simpl; lia|].
  rewrite fold_left_app, app_length. cbn [fold_left length]. pose proof (len_add (pid e) (eid e) (fold_left (fun d e => dict_add (pid e) (eid e) d) l [])). lia.
Qed.
Lemma dict_nil (d : dict) : (forall k, dict_get k d = None) -> d = [].
Proof. destruct d as [|[k l] d]; auto. intros H. specialize (H k). cbn in H. rewrite Z.eqb_refl in H. discriminate. Qed.

(** ** the search for loops *)
Lemma walk_spec : forall parents d c nxt d', walk parents d = (c, nxt, d') ->
  (forall k cs, dict_get k d' = Some cs <-> dict_get k d = Some cs /\ ~ In k parents) /\
  (forall x, In x nxt <-> exists p cs, In p parents /\ dict_get p d = Some cs /\ In x cs) /\
  (if c then (length d' < length d)%nat else d' = d).
Proof.
  induction parents as [|p parents IH]; intros d c nxt d' H; cbn [walk] in H.
  - injection H as <- <- <-. split; [|split; auto]; [intros; simpl; tauto|]. intros x. split; [intros []|intros (p & cs & [] & _)].
  - destruct (dict_get p d) as [l|] eqn:G.
    + destruct (walk parents (dict_del p d)) as [[c0 nx] d1] eqn:W. injection H as <- <- <-.
      destruct (IH _ _ _ _ W) as (A & B & C). pose proof (len_del _ _ _ G) as L. split; [|split].
      * intros k cs. rewrite A, get_del. cbn [In]. destruct (Z.eqb_spec k p) as [->|NE].
        { split; [intros (X & _); discriminate|tauto]. }
        { split; intros (X & Y); split; auto. intros [Z|Z]; congruence || auto. }
      * intros x. rewrite in_app_iff, B. split.
        { intros [I|(q & cs & I & G' & J)]; [exists p, l; simpl; auto|].
          rewrite get_del in G'. destruct (q =? p); [discriminate|]. exists q, cs. simpl; auto. }
        { intros (q & cs & [<-|I] & G' & J); [left; congruence|]. destruct (Z.eqb_spec q p) as [->|NE]; [left; congruence|].
          right. exists q, cs. split; auto. rewrite get_del. destruct (Z.eqb_spec q p); [congruence|auto]. }
      * destruct c0; [lia|subst; lia].
    + destruct (IH _ _ _ _ H) as (A & B & C). split; [|split; auto].
      * intros k cs. rewrite A. cbn [In]. split; intros (X & Y); split; auto. intros [Z|Z]; congruence || auto.
      * intros x. rewrite B. split; intros (q & cs & I & G' & J); exists q, cs; split; auto; [right; auto|].
        destruct I as [<-|I]; [congruence|auto].
Qed.

Section Loops.
  Variable l : list encl.
  Let d0 := encl_dict l.
  Lemma d0_in k cs : dict_get k d0 = Some cs -> forall x, In x cs <-> exists e, In e l /\ pid e = k /\ eid e = x.
  Proof.
    unfold d0. rewrite get_encl. intros H x. assert (cs = children l k) as -> by (destruct (children l k); congruence).
    unfold children. rewrite in_map_iff. split.
    - intros (e & E & I). apply filter_In in I. destruct I as (I & P). apply Z.eqb_eq in P. eauto.
    - intros (e & I & P & E). exists e. split; auto. apply filter_In. split; auto. apply Z.eqb_eq; auto.
  Qed.
  Lemma d0_key e : In e l -> exists cs, dict_get (pid e) d0 = Some cs /\ In (eid e) cs.
  Proof.
    intros I. unfold d0. rewrite get_encl. assert (In (eid e) (children l (pid e))) as X.
    { unfold children. apply in_map. apply filter_In. split; auto. apply Z.eqb_refl. }
    destruct (children l (pid e)); [destruct X|]. eauto.
  Qed.
  Definition LInv (parents : list Z) (d : dict) : Prop :=
    (forall p, In p parents -> rooted l p) /\
    (forall k cs, dict_get k d = Some cs -> dict_get k d0 = Some cs) /\
    (forall k cs, dict_get k d0 = Some cs -> dict_get k d = None -> rooted l k /\
       forall c, In c cs -> In c parents \/ dict_get c d = None) /\
    (In 0 parents \/ dict_get 0 d = None).
  Lemma walk_inv parents d nxt d' c : LInv parents d -> walk parents d = (c, nxt, d') -> LInv nxt d'.
  Proof.
    intros (I1 & I2 & I3 & I4) W. destruct (walk_spec _ _ _ _ _ W) as (A & B & _).
    assert (GN : forall k, In k parents \/ dict_get k d = None -> dict_get k d' = None).
    { intros k H. destruct (dict_get k d') eqn:G; auto. apply A in G. destruct G, H; [contradiction|congruence]. }
    split; [|split; [|split]].
    - intros x X. apply B in X. destruct X as (p & cs & I & G & J). apply I2 in G.
      apply (d0_in _ _ G) in J. destruct J as (e & Ie & P & <-). apply rooted_s; auto. rewrite P. auto.
    - intros k cs G. apply A in G. apply I2. tauto.
    - intros k cs G N. destruct (dict_get k d) as [cs'|] eqn:GD.
      + assert (cs' = cs) as -> by (apply I2 in GD; congruence).
        assert (In k parents) as K.
        { destruct (in_dec Z.eq_dec k parents); auto. assert (dict_get k d' = Some cs) by (apply A; auto). congruence. }
        split; auto. intros c' J. left. apply B. eauto.
      + destruct (I3 _ _ G GD) as (R & H). split; auto.
    - right. apply GN. auto.
  Qed.
  Lemma explore_spec : forall n parents d, LInv parents d -> (length d < n)%nat ->
    exists d', explore n parents d = Ok d' /\ LInv [] d'.
  Proof.
    induction n as [|n IH]; intros parents d I L; [lia|]. cbn [explore].
    destruct (walk parents d) as [[c nxt] d'] eqn:W. pose proof (walk_inv _ _ _ _ _ I W) as I'.
    destruct (walk_spec _ _ _ _ _ W) as (A & B & C). destruct c.
    - apply IH; auto. lia.
    - subst d'. exists d. split; auto. destruct I' as (J1 & J2 & J3 & J4). destruct I as (I1 & I2 & I3 & I4).
      assert (N : forall p, In p parents -> dict_get p d = None).
      { intros p P. destruct (dict_get p d) eqn:G; auto. apply A in G. tauto. }
      split; [intros ? []|]. split; auto. split.
      + intros k cs G GN. destruct (I3 _ _ G GN) as (R & H). split; auto. intros c J. right. destruct (H c J); auto.
      + right. destruct I4; auto.
  Qed.
  Lemma explore_total : exists d, explore (S (length l)) [0] (encl_dict l) = Ok d.
  Proof.
    fold d0. destruct (explore_spec (S (length l)) [0] d0) as (d & E & _); eauto.
    - split; [intros p [<-|[]]; constructor|]. split; auto. split; [intros; congruence|]. simpl; auto.
    - unfold d0. pose proof (len_encl l). lia.
  Qed.
  Lemma check_loops_spec : check_loops l = Ok tt <-> forall e, In e l -> rooted l (pid e).
  Proof.
    unfold check_loops. fold d0. destruct (explore_spec (S (length l)) [0] d0) as (d & -> & I).
    { split; [intros p [<-|[]]; constructor|]. split; auto. split; [intros; congruence|]. simpl; auto. }
    { unfold d0. pose proof (len_encl l). lia. }
    cbn [bind]. destruct I as (_ & I2 & I3 & I4).
    assert (CL : forall i, rooted l i -> dict_get i d = None).
    { induction 1 as [|e Ie R IH]; [destruct I4 as [[]|]; auto|].
      destruct (d0_key e Ie) as (cs & G & J). destruct (I3 _ _ G IH) as (_ & H). destruct (H _ J) as [[]|]; auto. }
    split.
    - intros H e Ie. assert (d = []) as -> by (destruct d; [auto|discriminate]).
      destruct (d0_key e Ie) as (cs & G & _). apply (I3 _ _ G). reflexivity.
    - intros H. rewrite (dict_nil d); auto. intros k. destruct (dict_get k d) as [cs|] eqn:G; auto.
      pose proof (I2 _ _ G) as G0. assert (NE : cs <> []).
      { unfold d0 in G0. rewrite get_encl in G0. destruct (children l k); congruence. }
      destruct cs as [|x cs]; [congruence|]. destruct (proj1 (d0_in _ _ G0 x) (or_introl eq_refl)) as (e & Ie & P & _).
      rewrite <- P in G. rewrite CL in G; [discriminate|auto].
  Qed.
End Loops.

(** ** levels *)
Section Levels.
  Variable l : list encl.
  Hypothesis R : forall e, In e l -> rooted l (pid e).
  (** [old]: parents used before; [parents]: those of this turn *)
  Record VInv (n : nat) (old parents : list Z) (temp : list encl) : Prop := {
    v_sub : forall e, In e temp -> In e l;
    v_old : forall e, In e temp -> ~ In (pid e) old;
    v_root : In 0 (old ++ parents);
    v_done : forall e, In e l -> In e temp \/ In (eid e) (old ++ parents);
    v_depth : forall i, In i parents -> depth l n i }.
  Lemma progress n old parents temp : VInv n old parents temp -> temp <> [] ->
    exists e, In e temp /\ In (pid e) parents.
  Proof.
    intros V NE.
    assert (X : forall i, rooted l i -> In i (old ++ parents) \/ exists e, In e temp /\ In (pid e) parents).
    { induction 1 as [|e Ie Re IH]; [left; apply V|]. destruct IH as [IH|]; auto.
      destruct (v_done _ _ _ _ V e Ie) as [T|]; auto. right. exists e. split; auto.
      apply in_app_or in IH. destruct IH as [IH|]; auto. exfalso. eapply (v_old _ _ _ _ V); eauto. }
    destruct temp as [|e temp]; [congruence|]. destruct (X (pid e)) as [I|]; auto.
    { apply R. apply V. simpl; auto. }
    exists e. split; [simpl; auto|]. apply in_app_or in I. destruct I as [I|]; auto. exfalso. eapply (v_old _ _ _ _ V); [simpl; eauto|eauto].
  Qed.
  Definition sel parents := filter (fun e => memZ (pid e) parents).
  Definition rest parents := filter (fun e => negb (memZ (pid e) parents)).
  Lemma partition_perm parents (t : list encl) : Permutation t (sel parents t ++ rest parents t).
  Proof.
    induction t as [|e t IH]; cbn; auto. unfold sel, rest in *. cbn [filter]. destruct (memZ (pid e) parents); cbn [negb app].
    - apply perm_skip; auto.
    - apply Permutation_cons_app; auto.
  Qed.
  Lemma step_inv n old parents temp : VInv n old parents temp ->
    VInv (S n) (old ++ parents) (map eid (sel parents temp)) (rest parents temp).
  Proof.
    intros V. constructor.
    - intros e H. apply filter_In in H. apply V; tauto.
    - intros e H. apply filter_In in H. destruct H as (H & M). apply negb_true_iff, memZ_false in M.
      rewrite in_app_iff. intros [X|X]; auto. eapply (v_old _ _ _ _ V); eauto.
    - apply in_or_app. left. apply V.
    - intros e Ie. destruct (v_done _ _ _ _ V e Ie) as [T|]; [|right; apply in_or_app; auto].
      destruct (memZ (pid e) parents) eqn:M.
      + right. apply in_or_app. right. apply in_map. apply filter_In. auto.
      + left. apply filter_In. rewrite M. auto.
    - intros i H. apply in_map_iff in H. destruct H as (e & <- & H). apply filter_In in H. destruct H as (H & M).
      apply memZ_spec in M. constructor; [apply V; auto|apply V; auto].
  Qed.
  Lemma level_loop_spec : forall k n old parents temp, VInv n old parents temp -> (length temp <= k)%nat ->
    exists levels, level_loop k parents temp = Ok (levels ++ [[]]) /\ Permutation temp (concat levels) /\
      Forall (fun lv => lv <> []) levels /\
      (forall i lv e, nth_error levels i = Some lv -> In e lv -> depth l (n + i) (pid e)).
  Proof.
    induction k as [|k IH]; intros n old parents temp V L.
    - destruct temp; [|simpl in L; lia]. exists []. cbn. repeat split; auto. intros [|i]; discriminate.
    - assert (CASE : temp = [] \/ temp <> []) by (destruct temp; [auto|right; discriminate]).
      destruct CASE as [->|NE].
      { exists []. cbn. repeat split; auto. intros [|i]; discriminate. }
      destruct (progress _ _ _ _ V NE) as (e & Ie & Pe).
      assert (LT : (length (rest parents temp) < length temp)%nat).
      { pose proof (Permutation_length (partition_perm parents temp)) as P. rewrite app_length in P.
        assert (In e (sel parents temp)) as S by (apply filter_In; split; auto; apply memZ_spec; auto).
        destruct (sel parents temp); [destruct S|simpl in P; lia]. }
      destruct (IH _ _ _ _ (step_inv _ _ _ _ V)) as (lv & E & P & NN & D); [lia|].
      exists (sel parents temp :: lv). split; [|split; [|split]].
      + replace (level_loop (S k) parents temp) with
          (do r <- level_loop k (map eid (sel parents temp)) (rest parents temp); Ok (sel parents temp :: r)).
        * rewrite E. reflexivity.
        * destruct temp; [congruence|reflexivity].
      + cbn [concat]. rewrite <- P. apply partition_perm.
      + constructor; auto. intros X. assert (In e (sel parents temp)) as S by (apply filter_In; split; auto; apply memZ_spec; auto).
        rewrite X in S. destruct S.
      + intros [|i] lv' e' N I; cbn [nth_error] in N.
        * injection N as <-. apply filter_In in I. destruct I as (I & M). apply memZ_spec in M. rewrite Nat.add_0_r. apply V; auto.
        * rewrite <- Nat.add_succ_comm. eapply D; eauto.
  Qed.
  Lemma levels_init : VInv 0 [] [0] l.
  Proof.
    constructor; auto; [simpl; auto|]. intros i [<-|[]]. constructor.
  Qed.
End Levels.
