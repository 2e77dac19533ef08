(** Proofs about Loading.v. *)
From Coq Require Import Ascii String Permutation.
From Verif Require Import Prelude CellText Loading NumberingProofs.

(** ** Fusing *)
Lemma update_at_split i f l l' : update_at i f l = Ok l' ->
  exists a m b, l = a ++ m :: b /\ List.length a = i /\ l' = a ++ f m :: b.
Proof.
  revert i l'. induction l as [|x l IH]; intros i l' H; [destruct i; discriminate|]. destruct i as [|i]; cbn [update_at] in H.
  - injection H as <-. exists [], x, l. auto.
  - inv_bind. injection H as <-. destruct (IH _ _ Ha) as (a' & m & b & -> & L & ->). exists (x :: a'), m, b. cbn. auto.
Qed.
Lemma update_at_app a f m b : update_at (List.length a) f (a ++ m :: b) = Ok (a ++ f m :: b).
Proof. induction a as [|x a IH]; auto. cbn [List.length app update_at]. rewrite IH. reflexivity. Qed.
Lemma flat_update i f l l' (S : forall m, sols (f m) = sols m) : update_at i f l = Ok l' -> flat_map solids_of l' = flat_map solids_of l.
Proof.
  intros H. destruct (update_at_split _ _ _ _ H) as (a & m & b & -> & _ & ->). rewrite !flat_map_app. cbn [flat_map]. f_equal. f_equal.
  unfold solids_of. now rewrite S.
Qed.
Lemma length_update i f l l' : update_at i f l = Ok l' -> List.length l' = List.length l.
Proof. intros H. destruct (update_at_split _ _ _ _ H) as (a & m & b & -> & _ & ->). rewrite !app_length. auto. Qed.

Lemma slice_split {A} a b (l : list A) : (a <= b)%nat -> l = firstn a l ++ skipn a (firstn b l) ++ skipn b l.
Proof.
  intros L. rewrite app_assoc. rewrite <- (firstn_skipn b l) at 1. f_equal.
  rewrite <- (firstn_skipn a (firstn b l)) at 1. f_equal. rewrite firstn_firstn. f_equal. lia.
Qed.
Lemma fuse_flat fresh l a b l' : (a < b)%nat -> fuse_meta_obj fresh l a b = Ok l' -> flat_map solids_of l' = flat_map solids_of l.
Proof.
  intros L H. unfold fuse_meta_obj in H. destruct (Nat.eqb b (S a)) eqn:E.
  - eapply flat_update; eauto. reflexivity.
  - destruct (nth_error l a) as [m|] eqn:N; [|discriminate]. injection H as <-.
    rewrite (slice_split a b l) at 4 by lia. rewrite !flat_map_app. f_equal. cbn [flat_map]. f_equal.
    unfold solids_of at 1. cbn [sols]. destruct (flat_map solids_of (skipn a (firstn b l))); auto.
Qed.

Lemma set_info_sols e m : sols (set_info e m) = sols m.
Proof. unfold set_info. destruct (encl_label e), (envel_label e); reflexivity. Qed.
Lemma set_infos_flat e n : forall i l l', set_infos e i n l = Ok l' -> flat_map solids_of l' = flat_map solids_of l.
Proof.
  induction n as [|n IH]; intros i l l' H; cbn [set_infos] in H; [now injection H as <-|]. inv_bind.
  rewrite (IH _ _ _ H). eapply flat_update; eauto. apply set_info_sols.
Qed.
Lemma load_loop_flat comp : forall es fresh i l l', load_loop comp fresh es i l = Ok l' -> flat_map solids_of l' = flat_map solids_of l.
Proof.
  induction es as [|e es IH]; intros fresh i l l' H; cbn [load_loop] in H; [now injection H as <-|].
  destruct (Nat.eqb (nsol e) 0) eqn:N; [eauto|]. apply Nat.eqb_neq in N. destruct (fused comp e).
  - inv_bind. rewrite (IH _ _ _ _ H), (set_infos_flat _ _ _ _ _ Ha0). eapply fuse_flat; [|eauto]. lia.
  - inv_bind. rewrite (IH _ _ _ _ H). eapply set_infos_flat; eauto.
Qed.
Lemma initial_flat loop spline : forall ss i,
  flat_map solids_of (initial loop spline i ss) = filter (fun s => negb (spline s && loop)) ss.
Proof.
  induction ss as [|s ss IH]; intros i; auto. cbn [initial flat_map filter]. rewrite IH. unfold solids_of. cbn [sols].
  destruct (spline s && loop); reflexivity.
Qed.
Lemma env_groups_le : forall l i old cur, (fst cur <= snd cur)%nat -> (snd cur <= i)%nat ->
  Forall (fun g => fst g <= snd g)%nat (env_groups i old cur l).
Proof.
  induction l as [|m l IH]; intros i old cur A B; cbn [env_groups].
  - destruct old; auto.
  - destruct (envelope m); [|apply IH; lia]. destruct (encl_ids m) as [[k p]|]; [|apply IH; lia].
    destruct old as [k'|]; [destruct (k =? k')|].
    + apply IH; cbn; lia.
    + constructor; [auto|]. apply IH; cbn; lia.
    + apply IH; cbn; lia.
Qed.
Lemma fuse_groups_flat : forall gs fresh l l', Forall (fun g => fst g <= snd g)%nat gs ->
  fuse_groups fresh gs l = Ok l' -> flat_map solids_of l' = flat_map solids_of l.
Proof.
  induction gs as [|[a b] gs IH]; intros fresh l l' F H; cbn [fuse_groups] in H; [now injection H as <-|]. inv_bind.
  inversion F; subst. cbn [fst snd] in *. rewrite (IH _ _ _ H3 H). eapply fuse_flat; [|eauto]. lia.
Qed.

(** ** The cells made from the elements *)
(** attributes and solids expected for the elements es when the meta objects ms are
    left; i: position of the next cell *)
Fixpoint expected (comp : bool) (fresh : nat) (es : list elem) (i : nat) (ms : list meta) : list meta :=
  match es with
  | [] => ms
  | e :: r =>
      let n := nsol e in
      if Nat.eqb n 0 then expected comp fresh r i ms
      else if fused comp e then
        match ms with
        | [] => []
        | m :: _ =>
            let ss := flat_map solids_of (firstn n ms) in
            let new := if Nat.eqb n 1 then set_id (Z.of_nat i + 1) m
                       else Meta fresh (Z.of_nat i + 1) (match ss with [] => None | _ => Some ss end) (encl_ids m) (envelope m) None in
            set_info e new :: expected comp (S fresh) r (i + 1) (skipn n ms)
        end
      else map (set_info e) (firstn n ms) ++ expected comp fresh r (i + n) (skipn n ms)
  end.
Definition total (es : list elem) : nat := list_sum (map nsol es).

Lemma set_infos_app e : forall b a c, set_infos e (List.length a) (List.length b) (a ++ b ++ c) = Ok (a ++ map (set_info e) b ++ c).
Proof.
  induction b as [|m b IH]; intros a c; auto. cbn [List.length set_infos app map]. rewrite update_at_app. cbn [bind].
  specialize (IH (a ++ [set_info e m]) c). rewrite app_length in IH. cbn [List.length] in IH.
  replace (List.length a + 1)%nat with (S (List.length a)) in IH by lia. rewrite <- !app_assoc in IH. exact IH.
Qed.
Lemma fuse_app fresh a m b c n : n = List.length (m :: b) ->
  fuse_meta_obj fresh (a ++ m :: b ++ c) (List.length a) (List.length a + n) =
  Ok (a ++ (if Nat.eqb n 1 then set_id (Z.of_nat (List.length a) + 1) m
            else let ss := flat_map solids_of (m :: b) in
                 Meta fresh (Z.of_nat (List.length a) + 1) (match ss with [] => None | _ => Some ss end) (encl_ids m) (envelope m) None) :: c).
Proof.
  intros ->. unfold fuse_meta_obj. destruct b as [|m' b].
  - cbn [List.length app Nat.eqb]. replace (List.length a + 1)%nat with (S (List.length a)) by lia. rewrite Nat.eqb_refl. apply update_at_app.
  - replace (Nat.eqb (List.length a + List.length (m :: m' :: b)) (S (List.length a))) with false by (symmetry; apply Nat.eqb_neq; cbn; lia).
    replace (Nat.eqb (List.length (m :: m' :: b)) 1) with false by reflexivity.
    rewrite nth_error_app2, Nat.sub_diag by lia. cbn [nth_error].
    change (a ++ m :: (m' :: b) ++ c) with (a ++ (m :: m' :: b) ++ c). set (g := m :: m' :: b).
    replace (firstn (List.length a + List.length g) (a ++ g ++ c)) with (a ++ g).
    2:{ rewrite app_assoc, <- app_length, firstn_app, Nat.sub_diag, firstn_all. cbn. now rewrite app_nil_r. }
    rewrite skipn_app, Nat.sub_diag, skipn_all. cbn [skipn app].
    replace (firstn (List.length a) (a ++ g ++ c)) with a.
    2:{ rewrite firstn_app, Nat.sub_diag, firstn_all. cbn. now rewrite app_nil_r. }
    replace (skipn (List.length a + List.length g) (a ++ g ++ c)) with c.
    2:{ rewrite app_assoc, <- app_length, skipn_app, Nat.sub_diag, skipn_all. reflexivity. }
    reflexivity.
Qed.
Lemma load_loop_spec comp : forall es fresh a ms, (total es <= List.length ms)%nat ->
  load_loop comp fresh es (List.length a) (a ++ ms) = Ok (a ++ expected comp fresh es (List.length a) ms).
Proof.
  induction es as [|e es IH]; intros fresh a ms L; cbn [load_loop expected]; auto.
  unfold total in *. cbn [map list_sum fold_right] in L. fold (list_sum (map nsol es)) in L.
  destruct (Nat.eqb (nsol e) 0) eqn:N; [apply IH; lia|]. apply Nat.eqb_neq in N.
  assert (F : List.length (firstn (nsol e) ms) = nsol e) by (rewrite firstn_length; lia).
  destruct (fused comp e) eqn:FU.
  - destruct ms as [|m ms]; [cbn in L; lia|]. destruct (nsol e) as [|n] eqn:NE; [lia|]. cbn [firstn skipn] in *.
    rewrite <- (firstn_skipn n ms) at 1. rewrite (fuse_app fresh a m (firstn n ms) (skipn n ms) (S n)) by (cbn in *; lia). cbn [bind].
    set (new := if Nat.eqb (S n) 1 then _ else _).
    pose proof (set_infos_app e [new] a (skipn n ms)) as SI. cbn [List.length app map] in SI. rewrite SI. cbn [bind].
    specialize (IH (S fresh) (a ++ [set_info e new]) (skipn n ms)). rewrite app_length in IH. cbn [List.length] in IH.
    rewrite <- !app_assoc in IH. cbn [app] in IH. rewrite IH; [|rewrite skipn_length; cbn in L; lia]. reflexivity.
  - pose proof (set_infos_app e (firstn (nsol e) ms) a (skipn (nsol e) ms)) as SI. rewrite F, firstn_skipn in SI. rewrite SI. cbn [bind]. set (g := map (set_info e) (firstn (nsol e) ms)) in *.
    assert (G : List.length g = nsol e) by (unfold g; now rewrite map_length).
    specialize (IH fresh (a ++ g) (skipn (nsol e) ms)). rewrite app_length, G in IH. rewrite <- !app_assoc in IH.
    apply IH. rewrite skipn_length. lia.
Qed.

(** Each solid with the attributes of its cell *)
Definition tagged (l : list meta) : list (Z * option nat) := flat_map (fun m => map (fun s => (s, info m)) (solids_of m)) l.
Lemma tagged_cons m l : tagged (m :: l) = tagged [m] ++ tagged l.
Proof. unfold tagged. cbn [flat_map]. now rewrite app_nil_r. Qed.
Lemma tagged_map e ms : tagged (map (set_info e) ms) = map (fun s => (s, Some (en e))) (flat_map solids_of ms).
Proof.
  induction ms as [|m ms IH]; auto. unfold tagged in *. cbn [map flat_map]. rewrite IH, map_app. f_equal.
  unfold solids_of. rewrite set_info_sols. unfold set_info. destruct (encl_label e), (envel_label e); reflexivity.
Qed.
Fixpoint assign (es : list elem) (ms : list meta) : list (Z * option nat) :=
  match es with
  | [] => tagged ms
  | e :: r => map (fun s => (s, Some (en e))) (flat_map solids_of (firstn (nsol e) ms)) ++ assign r (skipn (nsol e) ms)
  end.
Lemma expected_tagged comp : forall es fresh i ms, (total es <= List.length ms)%nat -> tagged (expected comp fresh es i ms) = assign es ms.
Proof.
  induction es as [|e es IH]; intros fresh i ms L; cbn [expected assign]; auto.
  unfold total in *. cbn [map list_sum fold_right] in L. fold (list_sum (map nsol es)) in L.
  destruct (Nat.eqb (nsol e) 0) eqn:N.
  { apply Nat.eqb_eq in N. rewrite N. cbn [firstn skipn flat_map map app]. apply IH. lia. }
  destruct (fused comp e).
  - destruct ms as [|m ms]; [apply Nat.eqb_neq in N; cbn in L; lia|].
    rewrite tagged_cons, IH by (rewrite skipn_length; lia). f_equal.
    match goal with |- tagged [set_info e ?x] = _ => change (tagged [set_info e x]) with (tagged (map (set_info e) [x])) end. rewrite tagged_map. f_equal. cbn [flat_map]. rewrite app_nil_r.
    destruct (Nat.eqb (nsol e) 1) eqn:N1.
    + apply Nat.eqb_eq in N1. rewrite N1. cbn [firstn flat_map]. rewrite app_nil_r. reflexivity.
    + unfold solids_of at 1. cbn [sols]. destruct (flat_map solids_of (firstn (nsol e) (m :: ms))); auto.
  - unfold tagged. rewrite flat_map_app. fold (tagged (map (set_info e) (firstn (nsol e) ms))).
    rewrite tagged_map. f_equal. apply IH. rewrite skipn_length. lia.
Qed.

Definition kept_solid (spline : Z -> bool) (loop : bool) (s : Z) : bool := negb (spline s && loop).
Lemma initial_app loop spline : forall a b i, initial loop spline i (a ++ b) = initial loop spline i a ++ initial loop spline (i + List.length a) b.
Proof.
  induction a as [|x a IH]; intros b i; cbn [app initial List.length].
  - f_equal. lia.
  - rewrite IH. do 3 f_equal. lia.
Qed.
Lemma initial_length loop spline : forall a i, List.length (initial loop spline i a) = List.length a.
Proof. induction a; intros; cbn; auto. Qed.
(** the solids of the elements, in order *)
Lemma assign_initial loop spline : forall es i ss, List.length ss = total es ->
  assign es (initial loop spline i ss) =
  filter (fun p => kept_solid spline loop (fst p)) (combine ss (flat_map (fun e => repeat (Some (en e)) (nsol e)) es)).
Proof.
  induction es as [|e es IH]; intros i ss L.
  - destruct ss; [reflexivity|discriminate].
  - unfold total in L. cbn [map list_sum fold_right] in L. fold (list_sum (map nsol es)) in L. cbn [assign flat_map].
    assert (F : List.length (firstn (nsol e) ss) = nsol e) by (rewrite firstn_length; lia).
    rewrite <- (firstn_skipn (nsol e) ss). set (a := firstn (nsol e) ss) in *. set (b := skipn (nsol e) ss) in *.
    assert (LB : List.length b = total es) by (unfold b, total; rewrite skipn_length; lia).
    rewrite initial_app.
    replace (firstn (nsol e) (initial loop spline i a ++ _)) with (initial loop spline i a).
    2:{ rewrite firstn_app, initial_length, F, Nat.sub_diag. cbn. rewrite app_nil_r. rewrite firstn_all2; auto. rewrite initial_length. lia. }
    replace (skipn (nsol e) (initial loop spline i a ++ initial loop spline (i + List.length a) b)) with (initial loop spline (i + List.length a) b).
    2:{ rewrite skipn_app, initial_length, F, Nat.sub_diag. cbn. rewrite skipn_all2; auto. rewrite initial_length. lia. }
    rewrite IH by auto. rewrite initial_flat.
    assert (CA : forall (x : list Z) (y : list Z) (z w : list (option nat)), List.length x = List.length z -> combine (x ++ y) (z ++ w) = combine x z ++ combine y w).
    { clear. induction x as [|x0 x IH]; intros y z w H; destruct z; try discriminate; cbn; auto. f_equal. apply IH. now injection H. }
    rewrite CA by (rewrite repeat_length; lia). rewrite filter_app. f_equal.
    clear -F. revert F. generalize (nsol e). generalize a. clear. induction a as [|x a IH]; intros n F; destruct n; try discriminate; cbn; auto.
    change (kept_solid spline loop x) with (negb (spline x && loop)). destruct (negb (spline x && loop)); cbn [map]; [f_equal|]; apply IH; now injection F.
Qed.

(** ** Identifiers *)
Lemma set_info_mid e m : mid (set_info e m) = mid m.
Proof. unfold set_info. destruct (encl_label e), (envel_label e); reflexivity. Qed.
Lemma expected_ids_fused comp : forall es fresh i ms, Forall (fun e => fused comp e = true) es -> List.length ms = total es ->
  map mid (expected comp fresh es i ms) = zseq (Z.of_nat i + 1) (List.length (expected comp fresh es i ms)).
Proof.
  induction es as [|e es IH]; intros fresh i ms F L; cbn [expected].
  - destruct ms; [reflexivity|discriminate].
  - inversion F as [|? ? F1 F2]; subst. unfold total in L. cbn [map list_sum fold_right] in L. fold (list_sum (map nsol es)) in L.
    destruct (Nat.eqb (nsol e) 0) eqn:N. { apply Nat.eqb_eq in N. apply IH; auto. unfold total. lia. }
    rewrite F1. destruct ms as [|m ms]; [reflexivity|]. cbn [map List.length zseq]. rewrite set_info_mid, IH.
    + f_equal; [destruct (Nat.eqb (nsol e) 1); reflexivity|]. f_equal. lia.
    + auto.
    + rewrite skipn_length. unfold total. lia.
Qed.
Lemma expected_ids_plain comp : forall es fresh i ms, Forall (fun e => fused comp e = false) es -> (total es <= List.length ms)%nat ->
  map mid (expected comp fresh es i ms) = map mid ms.
Proof.
  induction es as [|e es IH]; intros fresh i ms F L; cbn [expected]; auto.
  inversion F as [|? ? F1 F2]; subst. unfold total in L. cbn [map list_sum fold_right] in L. fold (list_sum (map nsol es)) in L.
  destruct (Nat.eqb (nsol e) 0) eqn:N; [apply IH; auto; unfold total; lia|].
  rewrite F1, map_app, map_map, IH; auto; [|unfold total; rewrite skipn_length; lia].
  rewrite (map_ext _ _ (set_info_mid e)), <- map_app, firstn_skipn. reflexivity.
Qed.
Lemma initial_ids loop spline : forall ss i, map mid (initial loop spline i ss) = zseq (Z.of_nat i + 1) (List.length ss).
Proof. induction ss as [|s ss IH]; intros i; auto. cbn [initial map List.length zseq mid]. rewrite IH. do 2 f_equal. lia. Qed.

(** ** joinEnvelopes *)
Lemma env_groups_none : forall l i old cur, Forall (fun m => envelope m = false) l ->
  env_groups i old cur l = match old with None => [] | Some _ => [cur] end.
Proof. induction l as [|m l IH]; intros i old cur F; cbn [env_groups]; auto. inversion F; subst. rewrite H1. auto. Qed.
Lemma env_groups_skip : forall a l i old cur, Forall (fun m => envelope m = false) a ->
  env_groups i old cur (a ++ l) = env_groups (i + List.length a) old cur l.
Proof.
  induction a as [|m a IH]; intros l i old cur F; cbn [app env_groups List.length]; [f_equal; lia|]. inversion F; subst. rewrite H1, IH by auto. f_equal. lia.
Qed.
Lemma env_groups_same k : forall g l i cur, Forall (fun m => envelope m = true /\ exists p, encl_ids m = Some (k, p)) g ->
  env_groups i (Some k) cur (g ++ l) = env_groups (i + List.length g) (Some k) (fst cur, match g with [] => snd cur | _ => i + List.length g - 1 end)%nat l.
Proof.
  induction g as [|m g IH]; intros l i cur F; cbn [app List.length].
  - rewrite Nat.add_0_r. destruct cur; reflexivity.
  - inversion F as [|? ? [E (p & P)] F']; subst. cbn [env_groups]. rewrite E, P, Z.eqb_refl, IH by auto. cbn [fst snd].
    f_equal; [lia|]. f_equal. destruct g; cbn [List.length]; lia.
Qed.
Lemma one_envelope k fresh a m g b : Forall (fun m => envelope m = false) a -> Forall (fun m => envelope m = false) b ->
  Forall (fun m => envelope m = true /\ exists p, encl_ids m = Some (k, p)) (m :: g) ->
  joinEnvelopes fresh (a ++ (m :: g) ++ b) =
  Ok (a ++ (if Nat.eqb (List.length (m :: g)) 1 then set_id (Z.of_nat (List.length a) + 1) m
            else Meta fresh (Z.of_nat (List.length a) + 1)
                   (match flat_map solids_of (m :: g) with [] => None | _ => Some (flat_map solids_of (m :: g)) end)
                   (encl_ids m) (envelope m) None) :: b).
Proof.
  intros A B G. unfold joinEnvelopes. rewrite env_groups_skip by auto. inversion G as [|? ? [E (p & P)] G']; subst.
  cbn [app env_groups plus]. rewrite E, P. rewrite env_groups_same by auto. rewrite env_groups_none by auto. cbn [fst snd fuse_groups].
  pose proof (fuse_app fresh a m g b _ eq_refl) as FA. cbn zeta in FA. rewrite E, P in FA.
  replace (S _) with (List.length a + List.length (m :: g))%nat by (destruct g; cbn [List.length]; lia). rewrite FA. cbn [bind]. reflexivity.
Qed.

(** ** Several files *)
Lemma nodup_app_inv {A} (a b : list A) : NoDup (a ++ b) -> NoDup a /\ NoDup b /\ forall x, In x a -> ~ In x b.
Proof.
  induction a as [|x a IH]; cbn [app]; intros H; [split; [constructor|split; auto]|]. inversion H; subst. destruct (IH H3) as (A1 & A2 & A3). rewrite in_app_iff in H2.
  split; [constructor; tauto|]. split; auto. intros y [->|I]; [tauto|auto].
Qed.
Lemma join_one_other : forall M id st o, ~ In o M -> join_one id M st o = st o.
Proof.
  induction M as [|x M IH]; intros id st o H; cbn [join_one]; auto. rewrite IH by (cbn in H; tauto). unfold put.
  destruct (Nat.eqb_spec x o); auto. subst. cbn in H. tauto.
Qed.
Lemma join_one_ids : forall M id st, NoDup M -> map (join_one id M st) M = zseq id (List.length M).
Proof.
  induction M as [|x M IH]; intros id st ND; auto. inversion ND; subst. cbn [map List.length zseq join_one].
  rewrite IH by auto. f_equal. rewrite join_one_other by auto. unfold put. now rewrite Nat.eqb_refl.
Qed.
Lemma join_rest_spec : forall Ms acc st out st', acc <> [] -> NoDup (acc ++ concat Ms) -> join_rest acc Ms st = (out, st') ->
  out = acc ++ concat Ms /\ (forall o, ~ In o (concat Ms) -> st' o = st o) /\
  map st' (concat Ms) = zseq (st (last acc 0%nat) + 1) (List.length (concat Ms)).
Proof.
  induction Ms as [|M Ms IH]; intros acc st out st' NE ND H; cbn [join_rest concat] in *.
  - injection H as <- <-. rewrite app_nil_r. auto.
  - assert (NE' : acc ++ M <> []) by (destruct acc; [congruence|discriminate]).
    rewrite app_assoc in ND. destruct (IH _ _ _ _ NE' ND H) as (-> & O & I). rewrite <- app_assoc. split; auto.
    apply nodup_app_inv in ND as (ND & _ & D). apply nodup_app_inv in ND as (_ & NM & DA).
    split.
    + intros o N. rewrite in_app_iff in N. rewrite O by tauto. apply join_one_other. tauto.
    + rewrite map_app, app_length, zseq_app. f_equal.
      * rewrite <- (join_one_ids M (st (last acc 0%nat) + 1) st NM). apply map_ext_in. intros o I1. apply O. apply D. apply in_app_iff. auto.
      * rewrite I. f_equal.
        destruct M as [|x M].
        { rewrite app_nil_r. cbn [join_one List.length]. lia. }
        assert (LI : last (acc ++ x :: M) 0%nat = last (x :: M) 0%nat).
        { clear. induction acc as [|y acc IHa]; auto. cbn [app]. destruct (acc ++ x :: M) eqn:E; [destruct acc; discriminate|]. cbn [last] in *. rewrite IHa. reflexivity. }
        rewrite LI.
        pose proof (join_one_ids (x :: M) (st (last acc 0%nat) + 1) st NM) as J.
        assert (LZ : forall (f : nat -> Z) l s, l <> [] -> map f l = zseq s (List.length l) -> f (last l 0%nat) = s + Z.of_nat (List.length l) - 1).
        { clear. intros f l. induction l as [|y l IHl]; intros s NE E; [congruence|]. cbn [map List.length zseq] in E. injection E as E1 E2.
          destruct l as [|z l]; [cbn; lia|]. change (last (y :: z :: l) 0%nat) with (last (z :: l) 0%nat). rewrite (IHl (s + 1)); [cbn [List.length]; lia|discriminate|auto]. }
        rewrite (LZ _ (x :: M) (st (last acc 0%nat) + 1)); [|intros X; discriminate X|exact J]. lia.
Qed.

(** ** skip_solids *)
(** the elements at the positions satisfying keep *)
Fixpoint keep_at {A} (keep : Z -> bool) (i : Z) (l : list A) : list A :=
  match l with
  | [] => []
  | x :: r => if keep i then x :: keep_at keep (i + 1) r else keep_at keep (i + 1) r
  end.
Lemma keep_at_all {A} : forall (l : list A) keep i, (forall j, i <= j < i + Z.of_nat (List.length l) -> keep j = true) -> keep_at keep i l = l.
Proof.
  induction l as [|x l IH]; intros keep i H; auto. cbn [keep_at List.length] in *. rewrite H by lia. f_equal. apply IH. intros; apply H. lia.
Qed.
Lemma keep_at_ext {A} : forall (l : list A) k k' i, (forall j, i <= j < i + Z.of_nat (List.length l) -> k j = k' j) -> keep_at k i l = keep_at k' i l.
Proof.
  induction l as [|x l IH]; intros k k' i H; auto. cbn [keep_at List.length] in *. rewrite H by lia. rewrite (IH k k') by (intros; apply H; lia). auto.
Qed.
(** deleting position d below which everything is kept still *)
Lemma keep_remove {A} : forall (l : list A) keep i d, i <= d < i + Z.of_nat (List.length l) ->
  (forall j, i <= j <= d -> keep j = true) ->
  remove_at (Z.to_nat (d - i)) (keep_at keep i l) = keep_at (fun j => keep j && negb (j =? d)) i l.
Proof.
  induction l as [|x l IH]; intros keep i d B H; [cbn in B; lia|]. cbn [keep_at List.length] in *. rewrite (H i) by lia. cbn [andb].
  destruct (Z.eqb_spec i d) as [->|N]; cbn [negb].
  - rewrite Z.sub_diag. cbn [Z.to_nat remove_at]. apply keep_at_ext. intros j J. destruct (Z.eqb_spec j d); [lia|]. now rewrite andb_true_r.
  - replace (Z.to_nat (d - i)) with (S (Z.to_nat (d - (i + 1)))) by lia. cbn [remove_at]. f_equal. apply IH; [lia|]. intros; apply H. lia.
Qed.
Lemma keep_length {A} : forall (l : list A) keep i d, i <= d < i + Z.of_nat (List.length l) -> (forall j, i <= j <= d -> keep j = true) ->
  d - i < Z.of_nat (List.length (keep_at keep i l)).
Proof.
  induction l as [|x l IH]; intros keep i d B H; [cbn in B; lia|]. cbn [keep_at List.length] in *. rewrite (H i) by lia. cbn [List.length].
  destruct (Z.eqb_spec i d); [lia|]. specialize (IH keep (i + 1) d ltac:(lia) ltac:(intros; apply H; lia)). lia.
Qed.
Fixpoint desc (l : list Z) : Prop := match l with [] => True | x :: r => Forall (fun y => y < x) r /\ desc r end.
Lemma del_all_keep {A} (l : list A) : forall ds keep, desc ds -> Forall (fun d => 0 <= d < Z.of_nat (List.length l)) ds ->
  (forall d j, In d ds -> 0 <= j <= d -> keep j = true) ->
  del_all ds (keep_at keep 0 l) = Ok (keep_at (fun j => keep j && negb (existsb (Z.eqb j) ds)) 0 l).
Proof.
  induction ds as [|d ds IH]; intros keep D B K; cbn [del_all].
  - f_equal. apply keep_at_ext. intros. cbn. now rewrite andb_true_r.
  - destruct D as [D1 D2]. inversion B as [|? ? B1 B2]; subst.
    assert (KD : forall j, 0 <= j <= d -> keep j = true) by (intros; apply (K d); cbn; auto).
    unfold py_del. pose proof (keep_length l keep 0 d ltac:(lia) KD) as L.
    replace ((0 <=? d) && (d <? Z.of_nat (List.length (keep_at keep 0 l)))) with true by lia. cbn [bind].
    replace d with (d - 0) at 1 by lia. rewrite keep_remove by (auto; lia). rewrite IH; auto.
    + f_equal. apply keep_at_ext. intros j _. cbn [existsb]. now rewrite negb_orb, andb_assoc.
    + intros d' j I J. rewrite Forall_forall in D1. specialize (D1 _ I). rewrite (K d' j) by (cbn; auto; lia). lia.
Qed.
Lemma insert_desc_in x l y : In y (insert_desc x l) <-> y = x \/ In y l.
Proof. induction l as [|z l IH]; cbn [insert_desc In]; [intuition|]. destruct (z <? x); cbn [In]; [intuition|]. rewrite IH. intuition. Qed.
Lemma sort_desc_in l y : In y (sort_desc l) <-> In y l.
Proof. induction l as [|x l IH]; cbn; [tauto|]. rewrite insert_desc_in, IH. intuition. Qed.
Lemma insert_desc_desc x l : desc l -> ~ In x l -> desc (insert_desc x l).
Proof.
  induction l as [|z l IH]; cbn [insert_desc desc In]; intros D N; [auto|]. destruct D as [D1 D2]. destruct (z <? x) eqn:E.
  - cbn [desc]. split; [|auto]. constructor; [lia|]. eapply Forall_impl; [|exact D1]. cbn. intros. lia.
  - cbn [desc]. split; [|apply IH; tauto]. rewrite Forall_forall in *. intros y I. apply insert_desc_in in I as [-> |I]; [|auto]. assert (z <> x) by tauto. lia.
Qed.
Lemma sort_desc_desc l : NoDup l -> desc (sort_desc l).
Proof. induction 1; cbn; auto. apply insert_desc_desc; auto. rewrite sort_desc_in. auto. Qed.

(** ** drop_null_cells *)
Lemma remove_ob_app a m b : ~ In (ob m) (map ob a) -> remove_ob (ob m) (a ++ m :: b) = a ++ b.
Proof.
  induction a as [|x a IH]; intros N; cbn [app remove_ob].
  - now rewrite Nat.eqb_refl.
  - destruct (Nat.eqb_spec (ob x) (ob m)) as [E|E]; [cbn in N; tauto|]. rewrite IH; auto. cbn in N; tauto.
Qed.
Lemma drop_null_spec : forall a b, NoDup (map ob a) -> drop_null (List.length a) (a ++ b) = filter (fun m => is_some (sols m)) a ++ b.
Proof.
  intros a. induction a as [|m a IH] using rev_ind; intros b ND; auto. rewrite app_length. cbn [List.length].
  replace (List.length a + 1)%nat with (S (List.length a)) by lia. cbn [drop_null].
  rewrite <- app_assoc, nth_error_app2, Nat.sub_diag by lia. cbn [nth_error app].
  rewrite map_app in ND. cbn [map] in ND. apply NoDup_remove in ND as [ND NI]. rewrite app_nil_r in ND, NI. rewrite filter_app, <- app_assoc.
  destruct (sols m) eqn:E; cbn [filter is_some app].
  - rewrite E. cbn [is_some app]. apply IH; auto.
  - rewrite E. cbn [is_some app]. rewrite remove_ob_app; auto.
Qed.

(** ** Labels *)
Definition word (w : chars) : Prop := w <> [] /\ Forall (fun c => is_blank c = false) w.
Definition blank_text (s : chars) : Prop := Forall (fun c => is_blank c = true) s.
(** a text made of words separated (and surrounded) by blanks *)
Inductive layout : chars -> list chars -> Prop :=
| lay_end s : blank_text s -> layout s []
| lay_one s w : blank_text s -> word w -> layout (s ++ w) [w]
| lay_cons s w c t ws : blank_text s -> word w -> is_blank c = true -> layout t ws -> layout (s ++ w ++ c :: t) (w :: ws).
Lemma split_from_word w : Forall (fun c => is_blank c = false) w -> forall cur t, split_from cur (w ++ t) = split_from (cur ++ w) t.
Proof.
  induction 1 as [|c w B F IH]; intros cur t; cbn [app split_from]; [now rewrite app_nil_r|]. rewrite B, IH, <- app_assoc. reflexivity.
Qed.
Lemma split_blank s : blank_text s -> forall t, split_from [] (s ++ t) = split_from [] t.
Proof. induction 1 as [|c s B F IH]; intros t; cbn [app split_from]; auto. rewrite B. auto. Qed.
Lemma split_layout t ws : layout t ws -> split t = ws.
Proof.
  unfold split. induction 1 as [s B|s w B [N W]|s w c t ws B [N W] C L IH].
  - rewrite <- (app_nil_r s), split_blank by auto. reflexivity.
  - rewrite split_blank by auto. rewrite <- (app_nil_r w), split_from_word by auto. rewrite app_nil_r. cbn. destruct w; [congruence|]. reflexivity.
  - rewrite split_blank, split_from_word by auto. cbn [app split_from]. rewrite C. destruct w; [congruence|]. now rewrite IH.
Qed.
Lemma layout_exists : forall t, exists ws, layout t ws /\ Forall word ws.
Proof.
  assert (G : forall t w, Forall (fun c => is_blank c = false) w -> exists ws, layout (w ++ t) ws /\ Forall word ws).
  { intros t. induction t as [|c t IH]; intros w W.
    - rewrite app_nil_r. destruct w as [|d w].
      + exists []. split; [constructor; constructor|constructor].
      + exists [d :: w]. assert (word (d :: w)) by (split; [discriminate|auto]). split; [|auto].
        change (d :: w) with ([] ++ d :: w) at 1. constructor; [constructor|auto].
    - destruct (is_blank c) eqn:B.
      + destruct (IH [] (Forall_nil _)) as (ws & L & F). cbn [app] in L. destruct w as [|d w].
        * exists ws. split; [|auto]. cbn [app]. inversion L; subst.
          -- constructor. constructor; auto.
          -- change (c :: s ++ w) with ((c :: s) ++ w). constructor; [constructor|]; auto.
          -- change (c :: s ++ w ++ c0 :: t0) with ((c :: s) ++ w ++ c0 :: t0). constructor; auto. constructor; auto.
        * exists ((d :: w) :: ws). assert (word (d :: w)) by (split; [discriminate|auto]). split; [|constructor; auto].
          change ((d :: w) ++ c :: t) with ([] ++ (d :: w) ++ c :: t). constructor; auto. constructor.
      + replace (w ++ c :: t) with ((w ++ [c]) ++ t) by now rewrite <- app_assoc. apply IH. apply Forall_app. auto. }
  intros t. apply (G t []). constructor.
Qed.
Lemma comment_tree_spec d anc : comment_tree d anc = flat_map (fun l => "/"%char :: get_label d l) (rev anc).
Proof.
  unfold comment_tree. rewrite <- map_rev. generalize (rev anc). intros l.
  assert (G : forall l acc, fold_left (fun c l => c ++ "/"%char :: l) (map (get_label d) l) acc = acc ++ flat_map (fun l => "/"%char :: get_label d l) l).
  { clear. induction l as [|x l IH]; intros acc; cbn [map fold_left flat_map]; [now rewrite app_nil_r|]. rewrite IH, <- app_assoc. reflexivity. }
  apply (G l []).
Qed.

(** ** Tags *)
Definition digit_text (d : chars) : Prop := d <> [] /\ Forall (fun c => is_digit c = true) d.
Lemma strip_spec : forall p l s, strip p l = Some s <-> l = p ++ s.
Proof.
  induction p as [|c p IH]; intros l s; cbn [strip app].
  - split; [intros [= ->]|intros ->]; auto.
  - destruct l as [|d l]; [split; discriminate|]. destruct (Ascii.eqb_spec c d) as [->|N].
    + rewrite IH. split; [intros ->; auto|intros [= ->]; auto].
    + split; [discriminate|intros [= -> _]; congruence].
Qed.
Lemma take_digits_spec : forall l d r, take_digits l = (d, r) -> l = d ++ r /\ Forall (fun c => is_digit c = true) d.
Proof.
  induction l as [|c l IH]; intros d r H; cbn [take_digits] in H; [injection H as <- <-; auto|].
  destruct (is_digit c) eqn:E; [|injection H as <- <-; auto]. destruct (take_digits l) as [d' r'] eqn:T. injection H as <- <-.
  destruct (IH _ _ eq_refl) as [-> F]. auto.
Qed.
Lemma take_digits_app : forall d r, Forall (fun c => is_digit c = true) d -> take_digits (d ++ "_"%char :: r) = (d, "_"%char :: r).
Proof. induction d as [|c d IH]; intros r F; [reflexivity|]. inversion F; subst. cbn [app take_digits]. rewrite H1, IH by auto. reflexivity. Qed.
Lemma tag_here_spec p l d : tag_here p l = Some d <-> digit_text d /\ exists r, l = p ++ d ++ "_"%char :: r.
Proof.
  unfold tag_here. split.
  - destruct (strip p l) as [s|] eqn:S; [|discriminate]. apply strip_spec in S as ->. destruct (take_digits s) as [d' r] eqn:T.
    apply take_digits_spec in T as [-> F]. destruct d' as [|c d']; [discriminate|]. destruct r as [|x r]; [discriminate|].
    destruct (Ascii.eqb_spec x "_") as [->|]; [|discriminate]. intros [= <-]. split; [split; [discriminate|auto]|eauto].
  - intros [[N F] (r & ->)]. replace (strip p _) with (Some (d ++ "_"%char :: r)) by (symmetry; now apply strip_spec).
    rewrite take_digits_app by auto. destruct d; [congruence|]. rewrite Ascii.eqb_refl. reflexivity.
Qed.
(** d is the group of the leftmost match *)
Definition leftmost (p l d : chars) : Prop :=
  exists a r, l = a ++ p ++ d ++ "_"%char :: r /\ digit_text d /\
    forall a' d' r', l = a' ++ p ++ d' ++ "_"%char :: r' -> digit_text d' -> (List.length a <= List.length a')%nat.
Lemma tag_search_some p : forall l d, tag_search p l = Some d -> leftmost p l d.
Proof.
  induction l as [|c l IH]; intros d H; cbn [tag_search] in H.
  - destruct (tag_here p []) eqn:E; [|discriminate]. injection H as ->. apply tag_here_spec in E as [D (r & E)].
    exists [], r. split; [auto|]. split; auto. intros; cbn; lia.
  - destruct (tag_here p (c :: l)) eqn:E.
    + injection H as ->. apply tag_here_spec in E as [D (r & E)]. exists [], r. split; [auto|]. split; auto. intros; cbn; lia.
    + destruct (IH _ H) as (a & r & -> & D & M). exists (c :: a), r. split; [auto|]. split; [auto|]. intros a' d' r' E' D'.
      destruct a' as [|x a']; [exfalso|].
      * assert (T : tag_here p (c :: a ++ p ++ d ++ "_"%char :: r) = Some d') by (apply tag_here_spec; eauto). congruence.
      * injection E' as _ E'. cbn. apply M in E'; auto. lia.
Qed.
Lemma tag_search_none p : forall l, tag_search p l = None <-> ~ exists a d r, l = a ++ p ++ d ++ "_"%char :: r /\ digit_text d.
Proof.
  induction l as [|c l IH]; cbn [tag_search].
  - destruct (tag_here p []) as [d0|] eqn:E.
    + split; [discriminate|]. intros H. apply tag_here_spec in E as [D (r & E)]. destruct H. exists [], d0, r. auto.
    + split; [|auto]. intros _ (a & d & r & E' & D). destruct a; [|discriminate]. assert (tag_here p [] = Some d) by (apply tag_here_spec; eauto). congruence.
  - destruct (tag_here p (c :: l)) as [d0|] eqn:E.
    + split; [discriminate|]. intros H. apply tag_here_spec in E as [D (r & E)]. destruct H. exists [], d0, r. auto.
    + rewrite IH. split; intros H (a & d & r & E' & D); destruct H.
      * destruct a as [|x a]; [|injection E' as _ E'; eauto]. assert (tag_here p (c :: l) = Some d) by (apply tag_here_spec; eauto). congruence.
      * exists (c :: a), d, r. rewrite E'. auto.
Qed.
Lemma tag_search_iff p l d : tag_search p l = Some d <-> leftmost p l d.
Proof.
  split; [apply tag_search_some|]. intros (a & r & E & D & M). destruct (tag_search p l) as [d'|] eqn:T.
  - apply tag_search_some in T as (a' & r' & E' & D' & M'). f_equal.
    assert (L : List.length a = List.length a') by (apply Nat.le_antisymm; eauto).
    assert (X : skipn (List.length a) l = p ++ d ++ "_"%char :: r). { rewrite E, skipn_app, skipn_all, Nat.sub_diag. reflexivity. }
    assert (X' : skipn (List.length a) l = p ++ d' ++ "_"%char :: r'). { rewrite L, E', skipn_app, skipn_all, Nat.sub_diag. reflexivity. }
    assert (T1 : tag_here p (skipn (List.length a) l) = Some d) by (apply tag_here_spec; eauto).
    assert (T2 : tag_here p (skipn (List.length a) l) = Some d') by (apply tag_here_spec; eauto). congruence.
  - apply tag_search_none in T. destruct T. eauto.
Qed.
