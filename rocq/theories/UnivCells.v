(** The cells of a first call: proofs. *)
From Coq Require Import FinFun.
From Verif Require Import Prelude Univ UnivSpec UnivProofs UnivLike UnivSub.

(** ** a geometry as read *)
Definition wrap (us : list (Z * cells)) : list (Z * list (Z * entry)) := map (fun p => (fst p, map (fun q => (fst q, ECard (snd q))) (snd p))) us.
Definition fresh (g : geometry) (cs : list cell) (r : Z) : Prop :=
  NoDup (map c_name cs) /\ g_universes g = wrap (group cs) /\ nth 0 (g_levels g) [] = [r] /\
  exists s, structure_of cs = Ok s /\ g_levels g = l_levels s.
Lemma unwrap us : map (fun p => (fst p, map (fun q => (fst q, cell_of (snd q))) (snd p))) (wrap us) = us.
Proof. unfold wrap. rewrite map_map. rewrite <- (map_id us) at 2. apply map_ext. intros [u m]. cbn. f_equal. rewrite map_map. rewrite <- (map_id m) at 2. apply map_ext. intros [n c]. reflexivity. Qed.
Lemma wrap_keys us : map fst (wrap us) = map fst us.
Proof. unfold wrap. rewrite map_map. reflexivity. Qed.
Lemma wrap_get us u : zget u (wrap us) = match zget u us with Some m => Some (map (fun q => (fst q, ECard (snd q))) m) | None => None end.
Proof. induction us as [|[k m] us IH]; cbn; auto. destruct (k =? u); auto. Qed.

(** ** the universes kept *)
Lemma skipn_add {A} (a b : nat) (l : list A) : skipn a (skipn b l) = skipn (a + b) l.
Proof. revert l. induction b as [|b IH]; intros l; [rewrite Nat.add_0_r; auto|]. rewrite Nat.add_succ_r. destruct l as [|x l]; cbn [skipn]; [apply skipn_nil|auto]. Qed.
Lemma slice_in (ls : list (list Z)) a b v : In v (concat (firstn (b - a) (skipn a ls))) <-> exists k, (a <= k < b)%nat /\ In v (nth k ls []).
Proof.
  rewrite in_concat. split.
  - intros (l & I & Iv). apply (In_nth _ _ []) in I. destruct I as (i & L & E). rewrite firstn_length, skipn_length in L. exists (a + i)%nat. split; [lia|].
    assert (X : nth i (firstn (b - a) (skipn a ls)) [] = nth (a + i) ls []). { clear -L. assert (L' : (i < b - a)%nat) by lia. revert L'. generalize (b - a)%nat as n. clear L. intros n L.
      revert i n L. induction a as [|a IH] in ls |- *; intros i n L.
      - cbn [skipn]. revert ls n L. induction i as [|i IH]; intros [|x ls] [|n] L; cbn; try lia; auto. apply IH. lia.
      - destruct ls as [|x ls]; [cbn; destruct n; cbn; destruct i; auto|]. cbn [skipn]. rewrite IH by auto. reflexivity. }
    rewrite <- X, E. auto.
  - intros (k & L & Iv). exists (nth k ls []). split; auto.
    assert (LK : (k < List.length ls)%nat). { destruct (Nat.lt_ge_cases k (List.length ls)) as [H|H]; auto. rewrite nth_overflow in Iv by auto. destruct Iv. }
    assert (E : firstn (b - a) (skipn a ls) = firstn (k - a) (skipn a ls) ++ nth k ls [] :: firstn (b - k - 1) (skipn (S k) ls)).
    { assert (E1 : skipn a ls = firstn (k - a) (skipn a ls) ++ nth k ls [] :: skipn (S k) ls).
      { rewrite <- (firstn_skipn (k - a) (skipn a ls)) at 1. f_equal. rewrite skipn_add. replace (k - a + a)%nat with k by lia. clear -LK. revert ls LK. induction k as [|k IH]; intros [|x ls] L; cbn in *; try lia; auto. apply IH. lia. }
      rewrite E1 at 1. rewrite firstn_app. rewrite firstn_firstn, firstn_length, skipn_length. replace (Nat.min (b - a) (k - a)) with (k - a)%nat by lia.
      replace (b - a - Nat.min (k - a) (List.length ls - a))%nat with (S (b - k - 1)) by lia. cbn [firstn]. reflexivity. }
    rewrite E. apply in_or_app. right. left. auto.
Qed.
Definition max_level (g : geometry) (lev : nat) (depth : Z) : Z :=
  let top := Z.of_nat (List.length (g_levels g)) - 1 in if depth =? -1 then top else Z.min (Z.of_nat lev + depth) top.
Lemma find_first ls u : match find (fun p => mem u (snd p)) (combine (seq 0 (List.length ls)) ls) with Some (n, _) => first_level ls u = Some n | None => first_level ls u = None end.
Proof. unfold first_level. destruct (find _ _) as [[n l]|]; auto. Qed.
Lemma keys_spec g cs r u depth fuel keys : fresh g cs r -> g_xml g = false -> depth <> 0 -> universe_keys g u depth fuel = Ok keys ->
  NoDup keys /\ exists lev, depth_of cs r lev u /\ forall v, In v keys <->
    universe cs v /\ (v = u \/ inside cs u v) /\ exists k, (lev <= k)%nat /\ Z.of_nat k <= max_level g lev depth /\ In v (nth k (g_levels g) []).
Proof.
  intros (ND & GU & R0 & s & SO & GL) X D. unfold universe_keys. replace (depth =? 0) with false by lia. rewrite GU, unwrap, wrap_keys, X. intros E.
  destruct (sub_universes fuel (group cs) u) as [subs| |] eqn:SU; try discriminate. cbn [bind] in E. destruct (sub_sound cs ND _ _ _ SU) as (_ & SS & _).
  assert (FF := find_first (g_levels g) u). destruct (find _ _) as [[lev l]|]; [|discriminate]. assert (FL := first_level_spec cs s r SO ltac:(congruence) u). rewrite <- GL, FF in FL.
  injection E as <-. split; [apply NoDup_filter, group_nodup|]. exists lev. split; [tauto|]. intros v. rewrite filter_In, group_keys, andb_true_iff, orb_true_iff, Z.eqb_eq, !mem_in, SS, slice_in. fold (max_level g lev depth).
  split.
  - intros (U & H & k & L & I). split; auto. split; [intuition|]. exists k. split; [lia|]. split; [lia|auto].
  - intros (U & H & k & L1 & L2 & I). split; auto. split; [intuition|]. exists k. split; [lia|auto].
Qed.
Lemma keys_total g cs r u depth fuel : fresh g cs r -> depth <> 0 -> (List.length cs < fuel)%nat -> acyclic cs u -> closed cs u -> (exists n, path cs r n u) -> exists keys, universe_keys g u depth fuel = Ok keys.
Proof.
  intros (ND & GU & R0 & s & SO & GL) D L A C [n P]. unfold universe_keys. replace (depth =? 0) with false by lia. rewrite GU, unwrap, wrap_keys.
  destruct (proj1 (sub_exact cs ND fuel u L) (conj A C)) as [subs ->]. cbn [bind].
  assert (FF := find_first (g_levels g) u). assert (FL := first_level_spec cs s r SO ltac:(congruence) u). destruct (find _ _) as [[lev l]|]; [eauto|]. exfalso. rewrite <- GL, FF in FL. exact (FL n P).
Qed.

(** ** the cells selected *)
Definition sel (mat cel : filter_t) (c : cell) : bool := match is_selected mat cel c with Ok true => true | _ => false end.
Lemma select_mcnp mat cel (m : cells) names : select false mat cel (map (fun q => (fst q, ECard (snd q))) m) = Ok names ->
  names = map fst (filter (fun p => sel mat cel (snd p)) m).
Proof.
  unfold select. cbn [andb]. intros E. destruct (mapM _ _) as [bs| |] eqn:M; try discriminate. cbn [bind] in E. injection E as <-. revert bs M.
  induction m as [|[n c] m IH]; cbn; intros bs M; [injection M as <-; auto|]. unfold sel at 1. destruct (is_selected mat cel c) as [b| |]; cbn in M; try discriminate.
  destruct (mapM _ _) as [bs'| |]; cbn in M; try discriminate. injection M as <-. cbn. specialize (IH _ eq_refl). destruct b; cbn; [f_equal|]; auto.
Qed.
Definition numbered (surfaces : list (Z * Z)) (p q : Z * cell) : Prop :=
  fst q = fst p /\ exists l, snd q = set_surfs (snd p) l /\ Forall2 (fun s n => zget s surfaces = Some n) (c_surfs (snd p)) l.
Lemma mapM_forall2 {A B} (f : A -> res B) l r : mapM f l = Ok r -> Forall2 (fun x y => f x = Ok y) l r.
Proof. revert r. induction l as [|x l IH]; cbn; intros r E; [injection E as <-; constructor|]. destruct (f x) eqn:F; cbn in E; try discriminate. destruct (mapM f l) eqn:M; cbn in E; try discriminate. injection E as <-. constructor; auto. Qed.
Lemma forall2_mapM {A B} (f : A -> res B) l r : Forall2 (fun x y => f x = Ok y) l r -> mapM f l = Ok r.
Proof. intros H. induction H as [|x y l r E H IH]; cbn; auto. rewrite E. cbn. rewrite IH. auto. Qed.
Lemma key_ok {A} n (d : list (Z * A)) v : key n d = Ok v <-> zget n d = Some v.
Proof. unfold key. destruct (zget n d); split; intros H; try discriminate; injection H as ->; auto. Qed.
Lemma forall2_imp {A B} (P Q : A -> B -> Prop) l r : (forall x y, P x y -> Q x y) -> Forall2 P l r -> Forall2 Q l r.
Proof. intros H F. induction F; constructor; auto. Qed.
Lemma forall2_in {A B} (P : A -> B -> Prop) l r : Forall2 P l r -> Forall2 (fun x y => In x l /\ P x y) l r.
Proof. intros F. induction F as [|x y l r H F IH]; constructor; [split; [left; auto|auto]|]. eapply forall2_imp; [|exact IH]. intros a b [I K]. split; [right; auto|auto]. Qed.
Lemma filter_spec g cs r mat cel u m : fresh g cs r -> g_xml g = false -> filter_universe g mat cel u = Ok m ->
  universe cs u /\ Forall2 (numbered (g_surfaces g)) (filter (fun p => sel mat cel (snd p)) (members cs u)) m.
Proof.
  intros (ND & GU & _) X. unfold filter_universe, key. rewrite GU, wrap_get, X. destruct (universe_dec cs u) as [U|U]; [|rewrite get_none by auto; discriminate]. rewrite get_universe by auto. cbn [bind].
  intros E. destruct (select _ _ _ _) as [names| |] eqn:SE; try discriminate. cbn [bind] in E. apply select_mcnp in SE. subst names. split; auto.
  assert (NM : NoDup (map fst (members cs u))). { rewrite members_keys. clear -ND. induction cs as [|c l IH]; cbn; [constructor|]. cbn in ND. inversion ND as [|? ? N1 N2]; subst. destruct (_ =? _); cbn; auto. constructor; auto. intros I. apply N1. apply in_map_iff in I. destruct I as (x & E & I). apply filter_In in I. rewrite <- E. apply in_map. tauto. }
  apply mapM_forall2 in E. revert m E. assert (SUB : forall p, In p (filter (fun p => sel mat cel (snd p)) (members cs u)) -> In p (members cs u)) by (intros p I; apply filter_In in I; tauto).
  induction (filter (fun p => sel mat cel (snd p)) (members cs u)) as [|[n c] l IH]; cbn [map]; intros m E; inversion E as [|? [k x] ? ? H1 H2]; subst; constructor.
  - cbn [fst snd] in *. assert (G : zget n (map (fun q => (fst q, ECard (snd q))) (members cs u)) = Some (ECard c)).
    { apply zget_nodup; [rewrite map_map; exact NM|]. apply in_map_iff. exists (n, c). split; auto. apply SUB. left; auto. }
    rewrite G in H1. cbn [bind process_surfaces] in H1. destruct (mapM _ (c_surfs c)) as [l0| |] eqn:M; try discriminate. cbn [bind] in H1. injection H1 as <- <-. split; auto. exists l0. split; auto.
    apply mapM_forall2 in M. eapply forall2_imp; [|exact M]. intros a b. apply key_ok.
  - apply IH; auto. intros p I. apply SUB. right; auto.
Qed.

(** ** LIKE and TRCL *)
Definition agree (m : cells) : Prop := forall n c k l, In (n, c) m -> In (k, l) m -> c_like c = Some k -> c_surfs c = c_surfs l.
Lemma like_loop_same todo : forall done m, agree (done ++ todo) -> like_loop done todo = Ok m -> m = done ++ todo.
Proof.
  induction todo as [|[n c] todo IH]; intros done m A E; cbn [like_loop] in E; [injection E as <-; rewrite app_nil_r; auto|].
  assert (X : exists c', (if truthy (c_like c) then do l <- key (val (c_like c)) (done ++ (n, c) :: todo); Ok (set_surfs c (c_surfs l)) else Ok c) = Ok c' /\ c' = c).
  { destruct (truthy (c_like c)) eqn:T; [|eauto]. apply truthy_some in T. destruct T as (k & L & _). rewrite L in *. cbn [val] in *. destruct (key k (done ++ (n, c) :: todo)) as [l| |] eqn:K; try discriminate. cbn [bind]. eexists. split; [reflexivity|].
    apply key_ok, zget_in in K. assert (EQ : c_surfs c = c_surfs l). { apply (A n c k l); auto. apply in_or_app. right. left. auto. } unfold set_surfs. rewrite <- EQ. destruct c; reflexivity. }
  destruct X as (c' & X & ->). rewrite X in E. cbn [bind] in E. apply IH in E; rewrite <- app_assoc in *; cbn [app] in *; auto.
Qed.
Definition count (ss : sdict) (n : Z) : Prop := (forall k, In k (map fst ss) <-> 1 <= k <= n) /\ NoDup (map fst ss) /\ 0 <= n.
Lemma count_len ss n : count ss n -> Z.of_nat (List.length ss) = n.
Proof.
  intros (K & ND & N). rewrite <- (map_length fst).
  assert (E : forall k, In k (map fst ss) <-> In k (map Z.of_nat (seq 1 (Z.to_nat n)))).
  { intros k. rewrite K, in_map_iff. split; [intros H; exists (Z.to_nat k); split; [lia|apply in_seq; lia]|intros (i & <- & I); apply in_seq in I; lia]. }
  assert (N2 : NoDup (map Z.of_nat (seq 1 (Z.to_nat n)))) by (apply FinFun.Injective_map_NoDup; [intros a b; lia|apply seq_NoDup]).
  assert (L1 := NoDup_incl_length ND (fun k I => proj1 (E k) I)). assert (L2 := NoDup_incl_length N2 (fun k I => proj2 (E k) I)). rewrite !map_length, seq_length in *. lia.
Qed.
Lemma count_add ss n v : count ss n -> count (zput (n + 1) v ss) (n + 1) /\ (forall k x, zget k ss = Some x -> zget k (zput (n + 1) v ss) = Some x).
Proof.
  intros (K & ND & N). split.
  - split; [|split; [apply zput_nodup; auto|lia]]. intros k. rewrite zput_keys. assert (M : mem (n + 1) (map fst ss) = false) by (apply mem_out; rewrite K; lia). rewrite M, in_app_iff, K. cbn. lia.
  - intros k x G. rewrite zput_other; auto. apply zget_in, (in_map fst), K in G. cbn in G. lia.
Qed.
Definition extends (ss ss' : sdict) : Prop := forall k x, zget k ss = Some x -> zget k ss' = Some x.
Lemma move_spec t todo : forall dict n ss dict' n' ss', count ss n -> NoDup todo -> (forall s, In s todo -> 1 <= s <= n) -> move_loop t todo dict n ss = Ok (dict', n', ss') ->
  count ss' n' /\ n <= n' /\ extends ss ss' /\ (forall s, ~ In s todo -> zget s dict' = zget s dict) /\
  forall s, In s todo -> exists k x, zget s dict' = Some k /\ 1 <= k <= n' /\ zget s ss = Some x /\ zget k ss' = Some (Surf (s_label x) (s_moves x ++ [t])).
Proof.
  induction todo as [|s todo IH]; intros dict n ss dict' n' ss' C ND R E; cbn [move_loop] in E.
  - injection E as <- <- <-. split; auto. split; [lia|]. split; [intros k x H; exact H|]. split; auto. intros s [].
  - inversion ND as [|? ? N1 N2]; subst. destruct (key s ss) as [x| |] eqn:K; try discriminate. cbn [bind] in E. apply key_ok in K.
    destruct (count_add ss n (Surf (s_label x) (s_moves x ++ [t])) C) as [C' X']. assert (R' : forall k, In k todo -> 1 <= k <= n + 1) by (intros k I; specialize (R k (or_intror I)); lia).
    destruct (IH _ _ _ _ _ _ C' N2 R' E) as (C2 & L2 & X2 & O2 & S2). split; auto. split; [lia|]. split; [intros k y G; apply X2, X'; auto|]. split.
    + intros k NI. rewrite O2 by (intros I; apply NI; right; auto). apply zput_other. intros ->. apply NI. left; auto.
    + intros k [<- |I].
      * exists (n + 1), x. rewrite O2 by auto. rewrite zput_same. split; auto. destruct C as (_ & _ & C0). split; [lia|]. split; auto. apply X2. apply zput_same.
      * destruct (S2 k I) as (j & y & G1 & G0 & G2 & G3). rewrite zput_other in G2 by (specialize (R k (or_intror I)); lia). exists j, y. auto.
Qed.
Lemma move_total t todo : forall dict n ss, count ss n -> (forall s, In s todo -> 1 <= s <= n) -> exists x, move_loop t todo dict n ss = Ok x.
Proof.
  induction todo as [|s todo IH]; intros dict n ss C R; cbn [move_loop]; [eauto|]. destruct (zget s ss) as [x|] eqn:G.
  - rewrite (proj2 (key_ok s ss x)) by auto. cbn [bind]. apply IH; [apply count_add; auto|]. intros k I. specialize (R k (or_intror I)). lia.
  - exfalso. apply zget_none in G. apply G. apply C. apply R. left; auto.
Qed.
(** a cell [q] made of [p]: what its surfaces are *)
Definition moved (ss ss' : sdict) (p q : Z * cell) : Prop :=
  fst q = fst p /\ c_fill (snd q) = c_fill (snd p) /\ c_mat (snd q) = c_mat (snd p) /\ c_u (snd q) = c_u (snd p) /\ c_name (snd q) = c_name (snd p) /\
  c_trcl (snd q) = (if truthy (c_trcl (snd p)) then None else c_trcl (snd p)) /\
  c_tr (snd q) = (if truthy (c_trcl (snd p)) && truthy (c_fill (snd p)) then c_trcl (snd p) else c_tr (snd p)) /\
  Forall2 (fun s s' => exists x, zget s ss = Some x /\ zget s' ss' = Some (if truthy (c_trcl (snd p)) then Surf (s_label x) (s_moves x ++ [val (c_trcl (snd p))]) else x)) (c_surfs (snd p)) (c_surfs (snd q)).
Lemma moved_mono ss0 ss1 ss ss' p q : extends ss0 ss1 -> extends ss ss' -> moved ss0 ss p q -> moved ss1 ss' p q.
Proof.
  intros X0 X (A & B & C & D & E & F & G & H). repeat (split; [assumption|]). eapply forall2_imp; [|exact H]. intros s s' (x & G1 & G2). exists x. auto.
Qed.
Lemma extends_refl ss : extends ss ss.
Proof. intros k x H. exact H. Qed.
Lemma extends_trans a b c : extends a b -> extends b c -> extends a c.
Proof. intros H K k x G. apply K, H, G. Qed.
Lemma count_get ss n s : count ss n -> 1 <= s <= n -> exists x, zget s ss = Some x.
Proof. intros C R. destruct (zget s ss) eqn:G; eauto. exfalso. apply zget_none in G. apply G. apply C. auto. Qed.
Definition in_range (n : Z) (m : cells) : Prop := forall k c s, In (k, c) m -> In s (c_surfs c) -> 1 <= s <= n.
Lemma trcl_spec n0 ss0 todo : count ss0 n0 -> in_range n0 todo -> forall done n ss, count ss n -> n0 <= n -> extends ss0 ss ->
  exists r ss', trcl_loop done todo n ss = Ok (done ++ r, ss') /\ extends ss ss' /\ (exists n', count ss' n' /\ n <= n') /\ Forall2 (moved ss0 ss') todo r.
Proof.
  intros C0. induction todo as [|[k c] todo IH]; intros RG done n ss C LE X; cbn [trcl_loop].
  - exists [], ss. rewrite app_nil_r. split; auto. split; [apply extends_refl|]. split; [exists n; split; [auto|lia]|constructor].
  - assert (RG' : in_range n0 todo) by (intros k' c' s I; apply (RG k' c' s); right; auto). destruct (truthy (c_trcl c)) eqn:T.
    + assert (RC : forall s, In s (nodup Z.eq_dec (c_surfs c)) -> 1 <= s <= n0) by (intros s I; apply nodup_In in I; apply (RG k c s); [left; auto|auto]).
      destruct (move_total (val (c_trcl c)) (nodup Z.eq_dec (c_surfs c)) [] n ss C) as [[[dict n1] ss1] E]; [intros s I; specialize (RC s I); lia|]. rewrite E. cbn [bind].
      destruct (move_spec _ _ _ _ _ _ _ _ C (NoDup_nodup _ _) ltac:(intros s I; specialize (RC s I); lia) E) as (C1 & L1 & X1 & _ & S1).
      assert (ML : exists l, mapM (fun s => key s dict) (c_surfs c) = Ok l).
      { apply mapM_total. intros s I. destruct (S1 s) as (j & x & G & _); [apply nodup_In; auto|]. exists j. apply key_ok. auto. }
      destruct ML as [l ML]. rewrite ML. cbn [bind].
      destruct (IH RG' (done ++ [(k, Cell (c_name c) (c_like c) (c_u c) (c_fill c) (c_mat c) (if truthy (c_fill c) then c_trcl c else c_tr c) None l)]) n1 ss1 C1 ltac:(lia) (extends_trans _ _ _ X X1)) as (r & ss' & E' & X' & (n' & C' & L') & F').
      eexists (_ :: r), ss'. rewrite <- app_assoc in E'. cbn [app] in E'. split; [exact E'|]. split; [eapply extends_trans; eauto|]. split; [exists n'; split; [auto|lia]|]. constructor; auto.
      unfold moved. cbn [fst snd c_fill c_mat c_u c_name c_trcl c_tr c_surfs]. rewrite T. cbn [andb]. repeat (split; [reflexivity|]). apply mapM_forall2 in ML.
      eapply forall2_imp; [|exact (forall2_in _ _ _ ML)]. intros s s' [I K]. apply nodup_In with (decA := Z.eq_dec) in I. assert (Rs := RC s I).
      destruct (S1 s I) as (j & x & G1 & _ & G2 & G3). apply key_ok in K. rewrite G1 in K. injection K as ->. destruct (count_get _ _ _ C0 Rs) as [x0 G0]. assert (x0 = x) by (apply X in G0; congruence). subst x0. exists x. split; auto.
    + destruct (IH RG' (done ++ [(k, c)]) n ss C LE X) as (r & ss' & E' & X' & (n' & C' & L') & F'). exists ((k, c) :: r), ss'. rewrite <- app_assoc in E'. cbn [app] in E'. split; auto. split; auto. split; [exists n'; auto|]. constructor; auto.
      unfold moved. cbn [fst snd]. rewrite T. cbn [andb]. repeat (split; [reflexivity|]).
      assert (SB : forall s, In s (c_surfs c) -> 1 <= s <= n0) by (intros s I; apply (RG k c s); [left; auto|auto]). revert SB. generalize (c_surfs c). intros l SB. induction l as [|s l IHl]; constructor; [|apply IHl; intros; apply SB; right; auto].
      destruct (count_get _ _ _ C0 (SB s (or_introl eq_refl))) as [x G]. exists x. split; auto.
Qed.
Lemma like_loop_total todo : forall done, agree (done ++ todo) -> (forall n c, In (n, c) todo -> truthy (c_like c) = true -> In (val (c_like c)) (map fst (done ++ todo))) ->
  like_loop done todo = Ok (done ++ todo).
Proof.
  induction todo as [|[n c] todo IH]; intros done A B; [cbn; rewrite app_nil_r; auto|]. assert (X : exists m, like_loop done ((n, c) :: todo) = Ok m); [|destruct X as [m X]; rewrite X; f_equal; exact (like_loop_same _ _ _ A X)].
  cbn [like_loop].
  assert (X : (if truthy (c_like c) then do l <- key (val (c_like c)) (done ++ (n, c) :: todo); Ok (set_surfs c (c_surfs l)) else Ok c) = Ok c).
  { destruct (truthy (c_like c)) eqn:T; auto. assert (I := B n c (or_introl eq_refl) T). destruct (zget (val (c_like c)) (done ++ (n, c) :: todo)) as [l|] eqn:G; [|apply zget_none in G; destruct (G I)].
    rewrite (proj2 (key_ok _ _ _) G). cbn [bind]. f_equal. apply zget_in in G. apply truthy_some in T. destruct T as (k & L & _). rewrite L in G. cbn [val] in G. assert (EQ : c_surfs c = c_surfs l) by (apply (A n c k l); auto; apply in_or_app; right; left; auto). rewrite <- EQ. destruct c; reflexivity. }
  rewrite X. cbn [bind]. exists ((done ++ [(n, c)]) ++ todo). apply IH; rewrite <- app_assoc; cbn [app]; auto. intros n' c' I. apply (B n' c'). right; auto.
Qed.
(** ** surfaces by number *)
Definition numbering (s : list (Z * Z)) : Prop :=
  exists n, count (by_number s) n /\ forall lab i, zget lab s = Some i -> 1 <= i <= n /\ zget i (by_number s) = Some (Surf lab []).
Lemma by_number_map s : NoDup (map snd s) -> by_number s = map (fun p => (snd p, Surf (fst p) [])) s.
Proof.
  unfold by_number. induction s as [|p s IH] using rev_ind; intros ND; auto. rewrite map_app in ND. cbn in ND. rewrite fold_left_app. cbn [fold_left]. rewrite IH by (apply (nodup_app_l _ _ ND)).
  rewrite zput_new; [rewrite map_app; auto|]. rewrite map_map. cbn [fst]. apply (nodup_app_last _ _ ND).
Qed.
Lemma number_from_spec l : (forall p, In p l -> snd p = true) -> forall k, map fst (number_from k l) = map fst l /\ map snd (number_from k l) = map (fun i => k + Z.of_nat i) (seq 0 (List.length l)).
Proof.
  induction l as [|[lab b] l IH]; intros H k; auto. cbn [number_from]. assert (b = true) by (apply (H (lab, b)); left; auto). subst b. destruct (IH (fun p I => H p (or_intror I)) (k + 1)) as [E1 E2]. cbn [map fst snd List.length seq]. rewrite E1, E2. split; auto.
  f_equal; [lia|]. rewrite <- seq_shift, map_map. apply map_ext. intros i. lia.
Qed.
Lemma numbering_ok l : (forall p, In p l -> snd p = true) -> NoDup (map fst l) -> numbering (number_from 1 l).
Proof.
  intros K ND. destruct (number_from_spec l K 1) as [E1 E2]. assert (NS : NoDup (map snd (number_from 1 l))).
  { rewrite E2. apply Injective_map_NoDup; [intros a b; lia|apply seq_NoDup]. }
  exists (Z.of_nat (List.length l)). rewrite by_number_map by auto.
  assert (KY : map fst (map (fun p : Z * Z => (snd p, Surf (fst p) [])) (number_from 1 l)) = map snd (number_from 1 l)) by (rewrite map_map; auto).
  split; [split; [|split; [rewrite KY; auto|lia]]|].
  - intros k. rewrite KY, E2, in_map_iff. split; [intros (i & <- & I); apply in_seq in I; lia|]. intros R. exists (Z.to_nat (k - 1)). split; [lia|apply in_seq; lia].
  - intros lab i G. apply zget_in in G. split.
    + apply (in_map snd) in G. rewrite E2 in G. apply in_map_iff in G. destruct G as (j & E & I); cbn [snd] in E. apply in_seq in I. lia.
    + apply zget_nodup; [rewrite KY; auto|]. apply in_map_iff. exists (lab, i). auto.
Qed.

(** ** the whole call *)
Lemma forall2_comp {A B C} (P : A -> B -> Prop) (Q : B -> C -> Prop) (R : A -> C -> Prop) l m r : (forall x y z, P x y -> Q y z -> R x z) -> Forall2 P l m -> Forall2 Q m r -> Forall2 R l r.
Proof. intros H F. revert r. induction F; intros r G; inversion G; subst; constructor; eauto. Qed.
Lemma forall2_in_r {A B} (P : A -> B -> Prop) l r : Forall2 P l r -> forall y, In y r -> exists x, In x l /\ P x y.
Proof. intros F. induction F as [|x y l r H F IH]; [intros z []|]; intros z [<- |I]; [exists x; cbn; auto|]. destruct (IH z I) as (w & ? & ?). exists w. cbn. auto. Qed.
Lemma forall2_in_l {A B} (P : A -> B -> Prop) l r : Forall2 P l r -> forall x, In x l -> exists y, In y r /\ P x y.
Proof. intros F. induction F as [|x y l r H F IH]; [intros z []|]; intros z [<- |I]; [exists y; cbn; auto|]. destruct (IH z I) as (w & ? & ?). exists w. cbn. auto. Qed.
Lemma forall2_fun {A B} (P : A -> B -> Prop) l r r' : (forall x y y', P x y -> P x y' -> y = y') -> Forall2 P l r -> Forall2 P l r' -> r = r'.
Proof. intros H F. revert r'. induction F; intros r' G; inversion G; subst; auto. f_equal; eauto. Qed.
Definition keep (mat cel : filter_t) (cs : list cell) (u : Z) : cells := filter (fun p => sel mat cel (snd p)) (members cs u).
Lemma keep_in mat cel cs u n c : In (n, c) (keep mat cel cs u) <-> In c cs /\ val (c_u c) = u /\ n = c_name c /\ sel mat cel c = true.
Proof. unfold keep. rewrite filter_In, members_in. cbn. tauto. Qed.
Lemma numbered_agree mat cel cs u s m : texts_agree cs -> NoDup (map c_name cs) -> Forall2 (numbered s) (keep mat cel cs u) m -> agree m.
Proof.
  intros T ND F n c k l I J L. destruct (forall2_in_r _ _ _ F _ I) as ([n1 c1] & I1 & E1 & l1 & F1 & N1). destruct (forall2_in_r _ _ _ F _ J) as ([n2 c2] & I2 & E2 & l2 & F2 & N2). cbn [fst snd] in *. subst.
  apply keep_in in I1, I2. destruct I1 as (I1 & _ & _), I2 as (I2 & _ & -> & _). cbn [set_surfs c_like c_surfs] in *. assert (E := T c1 c2 I1 I2 L). rewrite E in N1. eapply (forall2_fun _ _ _ _ _ N1 N2). Unshelve. intros; congruence.
Qed.
Lemma numbered_range mat cel cs u s n m : (forall lab i, zget lab s = Some i -> 1 <= i <= n) -> Forall2 (numbered s) (keep mat cel cs u) m -> in_range n m.
Proof.
  intros R F k c x I J. destruct (forall2_in_r _ _ _ F _ I) as ([n1 c1] & I1 & E1 & l1 & F1 & N1). cbn [fst snd] in *. subst. cbn [set_surfs c_surfs] in J. destruct (forall2_in_r _ _ _ N1 _ J) as (lab & _ & G). eapply R; eauto.
Qed.
Lemma trcl_ok c : c_trcl c <> Some 0 -> truthy (c_trcl c) = match c_trcl c with Some _ => true | None => false end.
Proof. destruct (c_trcl c) as [t|]; cbn; auto. intros N. destruct (t =? 0) eqn:E; auto. exfalso. apply N. f_equal. lia. Qed.
Lemma made_mono ss ss' p q : extends ss ss' -> made_of ss p q -> made_of ss' p q.
Proof. intros X (A & B & C & D & E & K & F). repeat (split; [assumption|]). eapply forall2_imp; [|exact F]. auto. Qed.
Definition has_tr (cs : list cell) : Prop := forall c, In c cs -> c_trcl c <> Some 0.
Lemma numbered_moved s cs mat cel u ss ss' m r : has_tr cs -> (forall lab i, zget lab s = Some i -> zget i ss = Some (Surf lab [])) ->
  Forall2 (numbered s) (keep mat cel cs u) m -> Forall2 (moved ss ss') m r -> Forall2 (made_of ss') (keep mat cel cs u) r.
Proof.
  intros T R F G. eapply forall2_comp; [|exact (forall2_in _ _ _ F)|exact G]. intros [n c] [k c1] [j c2] [I (E1 & l & E2 & N)] (M1 & M2 & M3 & M4 & M5 & _ & M7 & M6). cbn [fst snd] in *. subst c1 k j.
  cbn [set_surfs c_fill c_mat c_u c_name c_trcl c_tr c_surfs] in *. unfold made_of. cbn [fst snd]. repeat (split; [auto; fail|]). apply keep_in in I. rewrite (trcl_ok c) in M7 by (apply T; tauto).
  split. { intros f Ff NZ _. rewrite M7, Ff. cbn [truthy]. replace (negb (f =? 0)) with true by lia. destruct (c_trcl c); reflexivity. } rewrite (trcl_ok c) in M6 by (apply T; tauto).
  eapply forall2_comp; [|exact N|exact M6]. intros lab i j G1 (x & G2 & G3). rewrite (R _ _ G1) in G2. injection G2 as <-. cbn in G3. destruct (c_trcl c); exact G3.
Qed.
Lemma like_all_spec cs mat cel s n ss0 : texts_agree cs -> NoDup (map c_name cs) -> has_tr cs ->
  count ss0 n -> (forall lab i, zget lab s = Some i -> 1 <= i <= n /\ zget i ss0 = Some (Surf lab [])) ->
  forall fc ss n1 fc' ss', count ss n1 -> extends ss0 ss -> n <= n1 -> Forall (fun p => Forall2 (numbered s) (keep mat cel cs (fst p)) (snd p)) fc ->
  like_all false fc ss = Ok (fc', ss') ->
  extends ss ss' /\ Forall2 (fun p q => fst q = fst p /\ Forall2 (made_of ss') (keep mat cel cs (fst p)) (snd q)) fc fc'.
Proof.
  intros T ND HT C0 R fc. induction fc as [|[u m] fc IH]; intros ss n1 fc' ss' C X LE F E; cbn [like_all] in E; [injection E as <- <-; split; [apply extends_refl|constructor]|].
  inversion F as [|? ? F1 F2]; subst. cbn [fst snd] in F1. unfold substitute_like in E. destruct (like_loop [] m) as [m1| |] eqn:L; try discriminate. cbn [bind] in E.
  apply like_loop_same in L; [|cbn; eapply numbered_agree; eauto]. cbn in L. subst m1. rewrite (count_len _ _ C) in E.
  destruct (trcl_spec n ss0 m C0 (numbered_range _ _ _ _ _ _ _ (fun a b h => proj1 (R a b h)) F1) [] n1 ss C LE X) as (r & ss1 & E1 & X1 & (n2 & C2 & L2) & M1). rewrite E1 in E. cbn [bind app] in E.
  destruct (like_all false fc ss1) as [[r' ss2]| |] eqn:E2; try discriminate. cbn [bind] in E. injection E as <- <-.
  destruct (IH _ _ _ _ C2 (extends_trans _ _ _ X X1) ltac:(lia) F2 E2) as (X2 & F3). split; [eapply extends_trans; eauto|]. constructor; auto. cbn [fst snd]. split; auto.
  eapply forall2_imp; [intros p q; apply made_mono; exact X2|]. eapply numbered_moved; eauto. intros lab i G. apply R. auto.
Qed.
Lemma like_all_total cs mat cel s n ss0 : texts_agree cs -> NoDup (map c_name cs) ->
  count ss0 n -> (forall lab i, zget lab s = Some i -> 1 <= i <= n) ->
  forall fc ss n1, count ss n1 -> extends ss0 ss -> n <= n1 -> Forall (fun p => Forall2 (numbered s) (keep mat cel cs (fst p)) (snd p)) fc ->
  (forall c, In c cs -> sel mat cel c = true -> truthy (c_like c) = true -> exists b, In b cs /\ c_name b = val (c_like c) /\ val (c_u b) = val (c_u c) /\ sel mat cel b = true) ->
  exists x, like_all false fc ss = Ok x.
Proof.
  intros T ND C0 R fc. induction fc as [|[u m] fc IH]; intros ss n1 C X LE F H; cbn [like_all]; [eauto|]. inversion F as [|? ? F1 F2]; subst. cbn [fst snd] in F1. unfold substitute_like.
  rewrite (like_loop_total m []); cbn [app bind].
  - rewrite (count_len _ _ C). destruct (trcl_spec n ss0 m C0 (numbered_range _ _ _ _ _ _ _ R F1) [] n1 ss C LE X) as (r & ss1 & E1 & X1 & (n2 & C2 & L2) & M1). rewrite E1. cbn [bind].
    destruct (IH ss1 n2 C2 (extends_trans _ _ _ X X1) ltac:(lia) F2 H) as [[r' ss2] E2]. rewrite E2. cbn [bind]. eauto.
  - eapply numbered_agree; eauto.
  - intros k c I L. destruct (forall2_in_r _ _ _ F1 _ I) as ([n0 c0] & I0 & E0 & l & E1 & _). cbn [fst snd] in *. subst. cbn [set_surfs c_like] in *. apply keep_in in I0. destruct I0 as (I0 & U0 & -> & S0).
    destruct (H c0 I0 S0 L) as (b & Ib & Nb & Ub & Sb). rewrite <- Nb. destruct (forall2_in_l _ _ _ F1 (c_name b, b)) as ([k' b'] & Ib' & Eb' & _); [apply keep_in; repeat split; auto; congruence|]. cbn in Eb'. subst k'. apply (in_map fst) in Ib'. auto.
Qed.
Lemma filtered_spec g cs r u depth mat cel fuel g' fc ss : fresh g cs r -> g_xml g = false -> texts_agree cs -> has_tr cs -> numbering (g_surfaces g) ->
  get_filtered g u depth mat cel fuel = Ok (g', fc, ss) ->
  exists keys, universe_keys g u depth fuel = Ok keys /\ map fst fc = keys /\ forall v m, In (v, m) fc -> universe cs v /\ Forall2 (made_of ss) (keep mat cel cs v) m.
Proof.
  intros FR X T HT (n & C & R). unfold get_filtered. rewrite X. destruct (universe_keys g u depth fuel) as [keys| |]; try discriminate. cbn [bind]. intros E. destruct (mapM _ keys) as [f0| |] eqn:M; try discriminate. cbn [bind] in E.
  destruct (like_all _ _ _) as [[f1 s1]| |] eqn:L; try discriminate. cbn [bind] in E. injection E as _ <- <-. apply mapM_forall2 in M.
  assert (F0 : Forall2 (fun v p => fst p = v /\ universe cs v /\ Forall2 (numbered (g_surfaces g)) (keep mat cel cs v) (snd p)) keys f0).
  { eapply forall2_imp; [|exact M]. intros v p E. cbv beta in E. destruct (filter_universe g mat cel v) as [m| |] eqn:FU; try discriminate. cbn [bind] in E. injection E as <-. cbn [fst snd]. split; auto. eapply filter_spec; eauto. }
  assert (F1 : Forall (fun p => Forall2 (numbered (g_surfaces g)) (keep mat cel cs (fst p)) (snd p)) f0). { clear -F0. induction F0 as [|v p k f (<- & _ & H)]; constructor; auto. }
  destruct (like_all_spec cs mat cel (g_surfaces g) n (by_number (g_surfaces g)) T (proj1 FR) HT C R f0 _ n f1 s1 C (extends_refl _) ltac:(lia) F1 L) as (_ & F2).
  exists keys. split; auto. clear -F0 F2. assert (F3 : Forall2 (fun v q => fst q = v /\ universe cs v /\ Forall2 (made_of s1) (keep mat cel cs v) (snd q)) keys f1).
  { eapply forall2_comp; [|exact F0|exact F2]. intros v p q (<- & U & _) (E & M). auto. }
  clear F0 F2. split.
  - induction F3 as [|v q k f (<- & _)]; cbn; f_equal; auto.
  - intros v m I. destruct (forall2_in_r _ _ _ F3 _ I) as (v' & _ & E & U & M). cbn in E, M. subst v'. auto.
Qed.
Lemma filtered_total g cs r u depth mat cel fuel keys : fresh g cs r -> g_xml g = false -> texts_agree cs -> numbering (g_surfaces g) ->
  universe_keys g u depth fuel = Ok keys -> (forall v, In v keys -> universe cs v) ->
  (forall c, In c cs -> exists b, is_selected mat cel c = Ok b) ->
  (forall c s, In c cs -> In s (c_surfs c) -> In s (map fst (g_surfaces g))) ->
  (forall c, In c cs -> sel mat cel c = true -> truthy (c_like c) = true -> exists b, In b cs /\ c_name b = val (c_like c) /\ val (c_u b) = val (c_u c) /\ sel mat cel b = true) ->
  exists g' fc ss, get_filtered g u depth mat cel fuel = Ok (g', fc, ss).
Proof.
  intros FR X T (n & C & R) KE KU FS KN HL. unfold get_filtered. rewrite KE, X. cbn [bind].
  assert (FU : forall v, In v keys -> exists m, filter_universe g mat cel v = Ok m).
  { intros v Iv. assert (FR0 := FR). destruct FR as (ND & GU & _). unfold filter_universe, key. rewrite GU, wrap_get, X. rewrite get_universe by auto. cbn [bind]. unfold select. cbn [andb].
    destruct (mapM_total (fun p : Z * entry => do b <- is_selected mat cel (cell_of (snd p)); Ok (fst p, b)) (map (fun q : Z * cell => (fst q, ECard (snd q))) (members cs v))) as [bs EB].
    { intros [k e] I. apply in_map_iff in I. destruct I as ([k' c] & [= <- <-] & I). apply members_in in I. cbn. destruct (FS c) as [b Eb]; [tauto|]. rewrite Eb. cbn. eauto. }
    rewrite EB. cbn [bind]. apply mapM_total. intros k Ik. apply in_map_iff in Ik. destruct Ik as ([k' b] & <- & Ik). apply filter_In in Ik. destruct Ik as [Ik _]. destruct (mapM_ok_in _ _ _ EB _ Ik) as ([k2 e] & I2 & E2). apply in_map_iff in I2. destruct I2 as ([k3 c] & [= <- <-] & I2). cbn in E2.
    destruct (is_selected mat cel c); try discriminate. cbn in E2. injection E2 as <- <-. cbn [fst].
    destruct (zget k3 (map (fun q : Z * cell => (fst q, ECard (snd q))) (members cs v))) as [e|] eqn:G.
    - apply zget_in in G. apply in_map_iff in G. destruct G as ([k4 c4] & [= <- <-] & I4). cbn [bind process_surfaces fst]. apply members_in in I4.
      destruct (mapM_total (fun s => key s (g_surfaces g)) (c_surfs c4)) as [l El]; [|rewrite El; cbn; eauto]. intros s Is. destruct (zget s (g_surfaces g)) as [i|] eqn:G; [exists i; apply key_ok; auto|]. exfalso. apply zget_none in G. apply G. apply (KN c4); tauto.
    - exfalso. apply zget_none in G. apply G. rewrite map_map. cbn. apply (in_map fst) in I2. auto. }
  destruct (mapM_total (fun v => do m <- filter_universe g mat cel v; Ok (v, m)) keys) as [f0 E0]; [intros v I; destruct (FU v I) as [m Em]; rewrite Em; cbn; eauto|]. rewrite E0. cbn [bind].
  destruct (like_all_total cs mat cel (g_surfaces g) n (by_number (g_surfaces g)) T (proj1 FR) C (fun a b h => proj1 (R a b h)) f0 _ n C (extends_refl _) ltac:(lia)) as [[f1 s1] E1]; [|exact HL|rewrite E1; cbn; eauto].
  apply mapM_forall2 in E0. clear -E0 FR X. induction E0 as [|v p k f E E0 IH]; constructor; auto. destruct (filter_universe g mat cel v) as [m| |] eqn:F; try discriminate. cbn in E. injection E as <-. cbn [fst snd]. eapply filter_spec; eauto.
Qed.
