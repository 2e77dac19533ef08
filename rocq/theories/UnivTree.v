(** Reading, and the tree of universes: proofs. *)
From Verif Require Import Prelude Univ UnivSpec UnivProofs UnivLike UnivSub UnivCells.

(** ** reading *)
(** the cells of the cards, their entries found *)
Definition explicit_cells (ex : cells) : list cell := map (fun p => with_u (snd p)) ex.
Lemma done_names cards pre ex : done_ok cards pre ex -> map c_name (explicit_cells ex) = map c_name pre.
Proof. intros D. induction D as [|c [n c'] pre ex [E (N & _)] D IH]; cbn; auto. cbn in N. f_equal; auto. Qed.
Lemma done_in cards ex : done_ok cards cards ex -> forall c', In c' (explicit_cells ex) -> exists c x, In c cards /\ resolved cards c x /\ c' = with_u x.
Proof. intros D c' I. apply in_map_iff in I. destruct I as ([n x] & <- & I). destruct (forall2_in_r _ _ _ D _ I) as (c & Ic & _ & R). exists c, x. auto. Qed.
Lemma name_inj cards a b : NoDup (map c_name cards) -> In a cards -> In b cards -> c_name a = c_name b -> a = b.
Proof.
  intros ND. induction cards as [|x l IH]; [intros []|]. cbn in ND. inversion ND as [|? ? N1 N2]; subst. intros [-> |I] [-> |J] E; auto; exfalso; apply N1; [rewrite E|rewrite <- E]; apply in_map; auto.
Qed.
Lemma text_fun cards c s : NoDup (map c_name cards) -> In c cards -> text_of cards c s -> forall s', text_of cards c s' -> s = s'.
Proof.
  intros ND I T. induction T as [c L|c l s Il L T IH]; intros s' T'; inversion T' as [? L'|? l' ? Il' L' T2]; subst; auto; try congruence.
  apply IH; auto. assert (l = l'); [|subst; auto]. apply (name_inj cards); auto. congruence.
Qed.
Lemma explicit_agree cards ex : NoDup (map c_name cards) -> done_ok cards cards ex -> texts_agree (explicit_cells ex).
Proof.
  intros ND D c b I J L. destruct (done_in _ _ D _ I) as (c0 & x & I0 & R & ->). destruct (done_in _ _ D _ J) as (b0 & y & J0 & Q & ->). cbn [with_u c_like c_surfs c_name] in *.
  destruct R as (_ & RL & _ & _ & _ & _ & _ & RT). destruct Q as (QN & _ & _ & _ & _ & _ & _ & QT). rewrite RL, QN in L. eapply text_fun; [exact ND|exact I0|exact RT|]. eapply t_like; eauto.
Qed.
Lemma read_fresh surfaces cards g : NoDup (map c_name cards) -> likes_before cards -> Forall own_values cards -> read false surfaces cards = Ok g ->
  exists ex, set_explicit (card_dict cards) = Ok ex /\ done_ok cards cards ex /\ g_surfaces g = number_from 1 surfaces /\ g_xml g = false /\
  exists r, fresh g (explicit_cells ex) r.
Proof.
  intros ND LB OK E. destruct (set_explicit_spec cards ND LB OK) as (ex & EX & D). exists ex. split; auto. split; auto. unfold read, mcnp_structure in E. rewrite EX in E. cbn [bind] in E. fold (explicit_cells ex) in E.
  destruct (structure_of (explicit_cells ex)) as [s| |] eqn:S; try discriminate. cbn [bind] in E. injection E as <-. cbn [g_surfaces g_xml]. split; auto. split; auto.
  destruct (structure_spec _ _ S) as (r & _ & _ & U & R0 & _). exists r. split; [rewrite (done_names _ _ _ D); auto|]. cbn [g_universes g_levels]. split; [rewrite U; reflexivity|]. split; auto. exists s. auto.
Qed.

(** ** the tree *)
Section Tree.
Variables (cs : list cell) (fc : list (Z * cells)) (ss : sdict) (mat cel : filter_t) (u0 : Z) (lev level_max : Z) (full : bool).
Hypothesis avail : forall j f, path cs u0 j f -> lev + Z.of_nat j <= level_max -> exists m, zget f fc = Some m /\ Forall2 (made_of ss) (keep mat cel cs f) m.
Hypothesis bounded : full = true -> forall j f, path cs u0 j f -> lev + Z.of_nat j <= level_max.
Definition depth_left (v : Z) : option nat := if full then None else Some (Z.to_nat (level_max - v)).
Lemma build_spec fuel : forall j u container, path cs u0 j u -> lev + Z.of_nat j <= level_max -> (Z.to_nat (level_max - (lev + Z.of_nat j)) < fuel)%nat ->
  exists m ts, build fuel level_max fc container (Some (lev + Z.of_nat j)) u = Ok (Node container u ts) /\ zget u fc = Some m /\ Forall2 (shown fc (depth_left (lev + Z.of_nat j))) m ts.
Proof.
  induction fuel as [|k IH]; intros j u container P L F; [lia|]. destruct (avail j u P L) as (m & G & M). exists m. cbn [build]. rewrite (proj2 (key_ok _ _ _) G). cbn [bind].
  assert (SUB : forall n c f, In (n, c) m -> c_fill c = Some f -> f <> 0 -> nests cs u f).
  { intros n c f I Ff N. destruct (forall2_in_r _ _ _ M _ I) as ([n0 c0] & I0 & _ & _ & _ & FL & _). cbn [snd] in FL. apply keep_in in I0. exists c0. split; [tauto|]. split; [tauto|]. split; [congruence|auto]. }
  assert (X : exists ts, Forall2 (fun p t => (if negb (truthy (c_fill (snd p))) then Ok (Leaf (fst p)) else if level_max <? lev + Z.of_nat j + 1 then Ok (Leaf (fst p)) else build k level_max fc (Some (fst p)) (Some (lev + Z.of_nat j + 1)) (val (c_fill (snd p)))) = Ok t /\ shown fc (depth_left (lev + Z.of_nat j)) p t) m ts).
  { clear G M. induction m as [|[n c] m IHm]; [exists []; constructor|]. destruct IHm as [ts IHm]; [intros; eapply SUB; eauto; right; eauto|]. cbn [fst snd] in *.
    assert (Y : exists t, (if negb (truthy (c_fill c)) then Ok (Leaf n) else if level_max <? lev + Z.of_nat j + 1 then Ok (Leaf n) else build k level_max fc (Some n) (Some (lev + Z.of_nat j + 1)) (val (c_fill c))) = Ok t /\ shown fc (depth_left (lev + Z.of_nat j)) (n, c) t); [|destruct Y as [t Y]; exists (t :: ts); constructor; auto].
    destruct (truthy (c_fill c)) eqn:T; cbn [negb].
    - apply truthy_some in T. destruct T as (f & Ff & N). rewrite Ff. cbn [val]. assert (NE := SUB n c f (or_introl eq_refl) Ff N). assert (P1 : path cs u0 (S j) f) by (econstructor; eauto).
      destruct (level_max <? lev + Z.of_nat j + 1) eqn:CUT.
      + eexists. split; [reflexivity|]. unfold depth_left. destruct full eqn:FU; [exfalso; specialize (bounded eq_refl _ _ P1); lia|]. replace (Z.to_nat _) with 0%nat by lia. eapply sh_cut; eauto.
      + replace (lev + Z.of_nat j + 1) with (lev + Z.of_nat (S j)) by lia. destruct (IH (S j) f (Some n) P1 ltac:(lia) ltac:(lia)) as (m' & ts' & E & G' & SH). rewrite E. eexists. split; [reflexivity|].
        eapply sh_fill; eauto; [unfold depth_left; destruct full; [discriminate|intros [= Q]; lia]|]. replace (dec (depth_left (lev + Z.of_nat j))) with (depth_left (lev + Z.of_nat (S j))); auto.
        unfold depth_left, dec. destruct full; auto. f_equal. lia.
    - apply truthy_none in T. eexists. split; [reflexivity|]. apply sh_cell. auto. }
  destruct X as [ts X]. exists ts. split; [|split; auto].
  - rewrite (forall2_mapM _ m ts); [reflexivity|]. eapply forall2_imp; [|exact X]. intros p t [E _]. exact E.
  - eapply forall2_imp; [|exact X]. intros p t [_ E]. exact E.
Qed.
End Tree.

(** levels and depths *)
Lemma level_of_depth g cs r n v : fresh g cs r -> depth_of cs r n v -> In v (nth n (g_levels g) []) /\ (n < List.length (g_levels g))%nat.
Proof.
  intros (_ & _ & R0 & s & SO & GL) D. destruct (structure_spec _ _ SO) as (r' & _ & _ & _ & N0 & NS & LN & L0 & _). rewrite GL in *. assert (r' = r) by congruence. subst r'. destruct n as [|n].
  - split; [|lia]. destruct D as [D _]. inversion D; subst. rewrite N0. left; auto.
  - destruct (depth_prev _ _ _ _ D) as (u & Du & N). split; [apply NS; eauto|]. apply LN. eauto.
Qed.
Definition top_level (g : geometry) (o : Z) (lev : nat) (depth : Z) : Z :=
  if depth =? -1 then Z.of_nat (List.length (g_levels g)) - o else Z.min (Z.of_nat lev + depth) (Z.of_nat (List.length (g_levels g)) - o).
Lemma tree_ok o container g cs r u depth mat cel fuel g' fc ss : fresh g cs r -> g_xml g = false -> texts_agree cs -> has_tr cs -> numbering (g_surfaces g) ->
  -1 <= depth -> closed cs u -> (u = r /\ o = 1 \/ graded cs r /\ (o = 0 \/ o = 1)) -> (exists n, path cs r n u) ->
  get_filtered g u depth mat cel fuel = Ok (g', fc, ss) ->
  exists lev m ts, depth_of cs r lev u /\ zget u fc = Some m /\ build_from g o container u depth mat cel fuel = Ok (g', Node container u ts, ss) /\
  Forall2 (shown fc (Some (Z.to_nat (top_level g o lev depth - Z.of_nat lev)))) m ts /\
  (depth = -1 -> graded cs r -> Forall2 (shown fc None) m ts).
Proof.
  intros FR X T HT NU DP CL RG [n0 P0] E. destruct (filtered_spec _ _ _ _ _ _ _ _ _ _ _ FR X T HT NU E) as (keys & KE & MK & FC).
  assert (FR0 := FR). destruct FR0 as (ND & GU & R0 & s & SO & GL).
  assert (FL := first_level_spec cs s r SO ltac:(congruence) u). rewrite <- GL in FL. destruct (first_level (g_levels g) u) as [lev|] eqn:FE; [|destruct (FL n0 P0)]. destruct FL as [DL LL].
  exists lev.
  assert (O01 : o = 0 \/ o = 1) by lia.
  assert (GE : Z.of_nat lev <= top_level g o lev depth) by (unfold top_level; destruct (depth =? -1) eqn:Q; lia).
  assert (NDF : NoDup (map fst fc)).
  { rewrite MK. destruct (Z.eq_dec depth 0) as [-> |NZ]; [unfold universe_keys in KE; cbn in KE; injection KE as <-; repeat constructor; intros []|]. apply (keys_spec _ _ _ _ _ _ _ FR X NZ KE). }
  assert (AV : forall j f, path cs u j f -> Z.of_nat lev + Z.of_nat j <= top_level g o lev depth -> exists m, zget f fc = Some m /\ Forall2 (made_of ss) (keep mat cel cs f) m).
  { intros j f P LE. assert (IK : In f keys).
    { destruct (Z.eq_dec depth 0) as [-> |NZ].
      - unfold universe_keys in KE. cbn in KE. injection KE as <-. unfold top_level in LE. cbn in LE. assert (j = 0%nat) by lia. subst j. inversion P; subst. left; auto.
      - destruct (keys_spec _ _ _ _ _ _ _ FR X NZ KE) as (_ & lev' & DL' & KS). assert (lev' = lev) by (eapply depth_fun; eauto). subst lev'. apply KS. split; [apply (CL j f P)|]. split; [destruct j as [|j]; [left; inversion P; auto|right; exists j; auto]|].
        assert (PR : path cs r (lev + j) f) by (eapply path_app; [apply DL|auto]). destruct RG as [[-> ->] |[G _]].
        + destruct (least _ _ _ _ PR) as (k & K & Dk). assert (lev = 0%nat) by (eapply depth_fun; [exact DL|split; [constructor|intros; lia]]). subst lev. exists k. split; [lia|]. split; [unfold top_level in LE; unfold max_level; destruct (depth =? -1); lia|]. eapply level_of_depth; eauto.
        + assert (DF : depth_of cs r (lev + j) f) by (split; auto; intros m Lm Pm; specialize (G _ _ _ PR Pm); lia). destruct (level_of_depth _ _ _ _ _ FR DF) as [IF LF].
          exists (lev + j)%nat. split; [lia|]. split; [|auto]. unfold top_level in LE; unfold max_level; destruct (depth =? -1); lia. }
    rewrite <- MK in IK. apply in_map_iff in IK. destruct IK as ([f' m] & EQ & IF). cbn in EQ. subst f'. exists m. split; [apply zget_nodup; auto|apply (FC f m IF)]. }
  assert (BF : forall full, (full = true -> forall j f, path cs u j f -> Z.of_nat lev + Z.of_nat j <= top_level g o lev depth) ->
    exists m ts, zget u fc = Some m /\ build_from g o container u depth mat cel fuel = Ok (g', Node container u ts, ss) /\ Forall2 (shown fc (depth_left (top_level g o lev depth) full (Z.of_nat lev))) m ts).
  { intros full BD. destruct (build_spec cs fc ss mat cel u (Z.of_nat lev) (top_level g o lev depth) full AV BD (S (Z.to_nat (top_level g o lev depth + 1))) 0 u container ltac:(constructor) ltac:(lia) ltac:(lia)) as (m & ts & B & G & SH).
    replace (Z.of_nat lev + Z.of_nat 0) with (Z.of_nat lev) in * by lia. exists m, ts. split; auto. split; auto. unfold build_from. rewrite E. cbn [bind]. rewrite FE. fold (top_level g o lev depth). rewrite B. reflexivity. }
  destruct (BF false ltac:(discriminate)) as (m & ts & G & B & SH). exists m, ts. split; auto. split; auto. split; auto. split.
  - exact SH.
  - intros -> GR. destruct (BF true) as (m' & ts' & G' & B' & SH').
    + intros _ j f P. assert (PR : path cs r (lev + j) f) by (eapply path_app; [apply DL|auto]). assert (DF : depth_of cs r (lev + j) f) by (split; auto; intros k Lk Pk; specialize (GR _ _ _ PR Pk); lia).
      destruct (level_of_depth _ _ _ _ _ FR DF) as [_ LF]. unfold top_level. cbn. lia.
    + rewrite B in B'. injection B' as <-. assert (m' = m) by congruence. subst m'. exact SH'.
Qed.

(** ** from the cards to the tree *)
Lemma explicit_solved cards pre ex : done_ok cards pre ex -> Forall2 (solved cards) pre (explicit_cells ex).
Proof.
  intros D. induction D as [|c [n c'] pre ex [E (R0 & RL & R1 & R2 & R3 & R4 & R5 & R6)] D IH]; cbn; constructor; auto. cbn [snd] in *. unfold solved, with_u. cbn. repeat (split; [solve [auto]|]). split; [exists (c_u c'); auto|]. auto.
Qed.
Lemma entry_nz {A} (attr : cell -> option A) cards z c v : (forall c, In c cards -> attr c <> Some z) -> In c cards -> entry_of attr cards c v -> v <> Some z.
Proof. intros H I E. induction E as [c v E|c l v E Il L E' IH|c E L]; auto; [rewrite <- E; auto|discriminate]. Qed.
Lemma explicit_tr cards ex : (forall c, In c cards -> c_trcl c <> Some 0) -> done_ok cards cards ex -> has_tr (explicit_cells ex).
Proof. intros H D c I. destruct (done_in _ _ D _ I) as (c0 & x & I0 & (_ & _ & _ & _ & _ & _ & R & _) & ->). cbn. eapply entry_nz; eauto. Qed.
Lemma keep_filter mat cel cs u : keep mat cel cs u = map (fun c => (c_name c, c)) (filter (fun c => (val (c_u c) =? u) && sel mat cel c) cs).
Proof. unfold keep, members. induction cs as [|c cs IH]; cbn; auto. destruct (val (c_u c) =? u); cbn; auto. destruct (sel mat cel c); cbn; [f_equal|]; auto. Qed.
Definition selects (mat cel : filter_t) : Prop := forall c, exists b, is_selected mat cel c = Ok b /\ (b = true <-> chosen mat cel c).
Lemma sel_chosen mat cel c : selects mat cel -> (sel mat cel c = true <-> chosen mat cel c).
Proof. intros S. destruct (S c) as (b & E & H). unfold sel. rewrite E, <- H. destruct b; tauto. Qed.
Lemma keep_cells_of mat cel cs u : selects mat cel -> cells_of cs mat cel u (keep mat cel cs u).
Proof. intros S. exists (fun c => (val (c_u c) =? u) && sel mat cel c). split; [|apply keep_filter]. intros c. rewrite andb_true_iff, sel_chosen by auto. split; intros [A B]; split; auto; lia. Qed.
Lemma zget_key {A} k (d : list (Z * A)) v : zget k d = Some v -> In k (map fst d).
Proof. intros G. apply zget_in, (in_map fst) in G. auto. Qed.
Lemma f2_length {A B} (P : A -> B -> Prop) l r : Forall2 P l r -> List.length l = List.length r.
Proof. intros F. induction F; cbn; auto. Qed.
Lemma run_ok o container surfaces cards g ex r u mat cel depth fuel :
  NoDup (map c_name cards) -> (forall c, In c cards -> c_trcl c <> Some 0) ->
  (forall p, In p surfaces -> snd p = true) -> NoDup (map fst surfaces) ->
  done_ok cards cards ex -> g_surfaces g = number_from 1 surfaces -> g_xml g = false -> fresh g (explicit_cells ex) r ->
  let cs := explicit_cells ex in
  selects mat cel -> -1 <= depth -> (List.length cards < fuel)%nat ->
  (exists n, path cs r n u) -> closed cs u -> acyclic cs u -> (u = r /\ o = 1 \/ graded cs r /\ (o = 0 \/ o = 1)) ->
  (forall c s, In c cs -> In s (c_surfs c) -> In s (map fst surfaces)) ->
  (forall c n, In c cs -> chosen mat cel c -> c_like c = Some n -> exists b, In b cs /\ c_name b = n /\ val (c_u b) = val (c_u c) /\ chosen mat cel b) ->
  exists g' fc ss lev m ts, depth_of cs r lev u /\ build_from g o container u depth mat cel fuel = Ok (g', Node container u ts, ss) /\
    (forall v l, zget v fc = Some l -> exists k, cells_of cs mat cel v k /\ Forall2 (made_of ss) k l) /\
    zget u fc = Some m /\
    Forall2 (shown fc (Some (Z.to_nat (top_level g o lev depth - Z.of_nat lev)))) m ts /\
    (depth = -1 -> graded cs r -> Forall2 (shown fc None) m ts).
Proof.
  intros ND TR KN NL D GS GX FR cs SE DP FU RE CL AC RG LAB LK. assert (TA := explicit_agree _ _ ND D). assert (HT := explicit_tr _ _ TR D). fold cs in TA, HT, FR.
  assert (NU : numbering (g_surfaces g)) by (rewrite GS; apply numbering_ok; auto).
  assert (LC : (List.length cs < fuel)%nat). { unfold cs, explicit_cells. rewrite map_length. rewrite <- (f2_length _ _ _ D). auto. }
  assert (KE : exists keys, universe_keys g u depth fuel = Ok keys /\ forall v, In v keys -> universe cs v).
  { destruct (Z.eq_dec depth 0) as [-> |NZ].
    - exists [u]. split; [reflexivity|]. intros v [<- |[]]. apply (CL 0%nat). constructor.
    - destruct (keys_total _ _ _ _ _ _ FR NZ LC AC CL RE) as [keys KE]. exists keys. split; auto. intros v I. apply (keys_spec _ _ _ _ _ _ _ FR GX NZ KE) in I || (destruct (keys_spec _ _ _ _ _ _ _ FR GX NZ KE) as (_ & lev & _ & KS); apply KS in I; tauto). }
  destruct KE as (keys & KE & KU).
  destruct (filtered_total g cs r u depth mat cel fuel keys FR GX TA NU KE KU) as (g' & fc & ss & E).
  - intros c _. destruct (SE c) as (b & Eb & _). eauto.
  - intros c s Ic Is. rewrite GS. rewrite (proj1 (number_from_spec surfaces KN 1)). eapply LAB; eauto.
  - intros c Ic Sc Tc. apply truthy_some in Tc. destruct Tc as (n & Ln & _). apply sel_chosen in Sc; auto. destruct (LK c n Ic Sc Ln) as (b & Ib & Nb & Ub & Sb). exists b. rewrite Ln. cbn [val]. repeat split; auto. apply sel_chosen; auto.
  - destruct (tree_ok o container g cs r u depth mat cel fuel g' fc ss FR GX TA HT NU DP CL RG RE E) as (lev & m & ts & DL & G & B & SH & SN). exists g', fc, ss, lev, m, ts. split; auto. split; auto. split; [|auto].
    intros v l Gv. destruct (filtered_spec _ _ _ _ _ _ _ _ _ _ _ FR GX TA HT NU E) as (_ & _ & _ & FC). destruct (FC v l (zget_in _ _ _ Gv)) as [_ M]. exists (keep mat cel cs v). split; auto. apply keep_cells_of; auto.
Qed.
