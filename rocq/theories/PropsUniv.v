(** C40: universes of the CSG to CAD conversion. *)
From Verif Require Import Prelude Univ UnivSpec UnivProofs UnivLike UnivSub UnivCells UnivTree.

(** * LIKE n BUT *)
(** Every entry of a cell is its own, else that of the cell it is like; FILL and its
    transformation are one entry; so is the text.  Missing from the full claim: entries with
    the value 0, and FILL without (t), on a cell with LIKE; see the refutations. *)
Theorem C40_like_partial : forall cards,
  NoDup (map c_name cards) -> likes_before cards -> Forall own_values cards -> Forall own_fill cards -> Forall tr_of_fill cards ->
  exists cs, set_explicit (card_dict cards) = Ok cs /\
  Forall2 (fun c p => fst p = c_name c /\ c_name (snd p) = c_name c /\
      entry_of c_u cards c (c_u (snd p)) /\ entry_of c_mat cards c (c_mat (snd p)) /\ entry_of c_trcl cards c (c_trcl (snd p)) /\
      entry_of fill_entry cards c (fill_entry (snd p)) /\ text_of cards c (c_surfs (snd p))) cards cs.
Proof.
  intros cards ND LB OV OF TF. destruct (set_explicit_spec cards ND LB OV) as (cs & E & D). exists cs. split; auto.
  eapply forall2_imp; [|exact (forall2_in _ _ _ D)]. intros c [n c'] [I [N (R0 & _ & R1 & R2 & R3 & R4 & R5 & R6)]]. cbn [fst snd] in *. repeat (split; [assumption|]). split; auto. eapply fill_spec; eauto.
Qed.
Definition like_cards := [Cell 1 None (Some 5) (Some 7) (Some 0) (Some 91) None [10; 20]; Cell 2 (Some 1) None None (Some 3) None (Some 90) []; Cell 3 (Some 2) None (Some 8) None (Some 92) None []].
Example C40_like_partial_ex : NoDup (map c_name like_cards) /\ likes_before like_cards /\ Forall own_values like_cards /\ Forall own_fill like_cards /\ Forall tr_of_fill like_cards /\
  set_explicit (card_dict like_cards) = Ok [(1, Cell 1 None (Some 5) (Some 7) (Some 0) (Some 91) None [10; 20]);
    (2, Cell 2 (Some 1) (Some 5) (Some 7) (Some 3) (Some 91) (Some 90) [10; 20]); (3, Cell 3 (Some 2) (Some 5) (Some 8) (Some 3) (Some 92) (Some 90) [10; 20])].
Proof.
  split; [repeat constructor; cbn; lia|]. split.
  - intros pre c post n E L. unfold like_cards in E.
    destruct pre as [|x [|y [|z [|w pre]]]]; cbn in E; injection E; intros; subst; try discriminate; cbn in L.
    + injection L as <-. split; [lia|]. eexists. split; [left; reflexivity|reflexivity].
    + injection L as <-. split; [lia|]. eexists. split; [right; left; reflexivity|reflexivity].
  - split; [|split; [|split; [|reflexivity]]]; unfold like_cards; repeat (apply Forall_cons || apply Forall_nil); unfold own_values, own_fill, tr_of_fill; cbn; intros; repeat split; congruence.
Qed.
(** A cell "LIKE 1 BUT MAT=0" keeps the material of cell 1. *)
Theorem C40_like_zero_refuted : exists cards cs c, NoDup (map c_name cards) /\ set_explicit (card_dict cards) = Ok cs /\
  In c cards /\ c_mat c = Some 0 /\ exists c', zget (c_name c) cs = Some c' /\ c_mat c' = Some 4.
Proof.
  exists [Cell 1 None None None (Some 4) None None [10]; Cell 2 (Some 1) None None (Some 0) None (Some 90) []].
  eexists. exists (Cell 2 (Some 1) None None (Some 0) None (Some 90) []). split; [repeat constructor; cbn; lia|]. split; [reflexivity|]. split; [cbn; auto|]. split; auto. eexists. split; reflexivity.
Qed.
(** A cell "LIKE 1 BUT FILL=8" is filled with the transformation of the FILL of cell 1. *)
Theorem C40_like_fill_refuted : exists cards cs c, NoDup (map c_name cards) /\ set_explicit (card_dict cards) = Ok cs /\
  In c cards /\ fill_entry c = Some (8, None) /\ exists c', zget (c_name c) cs = Some c' /\ fill_entry c' = Some (8, Some 91).
Proof.
  exists [Cell 1 None None (Some 7) (Some 0) (Some 91) None [10]; Cell 2 (Some 1) None (Some 8) None None (Some 90) []].
  eexists. exists (Cell 2 (Some 1) None (Some 8) None None (Some 90) []). split; [repeat constructor; cbn; lia|]. split; [reflexivity|]. split; [cbn; auto|]. split; auto. eexists. split; reflexivity.
Qed.

(** * Levels *)
(** Level 0 is the root; level k+1 has the universes that fill a cell of a universe whose
    least depth is k, and there is no other level; the level of a filled cell is one more than
    the least depth of its universe.  The cells of a universe are those with that number. *)
Theorem C40_levels : forall cs s, structure_of cs = Ok s -> exists root,
  universe cs root /\ (root = 0 \/ ~ universe cs 0 /\ forall u, ~ nests cs u root) /\
  (forall v, universe cs v -> v = root \/ exists u, nests cs u v) /\
  nth 0 (l_levels s) [] = [root] /\
  (forall k v, In v (nth (S k) (l_levels s) []) <-> exists u, depth_of cs root k u /\ nests cs u v) /\
  (forall k, (k < List.length (l_levels s))%nat <-> exists v, In v (nth k (l_levels s) [])) /\
  (forall n k, In (n, k) (l_level s) <-> exists c i f, In c cs /\ c_name c = n /\ c_fill c = Some f /\ f <> 0 /\ depth_of cs root i (val (c_u c)) /\ k = S i) /\
  (NoDup (map c_name cs) -> forall u m, zget u (l_universes s) = Some m <-> universe cs u /\ m = map (fun c => (c_name c, c)) (filter (fun c => val (c_u c) =? u) cs)).
Proof.
  intros cs s E. destruct (structure_spec _ _ E) as (r & R & CO & U & N0 & NS & LN & L0 & LV). exists r. destruct (root_some _ _ R) as [UR RR]. split; auto.
  split; [destruct RR as [-> |[A B]]; [auto|right; split; auto; intros u N; apply B; exists u; auto]|]. split; [intros v Uv; destruct (CO v Uv) as [(a & N)| ->]; [right; exists a; auto|auto]|].
  split; auto. split; auto. split; [|split; auto].
  - intros [|k]; [rewrite N0; split; [intros _; exists r; left; auto|intros _; auto]|]. rewrite LN. split.
    + intros (u & v & D & N). exists v. apply NS. eauto.
    + intros (v & I). apply NS in I. destruct I as (u & D & N). eauto.
  - intros ND u m. rewrite U. split.
    + intros G. assert (UU : universe cs u) by (apply group_keys; apply zget_in, (in_map fst) in G; auto). split; auto. rewrite get_universe in G by auto. injection G as <-. reflexivity.
    + intros [UU ->]. apply get_universe; auto.
Qed.
Definition nested_cells := [Cell 1 None (Some 0) (Some 5) (Some 0) None None [10]; Cell 2 None (Some 0) None (Some 1) None None [10; 20];
  Cell 3 None (Some 5) (Some 6) (Some 0) None None [20]; Cell 4 None (Some 5) None (Some 1) None None [20]; Cell 5 None (Some 6) None (Some 1) None None [20]].
Example C40_levels_ex : exists s, structure_of nested_cells = Ok s /\ l_levels s = [[0]; [5]; [6]] /\ l_level s = [(1, 1%nat); (3, 2%nat)].
Proof. eexists. split; [reflexivity|]. split; reflexivity. Qed.
(** When all ways of nesting a universe have the same depth, its level is that depth, and so
    one more than the level of every universe it fills. *)
Theorem C40_level_is_depth_partial : forall cs s root, structure_of cs = Ok s -> nth 0 (l_levels s) [] = [root] -> graded cs root ->
  forall k v, In v (nth k (l_levels s) []) <-> path cs root k v.
Proof.
  intros cs s root E R0 G. destruct (structure_spec _ _ E) as (r & R & _ & _ & N0 & NS & _). assert (r = root) by congruence. subst r. intros [|k] v.
  - rewrite N0. split; [intros [<- |[]]; constructor|intros P; inversion P; left; auto].
  - rewrite NS. split.
    + intros (u & [P _] & N). econstructor; eauto.
    + intros P. inversion P as [|? u ? Q N]; subst. exists u. split; auto. split; auto. intros m L Qm. specialize (G _ _ _ Q Qm). lia.
Qed.
(** Without that the level is not one more than the maximum level of the universes filled:
    universe 2 fills cells of 0 and of 1 (level 1); it is at levels 1 and 2, and the universe
    3, which fills a cell of 2 only, is at level 2. *)
Definition twice_cells := [Cell 1 None (Some 0) (Some 1) (Some 0) None None [10]; Cell 2 None (Some 0) (Some 2) (Some 0) None None [20];
  Cell 3 None (Some 1) (Some 2) (Some 0) None None [30]; Cell 4 None (Some 2) (Some 3) (Some 0) None None [40]; Cell 5 None (Some 3) None (Some 1) None None [50]].
Theorem C40_max_level_refuted : exists cs s, NoDup (map c_name cs) /\ structure_of cs = Ok s /\
  In 2 (nth 2 (l_levels s) []) /\ (forall u, nests cs u 3 -> u = 2) /\ ~ In 3 (nth 3 (l_levels s) []) /\ In 3 (nth 2 (l_levels s) []).
Proof.
  exists twice_cells. let v := eval vm_compute in (structure_of twice_cells) in match v with Ok ?s => exists s end. split; [repeat constructor; cbn; lia|]. split; [reflexivity|]. cbn [l_levels nth In].
  split; [auto|]. split; [|intuition lia].
  intros u (c & I & U & F & _). cbn in I. intuition (subst; cbn in *; congruence).
Qed.
(** The outcome for every list of cells: an error exactly when no universe can be the root
    (UnboundLocalError) or a universe other than the root fills no cell (RuntimeError). *)
Theorem C40_structure_outcome : forall cs,
  match structure_of cs with
  | Ok _ => exists r, universe cs r /\ (r = 0 \/ ~ universe cs 0 /\ forall a, ~ nests cs a r) /\ forall u, universe cs u -> u = r \/ exists a, nests cs a u
  | Err e => e = UnboundLocal /\ ~ universe cs 0 /\ (forall u, universe cs u -> exists a, nests cs a u) \/
             e = NoContainer /\ exists u r, universe cs u /\ (forall a, ~ nests cs a u) /\ u <> r /\ universe cs r /\ (r = 0 \/ ~ universe cs 0 /\ forall a, ~ nests cs a r)
  | Fuel => False
  end.
Proof.
  intros cs. assert (T := structure_total cs). assert (Q : forall u, ~ filled cs u <-> forall a, ~ nests cs a u) by (intros u; unfold filled; split; [intros H a N; apply H; eauto|intros H [a N]; exact (H a N)]).
  destruct (structure_of cs) as [s|e|].
  - destruct T as (r & A & B & C). exists r. split; auto. rewrite <- Q. split; auto. intros u U. destruct (A u U); auto.
  - destruct T as [(-> & A & B)|(-> & u & r & A & B & C & D & E)]; [left; auto|]. right. split; auto. exists u, r. rewrite <- !Q. auto.
  - auto.
Qed.
Example C40_structure_outcome_ex : structure_of [Cell 1 None (Some 0) None None None None []; Cell 2 None (Some 3) None None None None []] = Err NoContainer /\
  structure_of [Cell 1 None (Some 2) (Some 3) None None None []; Cell 2 None (Some 3) (Some 2) None None None []] = Err UnboundLocal.
Proof. split; reflexivity. Qed.
(** Universes that are nested in each other but not in the root pass the check and are in no
    level. *)
Theorem C40_unreachable_refuted : exists cs s, NoDup (map c_name cs) /\ structure_of cs = Ok s /\ universe cs 2 /\ (forall n, ~ path cs 0 n 2) /\ forall k, ~ In 2 (nth k (l_levels s) []).
Proof.
  exists [Cell 1 None (Some 0) None None None None []; Cell 2 None (Some 2) (Some 3) None None None []; Cell 3 None (Some 3) (Some 2) None None None []]. match goal with |- exists s, _ /\ structure_of ?x = _ /\ _ => let v := eval vm_compute in (structure_of x) in match v with Ok ?s => exists s end end. split; [repeat constructor; cbn; lia|]. split; [reflexivity|].
  split; [eexists; split; [right; left; reflexivity|reflexivity]|]. split.
  - set (cs := [_; _; _]). assert (H : forall n v, path cs 0 n v -> v = 0). { intros n v P. induction P as [|n a b P -> (c & I & U & F & N)]; auto. cbn in I. destruct I as [<- |[<- |[<- |[]]]]; cbn in *; try discriminate; lia. }
    intros n P. apply H in P. discriminate.
  - intros k. destruct k as [|[|k]]; cbn; try (intuition lia).
Qed.

(** * Nested universes *)
(** All universes inside [u] and no others are found; there is a result exactly when
    no universe inside [u] is inside itself and all have cells (else RecursionError, KeyError). *)
Theorem C40_nested : forall cs u fuel, NoDup (map c_name cs) -> (List.length cs < fuel)%nat ->
  (acyclic cs u /\ closed cs u <-> exists r, sub_universes fuel (group cs) u = Ok r) /\
  forall r, sub_universes fuel (group cs) u = Ok r -> forall v, In v r <-> inside cs u v.
Proof. intros cs u fuel ND L. split; [apply sub_exact; auto|]. intros r E v. apply (sub_sound cs ND _ _ _ E). Qed.
Example C40_nested_ex : sub_universes 6 (group nested_cells) 0 = Ok [5; 6].
Proof. reflexivity. Qed.
(** a cycle: no limit of the recursion is enough *)
Theorem C40_cycle : forall cs u fuel, NoDup (map c_name cs) -> ~ acyclic cs u -> forall r, sub_universes fuel (group cs) u <> Ok r.
Proof. intros cs u fuel ND A r E. apply A. eapply sub_acyclic; eauto. Qed.
Example C40_cycle_ex : exists cs, NoDup (map c_name cs) /\ ~ acyclic cs 2.
Proof.
  exists [Cell 2 None (Some 2) (Some 3) None None None []; Cell 3 None (Some 3) (Some 2) None None None []]. split; [repeat constructor; cbn; lia|]. intros A. apply (A 0%nat 2); [constructor|]. exists 1%nat.
  econstructor; [econstructor; [constructor|]|]; [exists (Cell 2 None (Some 2) (Some 3) None None None [])|exists (Cell 3 None (Some 3) (Some 2) None None None [])]; cbn; intuition lia.
Qed.

(** * Filters *)
Theorem C40_filters : forall mat cel c, usable mat -> usable cel -> exists b, is_selected mat cel c = Ok b /\ (b = true <-> chosen mat cel c).
Proof.
  assert (TS : forall f v, usable f -> exists b, test f v = Ok b /\ (b = true <-> passes f v)).
  { intros f v U. unfold test, passes. destruct (f_type f) eqn:T; [exists true; tauto| |]; destruct (f_range f) as [l|] eqn:R; try (destruct U; congruence).
    - eexists. split; [reflexivity|]. split.
      + intros H. exists l. split; auto. intros n -> I. apply mem_in in I. rewrite I in H. discriminate.
      + intros (l' & [= <-] & H). destruct v as [n|]; auto. apply negb_true_iff, mem_out. auto.
    - eexists. split; [reflexivity|]. split.
      + intros H. destruct v as [n|]; [|discriminate]. exists l, n. apply mem_in in H. auto.
      + intros (l' & n & [= <-] & -> & H). apply mem_in. auto. }
  intros mat cel c UM UC. destruct (TS cel (Some (c_name c)) UC) as (b2 & E2 & H2). unfold is_selected, chosen.
  assert (M : exists b1, (match f_type mat, c_fill c with FAll, _ => Ok true | _, Some _ => Ok true | _, None => test mat (c_mat c) end) = Ok b1 /\ (b1 = true <-> (c_fill c = None -> passes mat (c_mat c)))).
  { destruct (TS mat (c_mat c) UM) as (b1 & E1 & H1). destruct (f_type mat) eqn:T; destruct (c_fill c) eqn:F; try (exists true; split; [reflexivity|]; split; [intros _; intros; try discriminate; unfold passes; rewrite T; exact Logic.I|auto]); exists b1; split; auto; rewrite H1; split; auto. }
  destruct M as (b1 & E1 & H1). rewrite E1. cbn [bind]. destruct b1.
  - exists b2. split; auto. rewrite H2. tauto.
  - exists false. split; auto. split; [discriminate|]. intros [A _]. apply H1 in A. discriminate.
Qed.
Example C40_filters_ex : usable (Filter FExclude (Some [1])) /\ is_selected (Filter FExclude (Some [1])) (Filter FAll None) (Cell 2 None (Some 0) None (Some 1) None None [10]) = Ok false /\
  is_selected (Filter FExclude (Some [0])) (Filter FAll None) (Cell 1 None (Some 0) (Some 5) (Some 0) None None [10]) = Ok true.
Proof. split; [right; discriminate|split; reflexivity]. Qed.
(** What the filter functions keep: exclude without a range is all; include without a range
    is a filter that no cell can be tested against. *)
Theorem C40_set_filter : forall t range old, f_range old = None ->
  (t <> Some FInclude \/ range <> None <-> usable (set_filter t range old)).
Proof. intros t range old O. unfold set_filter, usable. destruct range; cbn; rewrite ?O; destruct t as [[]|]; cbn; intuition congruence. Qed.
Example C40_set_filter_ex : is_selected (set_filter (Some FInclude) None (Filter FAll None)) (Filter FAll None) (Cell 2 None (Some 0) None (Some 1) None None [10]) = Err TypeError.
Proof. reflexivity. Qed.

(** * The tree of universes *)
(** What is read: the cells the cards stand for, and the root. *)
Definition reads (surfaces : list (Z * bool)) (cards : list cell) (g : geometry) (cs : list cell) (root : Z) : Prop :=
  read false surfaces cards = Ok g /\ Forall2 (solved cards) cards cs /\ nth 0 (g_levels g) [] = [root].
Definition good_cards (surfaces : list (Z * bool)) (cards : list cell) : Prop :=
  NoDup (map c_name cards) /\ likes_before cards /\ Forall own_values cards /\ (forall c, In c cards -> c_trcl c <> Some 0) /\
  (forall p, In p surfaces -> snd p = true) /\ NoDup (map fst surfaces).
(** The texts name surfaces that exist; a chosen cell is like a chosen cell of its universe *)
Definition good_cells (surfaces : list (Z * bool)) (cs : list cell) (mat cel : filter_t) : Prop :=
  (forall c s, In c cs -> In s (c_surfs c) -> In s (map fst surfaces)) /\
  (forall c n, In c cs -> chosen mat cel c -> c_like c = Some n -> exists b, In b cs /\ c_name b = n /\ val (c_u b) = val (c_u c) /\ chosen mat cel b).
Lemma solved_fun surfaces cards g cs root : good_cards surfaces cards -> reads surfaces cards g cs root ->
  exists ex, done_ok cards cards ex /\ g_surfaces g = number_from 1 surfaces /\ g_xml g = false /\ fresh g (explicit_cells ex) root /\ cs = explicit_cells ex.
Proof.
  intros (ND & LB & OV & _) (RD & SO & R0). destruct (read_fresh _ _ _ ND LB OV RD) as (ex & _ & D & GS & GX & r & FR). exists ex. split; auto. split; auto. split; auto.
  assert (r = root) by (destruct FR as (_ & _ & Q & _); congruence). subst r. split; auto. clear RD R0 FR GS GX.
  assert (EF : forall {A} (attr : cell -> option A) c v, In c cards -> entry_of attr cards c v -> forall w, entry_of attr cards c w -> v = w).
  { intros A attr c v I E. induction E as [c v E|c l v E Il L E' IH|c E L]; intros w W; inversion W as [? ? E2|? l2 ? E2 Il2 L2 W2|? E2 L2]; subst; try congruence.
    apply IH; auto. assert (l = l2); [apply (name_inj cards); auto; congruence|subst; auto]. }
  assert (S2 := explicit_solved _ _ _ D). eapply forall2_fun; [|exact (forall2_in _ _ _ SO)|exact (forall2_in _ _ _ S2)].
  intros c [n1 l1 u1 f1 m1 t1 q1 s1] [n2 l2 u2 f2 m2 t2 q2 s2] [I (A1 & A2 & (u & A3 & A4) & A5 & A6 & A7 & A8 & A9)] [_ (B1 & B2 & (w & B3 & B4) & B5 & B6 & B7 & B8 & B9)]. cbn in *.
  assert (u = w) by (eapply (EF _ c_u); eauto). subst w. f_equal; try congruence; try (eapply EF; eauto; fail). eapply text_fun; eauto.
Qed.
(** The universes whose cells are read for a build: the start alone for depth 0, else those
    nested in it that are in the levels from that of the start down to the depth. *)
Theorem C40_universes_read : forall surfaces cards g cs root start depth fuel keys,
  good_cards surfaces cards -> reads surfaces cards g cs root -> universe_keys g start depth fuel = Ok keys ->
  (depth = 0 -> keys = [start]) /\
  (depth <> 0 -> NoDup keys /\ exists lev, depth_of cs root lev start /\ forall v, In v keys <->
     universe cs v /\ (v = start \/ inside cs start v) /\
     exists k, (lev <= k)%nat /\ (depth = -1 \/ Z.of_nat k <= Z.of_nat lev + depth) /\ In v (nth k (g_levels g) [])).
Proof.
  intros surfaces cards g cs root start depth fuel keys GC RD KE. destruct (solved_fun _ _ _ _ _ GC RD) as (ex & D & GS & GX & FR & ->). split.
  - intros ->. unfold universe_keys in KE. cbn in KE. congruence.
  - intros NZ. destruct (keys_spec _ _ _ _ _ _ _ FR GX NZ KE) as (ND & lev & DL & KS). split; auto. exists lev. split; auto. intros v. rewrite KS. unfold max_level.
    assert (LE : forall k w, In w (nth k (g_levels g) []) -> (k < List.length (g_levels g))%nat). { intros k w I. destruct (Nat.lt_ge_cases k (List.length (g_levels g))) as [H|H]; auto. rewrite nth_overflow in I by auto. destruct I. }
    split; intros (U & H & k & L1 & L2 & I); (split; [auto|split; [auto|exists k; split; [auto|split; [|auto]]]]); specialize (LE _ _ I); destruct (depth =? -1) eqn:Q; lia.
Qed.
Example C40_universes_read_ex : universe_keys (Geometry false [] [] (wrap (group nested_cells)) [[0]; [5]; [6]]) 0 1 9 = Ok [0; 5].
Proof. reflexivity. Qed.
(** Building the root universe, or any universe when depths are unique: the tree has, in their
    order, the chosen cells of the universe, and the filled ones are replaced by the tree of the
    filling universe down to the depth asked for, -1 being all levels; every cell has the
    surfaces of its card, moved by TRCL if there is one.  Missing from the full claim: other
    universes when depths are not unique; a depth counted along the nesting (-1 is cut at the
    number of levels); the geometry of the cells. *)
Theorem C40_build_universe_partial : forall surfaces cards g cs root start mat cel depth fuel,
  good_cards surfaces cards -> reads surfaces cards g cs root -> good_cells surfaces cs mat cel -> usable mat -> usable cel ->
  -1 <= depth -> (List.length cards < fuel)%nat ->
  (exists n, path cs root n start) -> closed cs start -> acyclic cs start -> (start = root \/ graded cs root) ->
  exists g' ss fc m ts lev, build_universe g (Some start) depth mat cel fuel = Ok (g', Node None start ts, ss) /\
    (start = root -> build_universe g None depth mat cel fuel = Ok (g', Node None start ts, ss)) /\
    (forall v l, zget v fc = Some l -> exists k, cells_of cs mat cel v k /\ Forall2 (made_of ss) k l) /\
    zget start fc = Some m /\ depth_of cs root lev start /\
    (let rest := (List.length (g_levels g) - 1 - lev)%nat in
     Forall2 (shown fc (Some (if depth =? -1 then rest else Nat.min (Z.to_nat depth) rest))) m ts) /\
    (depth = -1 -> graded cs root -> Forall2 (shown fc None) m ts).
Proof.
  intros surfaces cards g cs root start mat cel depth fuel GC RD [GL1 GL2] UM UC DP FU RE CL AC RG. destruct (solved_fun _ _ _ _ _ GC RD) as (ex & D & GS & GX & FR & ->). destruct GC as (ND & LB & OV & TR & KN & NL).
  destruct (run_ok 1 None surfaces cards g ex root start mat cel depth fuel ND TR KN NL D GS GX FR) as (g' & fc & ss & lev & m & ts & DL & B & FC & G & SH & SN); auto.
  - intros c. apply C40_filters; auto.
  - destruct RG as [-> |RG]; [left; auto|right; auto].
  - exists g', ss, fc, m, ts, lev. split; [exact B|]. split; [intros ->; unfold build_universe; destruct RD as (_ & _ & R0); destruct (g_levels g) as [|[|x l] ls]; cbn in R0; try discriminate; injection R0 as -> _; exact B|].
    split; auto. split; auto. split; auto. split; auto. cbv zeta. match goal with |- Forall2 (shown fc (Some ?x)) _ _ => replace x with (Z.to_nat (top_level g 1 lev depth - Z.of_nat lev)); auto end. unfold top_level. destruct (depth =? -1) eqn:Q; lia.
Qed.
(** Building the container cell: its card is not a LIKE card; depths are unique. *)
Theorem C40_build_container_partial : forall surfaces cards g cs root name c f mat cel depth fuel,
  good_cards surfaces cards -> reads surfaces cards g cs root -> good_cells surfaces cs mat cel -> usable mat -> usable cel ->
  -1 <= depth -> (List.length cards < fuel)%nat ->
  In c cards -> c_name c = name -> c_like c = None -> c_fill c = Some f ->
  (exists n, path cs root n f) -> closed cs f -> acyclic cs f -> graded cs root ->
  exists g' ss fc m ts lev, build_container g name depth mat cel fuel = Ok (g', Node (Some name) f ts, ss) /\
    (forall v l, zget v fc = Some l -> exists k, cells_of cs mat cel v k /\ Forall2 (made_of ss) k l) /\
    zget f fc = Some m /\ depth_of cs root lev f /\
    (let rest := (List.length (g_levels g) - lev)%nat in
     Forall2 (shown fc (Some (if depth =? -1 then rest else Nat.min (Z.to_nat depth) rest))) m ts) /\
    (depth = -1 -> Forall2 (shown fc None) m ts).
Proof.
  intros surfaces cards g cs root name c f mat cel depth fuel GC RD [GL1 GL2] UM UC DP FU IC NC LC FC0 RE CL AC GR.
  assert (EC : g_cards g = cards) by (destruct RD as [RD _]; unfold read in RD; destruct (mcnp_structure cards); try discriminate; injection RD as <-; reflexivity).
  destruct (solved_fun _ _ _ _ _ GC RD) as (ex & D & GS & GX & FR & ->). destruct GC as (ND & LB & OV & TR & KN & NL).
  destruct (run_ok 0 (Some name) surfaces cards g ex root f mat cel depth fuel ND TR KN NL D GS GX FR) as (g' & fc & ss & lev & m & ts & DL & B & FC & G & SH & SN); auto.
  - intros c'. apply C40_filters; auto.
  - exists g', ss, fc, m, ts, lev. split.
    + unfold build_container, get_cell. rewrite GX, EC. assert (FN : find (fun x => c_name x =? name) cards = Some c).
      { clear -ND IC NC. induction cards as [|x l IH]; [destruct IC|]. cbn in ND |- *. inversion ND as [|? ? N1 N2]; subst. destruct IC as [-> |I]; [rewrite Z.eqb_refl; auto|]. destruct (c_name x =? c_name c) eqn:E; auto. exfalso. apply N1. replace (c_name x) with (c_name c) by lia. apply in_map. auto. }
      rewrite FN, LC. cbn [truthy andb bind]. rewrite FC0. exact B.
    + split; auto. split; auto. split; auto. split; auto. cbv zeta. match goal with |- Forall2 (shown fc (Some ?x)) _ _ => replace x with (Z.to_nat (top_level g 0 lev depth - Z.of_nat lev)); auto end. unfold top_level. destruct (depth =? -1) eqn:Q; lia.
Qed.

(** a case *)
Definition ex_surfaces := [(10, true); (20, true); (30, true)].
Definition ex_cards := [Cell 1 None None (Some 5) (Some 0) None None [10]; Cell 2 None None None (Some 1) None None [10; 20];
  Cell 3 None (Some 5) None (Some 1) None (Some 90) [20; 30]; Cell 4 (Some 3) None None None None (Some 91) []; Cell 5 None (Some 5) (Some 6) (Some 0) None None [30]; Cell 6 None (Some 6) None (Some 2) None None [10]].
Definition ex_cells := [Cell 1 None (Some 0) (Some 5) (Some 0) None None [10]; Cell 2 None (Some 0) None (Some 1) None None [10; 20];
  Cell 3 None (Some 5) None (Some 1) None (Some 90) [20; 30]; Cell 4 (Some 3) (Some 5) None (Some 1) None (Some 91) [20; 30]; Cell 5 None (Some 5) (Some 6) (Some 0) None None [30]; Cell 6 None (Some 6) None (Some 2) None None [10]].
Definition ex_geometry : geometry := Eval vm_compute in match read false ex_surfaces ex_cards with Ok g => g | _ => Geometry false [] [] [] [] end.
Definition all := Filter FAll None.
Lemma ex_likes : likes_before ex_cards.
Proof.
  intros pre c post n E L. unfold ex_cards in E. do 6 (destruct pre as [|? pre]; cbn in E; injection E as <- E; [subst; cbn in L; first [discriminate L | injection L as <-; split; [lia|eexists; split; [do 2 right; left; reflexivity|reflexivity]]]|]). destruct pre; discriminate.
Qed.
Lemma ex_good : good_cards ex_surfaces ex_cards.
Proof.
  split; [repeat constructor; cbn; lia|]. split; [exact ex_likes|]. split; [unfold ex_cards; repeat (apply Forall_cons || apply Forall_nil); unfold own_values; cbn; intros; repeat split; congruence|].
  split; [unfold ex_cards; cbn [In]; intros c I; intuition (subst; cbn in *; discriminate)|]. split; [cbn; intros p I; intuition (subst; auto)|repeat constructor; cbn; lia].
Qed.
Lemma ex_reads : reads ex_surfaces ex_cards ex_geometry ex_cells 0.
Proof.
  split; [reflexivity|]. split; [|reflexivity]. destruct ex_good as (ND & LB & OV & _). destruct (set_explicit_spec ex_cards ND LB OV) as (ex & E & D). vm_compute in E. injection E as <-. apply explicit_solved in D. exact D.
Qed.
Lemma nests_list cs a b : nests cs a b -> In (a, b) (map (fun c => (val (c_u c), val (c_fill c))) (containers cs)).
Proof. intros N. apply nests_containers in N. destruct N as (c & I & <- & <-). apply in_map_iff. exists c. auto. Qed.
Lemma ex_ranked : forall n u, path ex_cells 0 n u -> (n = 0%nat /\ u = 0 \/ n = 1%nat /\ u = 5 \/ n = 2%nat /\ u = 6).
Proof. intros n u P. induction P as [|n a b P IH N]; auto. apply nests_list in N. cbn in N. destruct N as [[= <- <-]|[[= <- <-]|[]]]; lia. Qed.
Example C40_build_universe_partial_ex : good_cards ex_surfaces ex_cards /\ reads ex_surfaces ex_cards ex_geometry ex_cells 0 /\ good_cells ex_surfaces ex_cells all all /\ usable all /\
  closed ex_cells 0 /\ acyclic ex_cells 0 /\ graded ex_cells 0 /\
  exists g' ss, build_universe ex_geometry None (-1) all all 7 = Ok (g', Node None 0 [Node (Some 1) 5 [Leaf 3; Leaf 4; Node (Some 5) 6 [Leaf 6]]; Leaf 2], ss).
Proof.
  split; [exact ex_good|]. split; [exact ex_reads|]. split; [|split; [left; auto|]].
  - split.
    + intros c s I J. cbn in I. assert (K : forallb (fun c => forallb (fun s => mem s (map fst ex_surfaces)) (c_surfs c)) ex_cells = true) by reflexivity. rewrite forallb_forall in K. specialize (K c I). rewrite forallb_forall in K. apply mem_in. auto.
    + intros c n I _ L. unfold ex_cells in I. cbn [In] in I. destruct I as [<- |[<- |[<- |[<- |[<- |[<- |[]]]]]]]; cbn in L; try discriminate. injection L as <-. exists (Cell 3 None (Some 5) None (Some 1) None (Some 90) [20; 30]). cbn. repeat split; auto.
  - split; [|split; [|split]].
    + intros n v P. apply ex_ranked in P. unfold universe. destruct P as [[_ ->]|[[_ ->]|[_ ->]]]; eexists; split; [left; reflexivity|reflexivity|do 2 right; left; reflexivity|reflexivity|do 5 right; left; reflexivity|reflexivity].
    + intros n v P [k Q]. assert (R := ex_ranked _ _ (path_app _ _ _ _ _ _ P Q)). apply ex_ranked in P. lia.
    + intros n m u P Q. apply ex_ranked in P, Q. lia.
    + do 2 eexists. vm_compute. reflexivity.
Qed.
Example C40_build_container_partial_ex : exists g' ss, build_container ex_geometry 1 (-1) all all 7 = Ok (g', Node (Some 1) 5 [Leaf 3; Leaf 4; Node (Some 5) 6 [Leaf 6]], ss).
Proof. do 2 eexists. vm_compute. reflexivity. Qed.

(** * Where the tree is not what is asked for *)
Definition surfs5 := [(10, true); (20, true); (30, true); (40, true); (50, true)].
(** With depth -1 (all nested universes) cell 4, filled by universe 3, is replaced by that
    universe in one of its two places only. *)
Theorem C40_all_levels_refuted : exists g g' ss, read false surfs5 twice_cells = Ok g /\ acyclic twice_cells 0 /\
  build_universe g None (-1) all all 9 = Ok (g', Node None 0 [Node (Some 1) 1 [Node (Some 3) 2 [Leaf 4]]; Node (Some 2) 2 [Node (Some 4) 3 [Leaf 5]]], ss).
Proof.
  match goal with |- exists g, _ => let v := eval vm_compute in (read false surfs5 twice_cells) in match v with Ok ?g => exists g end end. do 2 eexists. split; [vm_compute; reflexivity|]. split; [|vm_compute; reflexivity].
  assert (R : forall n u v, path twice_cells u n v -> u + Z.of_nat n <= v). { intros n u v P. induction P as [|n a b P IH N]; [lia|]. apply nests_list in N. cbn in N. destruct N as [[= <- <-]|[[= <- <-]|[[= <- <-]|[[= <- <-]|[]]]]]; lia. }
  intros n v _ [k Q]. apply R in Q. lia.
Qed.
(** A universe nested below the start but at a lower level elsewhere is not read: KeyError. *)
Definition deep (n u f : Z) : cell := Cell n None (Some u) (Some f) (Some 0) None None [10].
Definition leaf (n u : Z) : cell := Cell n None (Some u) None (Some 1) None None [10].
Definition key_cells := [deep 1 0 1; deep 2 0 10; deep 3 0 20; deep 4 1 2; deep 5 2 3; deep 6 3 10; deep 7 10 11; leaf 8 11; deep 9 20 21; deep 10 21 22; deep 11 22 23; deep 12 23 24; deep 13 24 25; leaf 14 25].
Theorem C40_start_refuted : exists g, read false surfs5 key_cells = Ok g /\ In 3 (nth 3 (g_levels g) []) /\ (exists r, sub_universes 20 (group key_cells) 3 = Ok r) /\
  build_universe g (Some 3) (-1) all all 20 = Err KeyError.
Proof.
  match goal with |- exists g, _ => let v := eval vm_compute in (read false surfs5 key_cells) in match v with Ok ?g => exists g end end. split; [vm_compute; reflexivity|]. split; [vm_compute; auto|]. split; [eexists; vm_compute; reflexivity|]. vm_compute. reflexivity.
Qed.
(** Building twice.  Without filters the second call fails *)
Theorem C40_second_build_refuted : exists g' t ss, build_universe ex_geometry None 0 all all 7 = Ok (g', t, ss) /\ build_universe g' None 0 all all 7 = Err AttributeError.
Proof. do 3 eexists. split; vm_compute; reflexivity. Qed.
(** and with a filter it renumbers the numbers of the first: a cell of surface 2 becomes one of
    surface 1. *)
Theorem C40_second_surfaces_refuted : exists g g' g2 ss ss2 c c2, let f := Filter FExclude (Some [99]) in
  read false [(2, true); (1, true)] [Cell 1 None None None (Some 1) None None [2]] = Ok g /\
  get_filtered g 0 0 all f 9 = Ok (g', [(0, [(1, c)])], ss) /\ map (fun s => zget s ss) (c_surfs c) = [Some (Surf 2 [])] /\
  get_filtered g' 0 0 all f 9 = Ok (g2, [(0, [(1, c2)])], ss2) /\ map (fun s => zget s ss2) (c_surfs c2) = [Some (Surf 1 [])].
Proof. do 7 eexists. cbv zeta. split; [vm_compute; reflexivity|]. split; [vm_compute; reflexivity|]. split; [vm_compute; reflexivity|]. split; vm_compute; reflexivity. Qed.
(** A surface of a type that is not known leaves a gap in the numbers; the moved copies of a
    cell with TRCL then take the number of another surface: the text of cell 2 is surface 30,
    what is built is surface 20 moved by 90. *)
Theorem C40_gap_refuted : exists g g' ss c1 c2,
  read false [(10, false); (20, true); (30, true)] [Cell 1 None None None (Some 1) None (Some 90) [20]; Cell 2 None None None (Some 1) None None [30]] = Ok g /\
  get_filtered g 0 0 all all 9 = Ok (g', [(0, [(1, c1); (2, c2)])], ss) /\ map (fun s => zget s ss) (c_surfs c2) = [Some (Surf 20 [90])].
Proof. do 5 eexists. split; [vm_compute; reflexivity|]. split; vm_compute; reflexivity. Qed.
(** A cell like one of another universe, or like one that is filtered out: KeyError. *)
Theorem C40_like_elsewhere_refuted :
  (exists g, read false ex_surfaces [Cell 1 None None (Some 5) (Some 0) None None [10]; Cell 2 None (Some 5) None (Some 1) None None [20]; Cell 3 (Some 2) (Some 6) None None None (Some 90) []; Cell 4 None (Some 5) (Some 6) None None None [10]] = Ok g /\
     build_universe g None (-1) all all 9 = Err KeyError) /\
  build_universe ex_geometry None (-1) all (Filter FExclude (Some [3])) 9 = Err KeyError.
Proof. split; [|vm_compute; reflexivity]. eexists. split; vm_compute; reflexivity. Qed.
(** The universe that fills a cell with FILL = n (t) and TRCL is moved by TRCL, not by t. *)
Theorem C40_fill_transformation_refuted : exists g g' ss c,
  read false ex_surfaces [Cell 1 None None (Some 5) (Some 0) (Some 91) (Some 90) [10]; Cell 2 None (Some 5) None (Some 1) None None [20]] = Ok g /\
  get_filtered g 0 0 all all 9 = Ok (g', [(0, [(1, c)])], ss) /\ fill_entry c = Some (5, Some 90).
Proof. do 4 eexists. split; [vm_compute; reflexivity|]. split; vm_compute; reflexivity. Qed.
(** A container cell given by LIKE cannot be built. *)
Theorem C40_like_container_refuted : exists g, read false ex_surfaces [Cell 1 None None (Some 5) (Some 0) None None [10]; Cell 2 None (Some 5) None (Some 1) None None [20]; Cell 3 (Some 1) None None None None (Some 90) []] = Ok g /\
  build_container g 3 (-1) all all 9 = Err KeyError.
Proof. eexists. split; vm_compute; reflexivity. Qed.

(** * OpenMC files *)
(** No container cell can be built. *)
Theorem C40_xml_container_refuted : forall surfaces cards g name depth mat cel fuel, read true surfaces cards = Ok g -> build_container g name depth mat cel fuel = Err AttributeError.
Proof.
  intros surfaces cards g name depth mat cel fuel E. unfold read in E. destruct (xml_structure cards); try discriminate. injection E as <-. unfold build_container, get_cell. cbn. destruct cards; reflexivity.
Qed.
Example C40_xml_container_ex : exists g, read true ex_surfaces ex_cells = Ok g /\ g_levels g = [[0]; [5]; [6]].
Proof. eexists. split; vm_compute; reflexivity. Qed.
(** Universes that are not nested in the start are read too, and one without a chosen cell is
    an error: universe 6 alone cannot be built when the chosen material is only in it. *)
Theorem C40_xml_universes_refuted : exists g, read true ex_surfaces ex_cells = Ok g /\
  universe_keys g 6 (-1) 9 = Ok [5; 6] /\
  (exists g' ss, build_universe g (Some 6) 0 (Filter FInclude (Some [2])) all 9 = Ok (g', Node None 6 [Leaf 6], ss)) /\
  build_universe g (Some 6) (-1) all (Filter FInclude (Some [6])) 9 = Err ValueError.
Proof. eexists. split; [vm_compute; reflexivity|]. split; [vm_compute; reflexivity|]. split; [do 2 eexists; vm_compute; reflexivity|vm_compute; reflexivity]. Qed.
(** Including materials and excluding cells together is an error. *)
Theorem C40_xml_filters_refuted : exists g, read true ex_surfaces ex_cells = Ok g /\
  build_universe g None (-1) (Filter FInclude (Some [1; 2])) (Filter FExclude (Some [2])) 9 = Err AttributeError.
Proof. eexists. split; vm_compute; reflexivity. Qed.
(** The universes read include all those that the MCNP reader keeps. *)
Theorem C40_xml_keys_partial : forall g u depth fuel keys, g_xml g = true -> universe_keys g u depth fuel = Ok keys ->
  exists keys', universe_keys (Geometry false (g_cards g) (g_surfaces g) (g_universes g) (g_levels g)) u depth fuel = Ok keys' /\ incl keys' keys /\ (depth <> 0 -> incl keys (map fst (g_universes g))).
Proof.
  intros g u depth fuel keys X. unfold universe_keys. cbn [g_universes g_levels g_xml]. rewrite X. destruct (depth =? 0) eqn:D; [intros [= <-]; exists [u]; split; auto; split; [apply incl_refl|lia]|].
  destruct (sub_universes _ _ _); try discriminate. cbn [bind]. destruct (find _ _) as [[lev l]|]; [|discriminate]. intros [= <-]. eexists. split; [reflexivity|]. 
  assert (H : forall p n ks, (List.length ks <= n)%nat -> incl (filter p ks) (drop_forward p ks) /\ incl (drop_forward p ks) ks).
  { clear. intros p. induction n as [|n IH]; intros [|x ks] L; cbn in *; try lia; try (split; intros y []). destruct (p x) eqn:E.
    - destruct (IH ks ltac:(lia)) as [A B]. split; intros y [-> |I]; cbn; auto.
    - destruct ks as [|y ks]; [split; intros z []|]. cbn in L. destruct (IH ks ltac:(lia)) as [A B]. cbn [filter]. split.
      + intros z I. destruct (p y); cbn in *; [destruct I as [-> |I]|]; auto.
      + intros z [-> |I]; cbn; auto. }
  split; [|intros _]; [eapply (proj1 (H _ _ _ (le_n _)))|eapply (proj2 (H _ _ _ (le_n _)))].
Qed.
