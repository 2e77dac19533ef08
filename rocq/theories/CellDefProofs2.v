(** Proofs for C51, second part: the loop over the faces of a piece. *)
From Coq Require Import Ascii String Permutation.
From Verif Require Import Prelude BoolSpec BoolSeq BoolProofs CellText Writers WritersProofs ParenModel PropsText
  SurfDict SurfDictProofs CellDef CellDefSpec CellDefProofs.

Lemma str_neg z : 0 < z -> cs "-" ++ str_int z = str_int (- z).
Proof. destruct z; intros; [lia|reflexivity|lia]. Qed.
Lemma lit_false z : z <> 0 -> exists v, lit_val v z = false.
Proof.
  intros H. exists (fun _ => z <? 0). unfold lit_val. destruct (Z.ltb_spec z 0), (Z.ltb_spec 0 z); try lia; auto.
Qed.
Lemma plane_dec {G} (cls : G -> key) g : is_plane (cls g) = true <-> plane cls g.
Proof. unfold plane. destruct (cls g); simpl; split; intros; try tauto; try discriminate; repeat (destruct H; try discriminate). Qed.

Section Loop.
  Variable G : Type.
  Variable cls : G -> key.
  Variable same : G -> G -> bool.
  Variable opp opp_x : G -> G -> bool.
  Variable P : G -> Prop.
  Variable side : G -> bool.
  Hypothesis FA : faithful cls same opp opp_x P side.
  Variable o : Z.
  Hypothesis HO : 0 <= o.
  Notation dok := (dok G cls P o).
  Notation grow := (grow G).
  Notation consistent := (consistent G side).
  Notation number_in := (number_in cls same).
  Notation face_holds := (face_holds cls side).
  Notation concave := (concave cls).

  (** ** Torus texts *)
  Definition u_val (u : option (G * option G)) : bool :=
    match u with None => true | Some (p, None) => side p | Some (p, Some q) => side p || side q end.
  Definition v_val (pos : bool) (g : G) (tv : option (G * bool)) : bool :=
    if pos then side g && match tv with Some (a, ins) => xorb (side a) ins | None => true end else negb (side g).

  Lemma torus_u_ok u d : dok d ->
    (forall p q, u = Some (p, q) -> P p /\ plane cls p /\ forall q', q = Some q' -> P q' /\ plane cls q') ->
    exists d' x f, torus_u G cls same opp u d = Ok (d', x) /\ dok d' /\ grow d d' /\
      (forall v w b, means v w b -> means v (w ++ x) (b && f v)) /\
      (forall v, consistent v d' -> f v = u_val u).
  Proof.
    intros D H. destruct u as [[p [q|]]|]; cbn [torus_u].
    - destruct (H _ _ eq_refl) as (P1 & L1 & HQ). destruct (HQ _ eq_refl) as (P2 & L2).
      destruct (add_signed_ok G cls same opp opp_x P side FA o HO opp p d) as (d1 & z1 & E1 & D1 & G1 & N1 & V1); auto.
      destruct (add_signed_ok G cls same opp opp_x P side FA o HO opp q d1) as (d2 & z2 & E2 & D2 & G2 & N2 & V2); auto.
      rewrite E1. cbn [bind]. rewrite E2. cbn [bind].
      eexists d2, _, (fun v => lit_val v z1 || lit_val v z2). split; [reflexivity|]. split; auto. split; [eapply grow_trans; eauto|].
      split.
      + intros v w b M. pose proof (means_or v 1 1 _ _ _ _ (means_lit v z1 N1) (means_lit v z2 N2)) as K.
        pose proof (means_and v _ _ _ _ M K) as J. cbn [cs list_ascii_of_string blanks repeat app] in *. rewrite <- ?app_assoc in *. exact J.
      + intros v C. rewrite V2 by auto. rewrite V1 by (eapply grow_cons; eauto). reflexivity.
    - destruct (H _ _ eq_refl) as (P1 & L1 & _).
      destruct (add_signed_ok G cls same opp opp_x P side FA o HO opp p d) as (d1 & z1 & E1 & D1 & G1 & N1 & V1); auto.
      rewrite E1. cbn [bind]. eexists d1, _, (fun v => lit_val v z1). split; [reflexivity|]. split; auto. split; auto. split.
      + intros v w b M. exact (means_and v _ _ _ _ M (means_lit v z1 N1)).
      + intros v C. rewrite V1 by auto. reflexivity.
    - exists d, [], (fun _ => true). split; auto. split; auto. split; [apply grow_refl|]. split; auto.
      intros v w b M. rewrite app_nil_r, andb_true_r. auto.
  Qed.

  Lemma torus_v_ok (pos : bool) g n tv d : dok d -> P g -> cls g = Tor -> number_in d g n ->
    (forall a ins, tv = Some (a, ins) -> P a) ->
    exists d' x f, torus_v G cls same opp (if pos then Reversed else Forward) n tv d = Ok (d', x) /\ dok d' /\ grow d d' /\
      (forall v, means v x (f v)) /\ (exists v, f v = false) /\
      (forall v, consistent v d' -> f v = v_val pos g tv).
  Proof.
    intros D PG CG NB H.
    assert (NPL : ~ plane cls g). { unfold plane. rewrite CG. intuition discriminate. }
    assert (NP : 0 < n).
    { destruct NB as (l1 & s & l2 & E & _ & <- & _). eapply (reg_pos G cls P o HO); eauto. exists (cls g). rewrite E. apply in_or_app. right; left; auto. }
    assert (NV : forall v d', grow d d' -> dok d' -> consistent v d' -> v n = side g).
    { intros v d' GR D' C. eapply (number_val G cls same opp opp_x P side FA o HO d'); eauto. eapply number_grow; eauto. }
    destruct pos; cbn [torus_v].
    - destruct tv as [[a ins]|].
      + assert (PA := H _ _ eq_refl).
        assert (K : exists (d1 : sdict G) (id2 : Z), (if is_plane (cls a) then add_signed G cls same opp a d
                       else let '(d1, (id2, _)) := add G cls same a d in Ok (d1, id2)) = Ok (d1, id2) /\
                    dok d1 /\ grow d d1 /\ id2 <> 0 /\ forall v, consistent v d1 -> lit_val v id2 = side a).
        { destruct (is_plane (cls a)) eqn:IP.
          - apply plane_dec in IP.
            destruct (add_signed_ok G cls same opp opp_x P side FA o HO opp a d) as (d1 & z1 & E1 & D1 & G1 & N1 & V1); auto.
            exists d1, z1. auto.
          - destruct (add_ok G cls same P o HO a d D PA) as (d1 & s & b & E & D1 & GR & IN & _ & SM & POS & _).
            rewrite E. exists d1, (index s). split; auto. split; auto. split; auto. split; [lia|].
            intros v C. rewrite lit_pos by auto. rewrite (C s) by (exists (cls a); auto).
            symmetry. pose proof D1 as (_ & _ & A & B). destruct (FA a (geo s)) as (F & _); auto.
            + apply A. exists (cls a); auto.
            + symmetry. apply B; auto.
            + destruct SM; auto.
            + apply F. intros Q. apply plane_dec in Q. congruence. }
        destruct K as (d1 & id2 & -> & D1 & G1 & N2 & V2). cbn [bind].
        assert (N2' : (if ins then - id2 else id2) <> 0) by (destruct ins; lia).
        eexists d1, _, (fun v => lit_val v n && lit_val v (if ins then - id2 else id2)). split; [reflexivity|]. split; auto. split; auto. split; [|split].
        * intros v. apply means_and; apply means_lit; lia.
        * destruct (lit_false n) as (v & E); [lia|]. exists v. rewrite E. reflexivity.
        * intros v C. cbn [v_val]. f_equal; [rewrite lit_pos by lia; eauto|].
          rewrite <- (V2 v C). destruct ins; [rewrite lit_val_opp by lia|]; destruct (lit_val v id2); reflexivity.
      + eexists d, _, (fun v => lit_val v n). split; [reflexivity|]. split; auto. split; [apply grow_refl|]. split; [|split].
        * intros v. apply means_lit. lia.
        * apply lit_false. lia.
        * intros v C. cbn [v_val]. rewrite andb_true_r, lit_pos by lia. apply (NV v d); auto. apply grow_refl.
    - eexists d, _, (fun v => lit_val v (- n)). split; [reflexivity|]. split; auto. split; [apply grow_refl|]. split; [|split].
      + intros v. rewrite str_neg by lia. apply means_lit. lia.
      + apply lit_false. lia.
      + intros v C. cbn [v_val]. rewrite lit_neg by lia. f_equal. apply (NV v d); auto. apply grow_refl.
  Qed.

  (** ** The loop *)
  Variable d0 : sdict G.
  Hypothesis D0 : dok d0.
  Variable inv : bool.
  Variable FS : list (face G).
  Hypothesis HF : forall f, In f FS -> found cls same d0 inv f.
  Hypothesis HK : forall f, In f FS -> kinds_ok cls f.
  Hypothesis HP : forall f g, In f FS -> geometry f g -> P g.
  Hypothesis HG : groups_ok cls same d0 (Piece inv FS).

  Lemma matter_fun (f : face G) pos pos' : matter inv f pos -> matter inv f pos' -> pos = pos'.
  Proof. intros (_ & A) (_ & B). destruct (f_orient f); try contradiction; congruence. Qed.

  Definition is_cone (f : face G) (z : Z) : Prop :=
    exists pos g n, matter inv f pos /\ f_geo f = Some g /\ cls g = Cone /\ number_in d0 g n /\ z = if pos then n else - n.
  Definition torus_group (pf : list (face G)) (k : Z) : Prop :=
    exists f pos g, In f pf /\ matter inv f pos /\ f_geo f = Some g /\ cls g = Tor /\ t_group (f_torus f) = k.

  (** Extra planes of the processed faces. *)
  Record extras_ok (pf : list (face G)) (ex : list (Z * list chars)) (d : sdict G) : Prop := {
    ex_keys : NoDup (map fst ex);
    ex_ne : forall k es, In (k, es) ex -> es <> [];
    ex_from : forall k es e, In (k, es) ex -> In e es -> exists f g p sg z, In f pf /\ concave inv f g p sg /\ number_in d0 g k /\
      e = str_int z /\ z <> 0 /\ forall v, consistent v d -> (lit_val v z = true <-> side p = sg);
    ex_to : forall f g p sg, In f pf -> concave inv f g p sg -> exists k es z, In (k, es) ex /\ number_in d0 g k /\
      In (str_int z) es /\ z <> 0 /\ forall v, consistent v d -> (lit_val v z = true <-> side p = sg) }.

  Record inv_ok (pf : list (face G)) (c0 : list Z) (s : st G) : Prop := {
    i_dict : dok (s_dict s);
    i_grow : grow d0 (s_dict s);
    i_str : forall x, In x (s_piece s) -> ok_str x;
    i_conj : forall v, consistent v (s_dict s) -> (conj v (s_piece s) <-> forall f, In f pf -> face_holds inv f);
    i_false : forall f pos, In f pf -> matter inv f pos -> exists x v, In x (s_piece s) /\ means v x false;
    i_face : s_piece s <> [] -> exists f pos, In f pf /\ matter inv f pos;
    i_last : s_last s = -1 \/ torus_group pf (s_last s);
    i_cones : forall z, In z (s_cones s) <-> In z c0 \/ exists f, In f pf /\ is_cone f z;
    i_extra : extras_ok pf (s_extra s) (s_dict s) }.

  Lemma extras_grow pf ex d d' : grow d d' -> extras_ok pf ex d -> extras_ok pf ex d'.
  Proof.
    intros GR []. constructor; auto.
    - intros k es e A B. destruct (ex_from0 _ _ _ A B) as (f & g & p & sg & z & H1 & H2 & H3 & H4 & H5 & H6).
      exists f, g, p, sg, z. do 5 (split; auto). intros v C. apply H6. eapply grow_cons; eauto.
    - intros f g p sg A B. destruct (ex_to0 _ _ _ _ A B) as (k & es & z & H1 & H3 & H4 & H5 & H6).
      exists k, es, z. do 4 (split; auto). intros v C. apply H6. eapply grow_cons; eauto.
  Qed.
  Lemma extras_skip pf ex d f : (forall g p sg, ~ concave inv f g p sg) -> extras_ok pf ex d -> extras_ok (pf ++ [f]) ex d.
  Proof.
    intros N []. constructor; auto.
    - intros k es e A B. destruct (ex_from0 _ _ _ A B) as (f' & g & p & sg & z & H1 & H2). exists f', g, p, sg, z. rewrite in_app_iff. auto.
    - intros f' g p sg A B. apply in_app_or in A. destruct A as [A|[<-|[]]]; [eauto|]. edestruct N; eauto.
  Qed.

  Lemma add_extra_spec k s ex : NoDup (map fst ex) ->
    NoDup (map fst (add_extra k s ex)) /\
    (forall k', In k' (map fst (add_extra k s ex)) -> k' = k \/ In k' (map fst ex)) /\
    (forall k' es, In (k', es) (add_extra k s ex) ->
       In (k', es) ex \/ k' = k /\ (es = [s] \/ exists es', In (k, es') ex /\ es = add_str s es')) /\
    (forall k' es, In (k', es) ex -> exists es', In (k', es') (add_extra k s ex) /\ forall e, In e es -> In e es') /\
    (exists es, In (k, es) (add_extra k s ex) /\ In s es).
  Proof.
    induction ex as [|[k1 es1] ex IH]; intros ND; cbn [add_extra].
    - split; [repeat constructor; auto|]. split; [simpl; intuition|]. split; [|split; [intros ? ? []|exists [s]; simpl; auto]].
      intros k' es [[= <- <-]|[]]. auto.
    - cbn [map fst] in ND. inversion ND; subst. destruct (Z.eqb_spec k1 k) as [->|NE].
      + split; [simpl; constructor; auto|]. split; [simpl; auto|]. split; [|split].
        * intros k' es [[= <- <-]|H]; [|left; right; auto]. right. split; auto. right. exists es1. simpl; auto.
        * intros k' es [[= <- <-]|H]; [|exists es; simpl; auto]. exists (add_str s es1). split; [left; auto|]. intros. apply add_str_In; auto.
        * exists (add_str s es1). split; [left; auto|]. apply add_str_In; auto.
      + destruct IH as (A & B & C & D & es & E & F); auto. split; [|split; [|split; [|split]]].
        * cbn [map fst]. constructor; auto. intros J. apply B in J. destruct J as [->|J]; auto.
        * cbn [map fst]. intros k' [<-|J]; [right; left; auto|]. apply B in J. destruct J; auto. right; right; auto.
        * intros k' es' [J|J]; [left; left; auto|]. destruct (C _ _ J) as [?|(-> & [?|(e2 & ? & ?)])]; [left; right; auto|auto|].
          right. split; auto. right. exists e2. split; auto. right; auto.
        * intros k' es' [J|J]; [exists es'; split; [left; auto|auto]|]. destruct (D _ _ J) as (e2 & ? & ?). exists e2. split; auto. right; auto.
        * exists es. split; auto. right; auto.
  Qed.
  Lemma extras_add pf ex d f g p sg k z : concave inv f g p sg -> number_in d0 g k -> z <> 0 ->
    (forall v, consistent v d -> (lit_val v z = true <-> side p = sg)) ->
    extras_ok pf ex d -> extras_ok (pf ++ [f]) (add_extra k (str_int z) ex) d.
  Proof.
    intros CO NB NZ V [A B C D]. destruct (add_extra_spec k (str_int z) ex A) as (A1 & _ & A3 & A4 & es0 & A5 & A6).
    assert (NEW : exists f0 g0 p0 sg0 z0, In f0 (pf ++ [f]) /\ concave inv f0 g0 p0 sg0 /\ number_in d0 g0 k /\
      str_int z = str_int z0 /\ z0 <> 0 /\ forall v, consistent v d -> (lit_val v z0 = true <-> side p0 = sg0)).
    { exists f, g, p, sg, z. split; [apply in_or_app; right; left; auto|]. auto. }
    assert (OLD : forall k es e, In (k, es) ex -> In e es -> exists f0 g0 p0 sg0 z0, In f0 (pf ++ [f]) /\ concave inv f0 g0 p0 sg0 /\ number_in d0 g0 k /\
      e = str_int z0 /\ z0 <> 0 /\ forall v, consistent v d -> (lit_val v z0 = true <-> side p0 = sg0)).
    { intros k' es e H H'. destruct (C _ _ _ H H') as (f' & g' & p' & sg' & z' & H1 & H2). exists f', g', p', sg', z'. rewrite in_app_iff. auto. }
    constructor; auto.
    - intros k' es H. destruct (A3 _ _ H) as [?|(-> & [->|(es' & _ & ->)])]; eauto; [discriminate|apply add_str_ne].
    - intros k' es e H H'. destruct (A3 _ _ H) as [?|(-> & [->|(es' & I & ->)])]; eauto.
      + destruct H' as [<-|[]]. auto.
      + apply add_str_In in H'. destruct H' as [->|]; eauto.
    - intros f' g' p' sg' H CO'. apply in_app_or in H. destruct H as [H|[<-|[]]].
      + destruct (D _ _ _ _ H CO') as (k' & es & z' & H1 & H2 & H3 & H4). destruct (A4 _ _ H1) as (es' & J1 & J2).
        exists k', es', z'. auto.
      + destruct CO as (_ & E1 & _ & E2), CO' as (_ & E1' & _ & E2'). rewrite E1 in E1'. rewrite E2 in E2'.
        injection E1' as <-. injection E2' as <- <-. exists k, es0, z. auto.
  Qed.

  Lemma skip_ok pf c0 s f : (forall pos, ~ matter inv f pos) -> inv_ok pf c0 s -> inv_ok (pf ++ [f]) c0 s.
  Proof.
    intros N []. constructor; auto.
    - intros v C. rewrite i_conj0 by auto. split; intros H f' I.
      + apply in_app_or in I. destruct I as [I|[<-|[]]]; auto. intros pos g M. edestruct N; eauto.
      + apply H, in_or_app; auto.
    - intros f' pos I M. apply in_app_or in I. destruct I as [I|[<-|[]]]; eauto. edestruct N; eauto.
    - intros H. destruct (i_face0 H) as (f' & pos & I & M). exists f', pos. rewrite in_app_iff. auto.
    - destruct i_last0 as [?|(f' & pos & g & I & R)]; auto. right. exists f', pos, g. rewrite in_app_iff. auto.
    - intros z. rewrite i_cones0. split; intros [?|(f' & I & R)]; auto; right.
      + exists f'. rewrite in_app_iff. auto.
      + apply in_app_or in I. destruct I as [I|[<-|[]]]; eauto. destruct R as (pos & g & n & M & _). edestruct N; eauto.
    - apply extras_skip; auto. intros g p sg (M & _). edestruct N; eauto.
  Qed.

  (** One more text. *)
  Lemma text_ok pf c0 s f pos d x ex la co : inv_ok pf c0 s -> matter inv f pos ->
    dok d -> grow (s_dict s) d ->
    (exists h, (forall v, means v x (h v)) /\ (exists v, h v = false) /\
               forall v, consistent v d -> (h v = true <-> face_holds inv f)) ->
    (la = s_last s \/ torus_group [f] la) ->
    (forall z, In z co <-> In z (s_cones s) \/ is_cone f z) ->
    extras_ok (pf ++ [f]) ex d ->
    inv_ok (pf ++ [f]) c0 (St d (add_str x (s_piece s)) ex la co).
  Proof.
    intros [] M DK GR (h & HM & (v0 & H0) & HV) LA CO EX. constructor; cbn [s_dict s_piece s_extra s_last s_cones]; auto.
    - eapply grow_trans; eauto.
    - intros y. rewrite add_str_In. intros [->|]; auto. eapply means_ok. apply (HM v0).
    - intros v C. rewrite conj_add, i_conj0 by (eapply grow_cons; eauto). rewrite (means_true _ _ _ (HM v)), HV by auto. split.
      + intros (A & B) f' I. apply in_app_or in I. destruct I as [I|[<-|[]]]; auto.
      + intros H. split; intros; apply H, in_or_app; simpl; auto.
    - intros f' pos' I M'. apply in_app_or in I. destruct I as [I|[<-|[]]].
      + destruct (i_false0 _ _ I M') as (y & v & A & B). exists y, v. rewrite add_str_In. auto.
      + exists x, v0. rewrite add_str_In, <- H0. auto.
    - intros _. exists f, pos. rewrite in_app_iff. simpl. auto.
    - destruct LA as [->|(f' & p' & g' & I & R)].
      + destruct i_last0 as [?|(f' & p' & g & I & R)]; auto. right. exists f', p', g. rewrite in_app_iff. auto.
      + right. exists f', p', g'. rewrite in_app_iff. auto.
    - intros z. rewrite CO, i_cones0. split.
      + intros [[?|(f' & I & R)]|?]; auto; right; [exists f'|exists f]; rewrite in_app_iff; simpl; auto.
      + intros [?|(f' & I & R)]; auto. apply in_app_or in I. destruct I as [I|[<-|[]]]; eauto.
  Qed.

  Lemma add_cone_In z y l : In y (add_cone z l) <-> y = z \/ In y l.
  Proof.
    unfold add_cone. destruct (existsb (Z.eqb z) l) eqn:E.
    - apply existsb_exists in E. destruct E as (x & I & E). apply Z.eqb_eq in E. subst. split; auto. intros [->|]; auto.
    - rewrite in_app_iff. simpl. intuition.
  Qed.
  Lemma cones_ok f pos g n l : matter inv f pos -> f_geo f = Some g -> number_in d0 g n ->
    forall z, In z (match cls g with Cone => add_cone (if pos then n else - n) l | _ => l end) <-> In z l \/ is_cone f z.
  Proof.
    intros M E NB z.
    assert (NC : cls g <> Cone -> ~ is_cone f z).
    { intros NC (p' & g' & n' & _ & E' & C & _). congruence. }
    destruct (cls g) eqn:C; try (split; [auto|intros [?|K]; [auto|exfalso; apply NC; auto; discriminate]]).
    rewrite add_cone_In. split; intros [H|H]; auto.
    - right. exists pos, g, n. auto.
    - destruct H as (p' & g' & n' & M' & E' & _ & NB' & ->). rewrite E in E'. injection E' as <-.
      rewrite (matter_fun _ _ _ M M') in *. rewrite (number_uniq G cls same _ _ _ _ NB NB'). auto.
  Qed.

  Lemma curved_ok pf c0 s f g : inv_ok pf c0 s -> In f FS -> matter inv f true -> f_geo f = Some g ->
    (cls g = Cyl \/ cls g = Cone \/ cls g = Sph) ->
    exists s', curved_step G cls same opp_x f g s = Ok s' /\ inv_ok (pf ++ [f]) c0 s' /\ grow (s_dict s) (s_dict s').
  Proof.
    intros IV IF M EG CG. pose proof IV as [].
    destruct (HF f IF true M) as (g' & EG' & FO & _). rewrite EG in EG'. injection EG' as <-.
    assert (NPL : ~ plane cls g) by (unfold plane; intuition congruence).
    destruct FO as [?|[(_ & ?)|(n & NB)]]; [contradiction|discriminate|].
    assert (NB' : number_in (s_dict s) g n) by (eapply number_grow; eauto).
    assert (PG : P g) by (eapply HP; eauto; left; auto).
    assert (NT : cls g <> Tor) by intuition congruence.
    unfold curved_step. rewrite (get_id_number G cls same _ _ _ NB').
    assert (NP : 0 < n).
    { destruct NB as (l1 & t & l2 & E & _ & <- & _). apply (reg_pos G cls P o HO d0 t D0). exists (cls g). rewrite E. apply in_or_app. right; left; auto. }
    assert (TX : forall d, dok d -> grow (s_dict s) d ->
      exists h, (forall v, means v (str_int n) (h v)) /\ (exists v, h v = false) /\
               forall v, consistent v d -> (h v = true <-> face_holds inv f)).
    { intros d DK GR. exists (fun v => lit_val v n). split; [intros; apply means_lit; lia|]. split; [apply lit_false; lia|].
      intros v C. rewrite lit_pos by lia.
      destruct (number_val G cls same opp opp_x P side FA o HO d g n v) as (_ & ->); auto; [eapply number_grow; eauto|].
      unfold CellDefSpec.face_holds. split.
      - intros H pos g' M' E'. rewrite EG in E'. injection E' as <-. rewrite (matter_fun _ _ _ M' M).
        destruct (cls g); congruence || auto.
      - intros H. specialize (H true g M EG). destruct (cls g); congruence || auto. }
    destruct (f_extra f) as [[p sg]|] eqn:EX.
    - assert (PP : P p) by (eapply HP; eauto; right; left; eauto).
      assert (PL : plane cls p) by (apply (proj1 (HK f IF) p sg EX)).
      destruct (add_signed_ok G cls same opp opp_x P side FA o HO opp_x p (s_dict s)) as (d1 & z & E1 & D1 & G1 & N1 & V1); auto.
      rewrite E1. cbn [bind]. eexists. split; [reflexivity|]. split; [|exact G1].
      assert (CO : concave inv f g p sg) by (split; auto).
      apply (text_ok pf c0 s f true); auto.
      + apply (cones_ok f true g n); auto.
      + eapply extras_add; eauto; [destruct sg; lia| |eapply extras_grow; eauto].
        intros v C. rewrite <- (V1 v C). destruct sg; [reflexivity|]. rewrite lit_val_opp by lia. rewrite negb_true_iff. reflexivity.
    - eexists. split; [reflexivity|]. split; [|apply grow_refl]. apply (text_ok pf c0 s f true); auto.
      + apply grow_refl.
      + apply TX; auto. apply grow_refl.
      + apply (cones_ok f true g n); auto.
      + apply extras_skip; auto. intros g' p sg (_ & _ & _ & E'). congruence.
  Qed.

  Lemma other_ok pf c0 s f g (pos : bool) : inv_ok pf c0 s -> In f FS -> matter inv f pos -> f_geo f = Some g ->
    cls g <> Tor -> (plane cls g \/ pos = false) ->
    exists s', other_step G cls same opp (if pos then Reversed else Forward) g s = Ok s' /\ inv_ok (pf ++ [f]) c0 s' /\ grow (s_dict s) (s_dict s').
  Proof.
    intros IV IF M EG NT PF. pose proof IV as [].
    destruct (HF f IF pos M) as (g' & EG' & FO & _). rewrite EG in EG'. injection EG' as <-.
    assert (PG : P g) by (eapply HP; eauto; left; auto).
    unfold other_step.
    (* the registered surface *)
    assert (K : exists d1 t, (if get_id G cls same g (s_dict s) =? 0 then
        match cls g with
        | PX | PY | PZ | PP | Cyl => let '(d1, (ix, _)) := add G cls same g (s_dict s) in (d1, ix)
        | _ => (s_dict s, get_id G cls same g (s_dict s))
        end
      else (s_dict s, get_id G cls same g (s_dict s))) = (d1, index t) /\ dok d1 /\ grow (s_dict s) d1 /\
      In t (group d1 (cls g)) /\ (g = geo t \/ same g (geo t) = true)).
    { destruct (get_id_spec G cls same P o (s_dict s) g) as [(n & NB)|Z0]; auto.
      - rewrite (get_id_number G cls same _ _ _ NB). destruct NB as (l1 & t & l2 & E & SM & <- & _).
        assert (IN : In t (group (s_dict s) (cls g))) by (rewrite E; apply in_or_app; right; left; auto).
        assert (0 < index t). { eapply (reg_pos G cls P o HO); eauto. exists (cls g); auto. }
        destruct (Z.eqb_spec (index t) 0); [lia|]. exists (s_dict s), t. split; auto. split; auto. split; [apply grow_refl|]. auto.
      - rewrite Z0. cbn [Z.eqb].
        assert (AD : exists d1 t, (let '(d1, (ix, _)) := add G cls same g (s_dict s) in (d1, ix)) = (d1, index t) /\ dok d1 /\ grow (s_dict s) d1 /\
          In t (group d1 (cls g)) /\ (g = geo t \/ same g (geo t) = true)).
        { destruct (add_ok G cls same P o HO g (s_dict s)) as (d1 & t & b & E & D1 & G1 & IN & _ & SM & _); auto.
          rewrite E. exists d1, t. split; auto. split; auto. split; auto. split; auto. destruct SM; auto. }
        destruct FO as [PL|[(CG & _)|(n & NB)]].
        + destruct PL as [C|[C|[C|C]]]; rewrite C in *; exact AD.
        + rewrite CG in *. exact AD.
        + exfalso. assert (NB' : number_in (s_dict s) g n) by (eapply number_grow; eauto).
          rewrite (get_id_number G cls same _ _ _ NB') in Z0. destruct NB' as (l1 & t & l2 & E & _ & <- & _).
          assert (0 < index t); [|lia]. eapply (reg_pos G cls P o HO); [exact i_dict0|]. exists (cls g). rewrite E. apply in_or_app. right; left; auto. }
    assert (CN : match cls g with Cone => True | _ => False end -> exists n, number_in d0 g n /\ get_id G cls same g (s_dict s) = n).
    { intros C. destruct FO as [PL|[(CG & _)|(n & NB)]].
      - unfold plane in PL. destruct (cls g); try contradiction; intuition discriminate.
      - rewrite CG in C. contradiction.
      - exists n. split; auto. apply get_id_number. eapply number_grow; eauto. }
    assert (PC : cls g = Cone -> pos = false). { intros C. destruct PF as [PL|]; auto. unfold plane in PL. rewrite C in PL. intuition discriminate. }
    destruct K as (d1 & t & -> & D1 & G1 & IN & SM).
    assert (R : registered_in d1 t) by (exists (cls g); auto).
    assert (POS : 0 < index t) by (eapply (reg_pos G cls P o HO); eauto).
    assert (CT : cls g = cls (geo t)). { pose proof D1 as (_ & _ & _ & B). symmetry. apply B; auto. }
    assert (PT : P (geo t)). { destruct D1 as (_ & _ & A & _). auto. }
    destruct (FA g (geo t) PG PT CT SM) as (F1 & F2).
    set (var := match (if pos then Reversed else Forward) with Forward => - index t | _ => index t end).
    assert (EV : var = if pos then index t else - index t) by (unfold var; destruct pos; reflexivity).
    assert (K2 : exists d2 z, (if is_plane (cls g) then
         do (d', r) <- get_surface (index t) d1;
         match r with
         | Some r => Ok (d', if opp g (geo r) then - var else var)
         | None => Err AttributeError
         end else Ok (d1, var)) = Ok (d2, z) /\ dok d2 /\ grow d1 d2 /\ z <> 0 /\
         forall v, consistent v d2 -> (lit_val v z = true <-> side g = pos)).
    { destruct (is_plane (cls g)) eqn:IP.
      - apply plane_dec in IP. destruct (get_reg G cls P o _ _ D1 R) as (d2 & EG2 & D2 & G12 & G21). rewrite EG2. cbn [bind].
        eexists d2, _. split; [reflexivity|]. split; auto. split; auto. rewrite EV. split; [destruct (opp g (geo t)), pos; lia|].
        intros v C. assert (V : v (index t) = side (geo t)). { apply C. eapply grow_reg; eauto. }
        destruct (F2 IP) as (F & _). rewrite F. rewrite <- V.
        destruct (opp g (geo t)), pos; rewrite ?Z.opp_involutive, ?lit_neg, ?lit_pos by auto; destruct (v (index t)); simpl; intuition congruence.
      - assert (NPL : ~ plane cls g). { intros Q. apply plane_dec in Q. congruence. }
        exists d1, var. split; auto. split; auto. split; [apply grow_refl|]. rewrite EV. split; [destruct pos; lia|].
        intros v C. rewrite (F1 NPL). rewrite <- (C t R). destruct pos; rewrite ?lit_neg, ?lit_pos by auto; destruct (v (index t)); simpl; intuition congruence. }
    destruct K2 as (d2 & z & E2 & D2 & G2 & NZ & V2). cbv beta iota zeta. rewrite E2. cbn [bind].
    assert (G02 : grow (s_dict s) d2) by (eapply grow_trans; eauto).
    eexists. split; [reflexivity|]. split; [|exact G02]. apply (text_ok pf c0 s f pos); auto.
    - exists (fun v => lit_val v z). split; [intros; apply means_lit; auto|]. split; [apply lit_false; auto|].
      intros v C. rewrite V2 by auto. unfold CellDefSpec.face_holds. split.
      + intros H pos' g' M' E'. rewrite EG in E'. injection E' as <-. rewrite (matter_fun _ _ _ M' M).
        destruct (cls g); congruence || auto.
      + intros H. specialize (H pos g M EG). destruct (cls g); congruence || auto.
    - intros y. destruct (cls g) eqn:CG;
        try (split; [auto|intros [?|K]; [auto|exfalso; destruct K as (p' & g' & n' & _ & E' & C' & _); congruence]]).
      destruct (CN Logic.I) as (n & NB & E). rewrite E. pose proof (cones_ok f pos g n (s_cones s) M EG NB y) as K.
      rewrite CG, (PC eq_refl) in K. exact K.
    - apply extras_skip; [|eapply extras_grow; eauto]. intros g' p sg (M' & E' & C' & _).
      rewrite EG in E'. injection E' as <-. destruct PF as [PL|PF]; [unfold plane in PL; intuition congruence|].
      pose proof (matter_fun _ _ _ M M'). congruence.
  Qed.

  Lemma torus_ok pf c0 s f g (pos : bool) : inv_ok pf c0 s -> (forall x, In x pf -> In x FS) -> In f FS -> matter inv f pos -> f_geo f = Some g ->
    cls g = Tor ->
    exists s', torus_step G cls same opp (if pos then Reversed else Forward) f g s = Ok s' /\ inv_ok (pf ++ [f]) c0 s' /\ grow (s_dict s) (s_dict s').
  Proof.
    intros IV SUB IF M EG CG. pose proof IV as [].
    destruct (HF f IF pos M) as (g' & EG' & FO & TO). rewrite EG in EG'. injection EG' as <-.
    assert (PG : P g) by (eapply HP; eauto; left; auto).
    assert (NPL : ~ plane cls g). { unfold plane. rewrite CG. intuition discriminate. }
    destruct (TO CG) as (AL & GP). destruct FO as [?|[(? & _)|(n & NB)]]; [contradiction|congruence|].
    assert (NB' : number_in (s_dict s) g n) by (eapply number_grow; eauto).
    unfold torus_step. rewrite AL, (get_id_number G cls same _ _ _ NB').
    set (pos' := xorb pos (t_inner (f_torus f))).
    replace (if t_inner (f_torus f) then match (if pos then Reversed else Forward) with Forward => Reversed | _ => Forward end
             else if pos then Reversed else Forward) with (if pos' then Reversed else Forward)
      by (unfold pos'; destruct pos, (t_inner (f_torus f)); reflexivity).
    assert (FHOLDS : face_holds inv f <-> v_val pos' g (t_v (f_torus f)) = true /\ u_val (t_u (f_torus f)) = true).
    { unfold CellDefSpec.face_holds. split.
      - intros H. specialize (H pos g M EG). rewrite CG in H. cbn zeta in H. fold pos' in H. destruct H as (A & B & C). split.
        + unfold v_val. rewrite A. destruct pos'; [|reflexivity]. destruct (t_v (f_torus f)) as [[a ins]|]; [|reflexivity].
          rewrite (B eq_refl). destruct ins; reflexivity.
        + unfold u_val. destruct (t_u (f_torus f)) as [[p [q|]]|]; auto. destruct C as [->| ->]; [reflexivity|apply orb_true_r].
      - intros (A & B) p2 g2 M2 E2. rewrite EG in E2. injection E2 as <-. rewrite (matter_fun _ _ _ M2 M), CG. cbn zeta. fold pos'.
        unfold v_val in A. destruct pos'.
        + apply andb_true_iff in A. destruct A as (A1 & A2). split; auto. split.
          * destruct (t_v (f_torus f)) as [[a ins]|]; auto. intros _. destruct (side a), ins; simpl in *; congruence.
          * unfold u_val in B. destruct (t_u (f_torus f)) as [[p [q|]]|]; auto. apply orb_true_iff; auto.
        + apply negb_true_iff in A. split; auto. split.
          * destruct (t_v (f_torus f)) as [[a ins]|]; auto. discriminate.
          * unfold u_val in B. destruct (t_u (f_torus f)) as [[p [q|]]|]; auto. apply orb_true_iff; auto. }
    destruct (Z.eqb_spec (t_group (f_torus f)) (s_last s)) as [EL|NL].
    - (* same group as the last torus face *)
      exists s. split; auto. split; [|apply grow_refl].
      destruct i_last0 as [?|(f1 & p1 & g1 & I1 & M1 & E1 & C1 & L1)]; [lia|].
      destruct (HG f1 f p1 pos g1 g) as (ET & EP & HN); simpl; auto; [congruence|].
      assert (SD : side g1 = side g).
      { destruct (HF f1 (SUB _ I1) p1 M1) as (gx & EX & FO & _). rewrite E1 in EX. injection EX as <-.
        assert (NPL1 : ~ plane cls g1). { unfold plane. rewrite C1. intuition discriminate. }
        destruct FO as [?|[(? & _)|(n1 & NB1)]]; [contradiction|congruence|].
        pose proof (HN _ NB1) as NB2.
        destruct NB1 as (l1 & t & l2 & Q & S & X & _), NB2 as (l1' & t' & l2' & Q' & S' & X' & _).
        assert (R1 : In t (group d0 (cls g1))) by (rewrite Q; apply in_or_app; right; left; auto).
        assert (R2 : In t' (group d0 (cls g))) by (rewrite Q'; apply in_or_app; right; left; auto).
        pose proof D0 as (_ & _ & AA & BB).
        assert (t = t'). { apply (reg_uniq G cls P o d0); auto; [exists (cls g1); auto|exists (cls g); auto|congruence]. } subst t'.
        assert (PT : P (geo t)) by (apply AA; exists (cls g); auto).
        assert (PG1 : P g1) by (apply (HP f1); auto; left; auto).
        assert (Q1 : cls g1 = cls (geo t)) by (symmetry; apply BB; auto).
        assert (Q2 : cls g = cls (geo t)) by (symmetry; apply BB; auto).
        rewrite (proj1 (FA g1 (geo t) PG1 PT Q1 (or_intror S)) NPL1).
        rewrite (proj1 (FA g (geo t) PG PT Q2 (or_intror S')) NPL). reflexivity. }
      assert (FE : face_holds inv f1 -> face_holds inv f).
      { intros H p2 g2 M2 E2. rewrite EG in E2. injection E2 as <-. rewrite (matter_fun _ _ _ M2 M). specialize (H p1 g1 M1 E1).
        rewrite C1 in H. rewrite CG. cbn zeta in *. rewrite ET in H. rewrite SD, EP in H. exact H. }
      constructor; auto.
      + intros v C. rewrite i_conj0 by auto. split; intros H f' I.
        * apply in_app_or in I. destruct I as [I|[<-|[]]]; auto.
        * apply H, in_or_app; auto.
      + intros f' p' I M'. apply in_app_or in I. destruct I as [I|[<-|[]]]; eauto.
      + intros H. destruct (i_face0 H) as (f' & p' & I & M'). exists f', p'. rewrite in_app_iff. auto.
      + right. exists f1, p1, g1. rewrite in_app_iff. auto.
      + intros z. rewrite i_cones0. split; intros [?|(f' & I & R)]; auto; right.
        * exists f'. rewrite in_app_iff. auto.
        * apply in_app_or in I. destruct I as [I|[<-|[]]]; eauto. destruct R as (p' & g' & n' & _ & E' & C' & _). congruence.
      + apply extras_skip; auto. intros g' p sg (_ & E' & C' & _). rewrite EG in E'. injection E' as <-. intuition congruence.
    - destruct (HK f IF) as (_ & KU).
      destruct (torus_u_ok (t_u (f_torus f)) (s_dict s)) as (d1 & xu & hu & EU & D1 & G1 & MU & VU); auto.
      { intros p q E. destruct (KU p q E) as (K1 & K2). split; [eapply HP; eauto; right; right; left; eauto|]. split; auto.
        intros q' ->. split; auto. eapply HP; eauto. right; right; right; left. eauto. }
      destruct (torus_v_ok pos' g n (t_v (f_torus f)) d1) as (d2 & xv & hv & EV & D2 & G2 & MV & (v0 & F0) & VV); auto.
      { eapply number_grow; eauto. }
      { intros a ins E. eapply HP; eauto. right; right; right; right. eauto. }
      rewrite EU. cbn [bind]. rewrite EV. cbn [bind].
      assert (G02 : grow (s_dict s) d2) by (eapply grow_trans; eauto).
      eexists. split; [reflexivity|]. split; [|exact G02]. apply (text_ok pf c0 s f pos); auto.
      + exists (fun v => hv v && hu v). split; [intros; apply MU, MV|]. split; [exists v0; rewrite F0; reflexivity|].
        intros v C. rewrite VV by auto. rewrite VU by (eapply grow_cons; eauto). rewrite andb_true_iff. symmetry. exact FHOLDS.
      + right. exists f, pos, g. simpl. auto.
      + intros z. split; auto. intros [?|K]; auto. destruct K as (p' & g' & n' & _ & E' & C' & _). congruence.
      + apply extras_skip; [|eapply extras_grow; eauto]. intros g' p sg (_ & E' & C' & _). rewrite EG in E'. injection E' as <-. intuition congruence.
  Qed.

  Lemma face_ok pf c0 s f : inv_ok pf c0 s -> (forall x, In x pf -> In x FS) -> In f FS ->
    exists s', face_step G cls same opp opp_x inv f s = Ok s' /\ inv_ok (pf ++ [f]) c0 s' /\ grow (s_dict s) (s_dict s').
  Proof.
    intros IV SUB IF. unfold face_step.
    destruct (f_small f) eqn:SM.
    { exists s. split; auto. split; [|apply grow_refl]. apply skip_ok; auto. intros pos (A & _). congruence. }
    assert (M : forall pos, matter inv f pos -> (if inv then swap (f_orient f) else f_orient f) = if pos then Reversed else Forward).
    { intros pos (_ & B). destruct (f_orient f), inv; simpl in *; subst; auto; contradiction. }
    assert (K : forall pos, matter inv f pos -> exists s', (match f_geo f with
        | None => Ok (St (s_dict s) (add_str (str_int 0) (s_piece s)) (s_extra s) (s_last s) (s_cones s))
        | Some g =>
            match cls g, (if pos then Reversed else Forward) with
            | Tor, _ => torus_step G cls same opp (if pos then Reversed else Forward) f g s
            | Cyl, Reversed | Cone, Reversed | Sph, Reversed => curved_step G cls same opp_x f g s
            | _, _ => other_step G cls same opp (if pos then Reversed else Forward) g s
            end
        end) = Ok s' /\ inv_ok (pf ++ [f]) c0 s' /\ grow (s_dict s) (s_dict s')).
    { intros pos MA. destruct (HF f IF pos MA) as (g & EG & _). rewrite EG.
      pose proof (other_ok pf c0 s f g pos IV IF MA EG) as OT.
      pose proof (torus_ok pf c0 s f g pos IV SUB IF MA EG) as TT.
      unfold plane in OT.
      destruct (cls g) eqn:CG; try (destruct (OT) as (s' & A); [discriminate|auto|]; exists s'; destruct pos; exact A).
      - destruct pos; [|apply OT; auto; discriminate]. apply (curved_ok pf c0 s f g); auto.
      - destruct pos; [|apply OT; auto; discriminate]. apply (curved_ok pf c0 s f g); auto.
      - destruct pos; [|apply OT; auto; discriminate]. apply (curved_ok pf c0 s f g); auto.
      - destruct pos; apply TT; auto. }
    destruct (f_orient f) eqn:EO.
    - assert (MA : matter inv f inv) by (split; auto; rewrite EO; auto).
      specialize (K _ MA). specialize (M _ MA). rewrite <- M in K. destruct inv; exact K.
    - assert (MA : matter inv f (negb inv)) by (split; auto; rewrite EO; auto).
      specialize (K _ MA). specialize (M _ MA). rewrite <- M in K. destruct inv; exact K.
    - exists s. split; auto. split; [|apply grow_refl]. apply skip_ok; auto. intros pos (_ & A). rewrite EO in A. auto.
  Qed.

  Lemma loop_ok c0 : forall fs pf s, inv_ok pf c0 s -> (forall x, In x (pf ++ fs) -> In x FS) ->
    exists s', face_loop G cls same opp opp_x inv fs s = Ok s' /\ inv_ok (pf ++ fs) c0 s' /\ grow (s_dict s) (s_dict s').
  Proof.
    induction fs as [|f fs IH]; intros pf s IV SUB.
    - exists s. rewrite app_nil_r. split; auto. split; auto. apply grow_refl.
    - cbn [face_loop]. destruct (face_ok pf c0 s f IV) as (s1 & E1 & I1 & G1).
      + intros x H. apply SUB, in_or_app; auto.
      + apply SUB, in_or_app. right; left; auto.
      + rewrite E1. cbn [bind]. destruct (IH (pf ++ [f]) s1 I1) as (s2 & E2 & I2 & G2).
        * intros x. rewrite <- app_assoc. apply SUB.
        * rewrite <- app_assoc in I2. exists s2. split; auto. split; auto. eapply grow_trans; eauto.
  Qed.

  Lemma init_ok d c : dok d -> grow d0 d -> inv_ok [] c (St d [] [] (-1) c).
  Proof.
    intros D GR. constructor; cbn [s_dict s_piece s_extra s_last s_cones]; auto.
    - intros x [].
    - intros v C. split; [intros _ f []|intros _ x []].
    - intros f pos [].
    - congruence.
    - intros z. split; auto. intros [?|(f & [] & _)]; auto.
    - constructor; simpl; try tauto; [constructor|intros; tauto..].
  Qed.
End Loop.
