(** PHITS with one void cell (property C58): from the cells of Start.v to the cells that
    phits_format.py ("ph") 256-355 writes (Export.phits_cell_uni), and what such a file means. *)
From Coq Require Import String.
From Verif Require Import Prelude BoolSpec BoolSeq BoolProofs SurfDict ConePlanes Export.
Open Scope Z_scope.

Section Label.
  (** Material, MatInfo and Comments of a solid; Comments of a void cell or comment line *)
  Variable mat_of : Z -> Z.
  Variable info_of com_of : Z -> string.

  (** core.py 559-593: labels from [n] on.  Comment lines (GeounedSolid(None)) have no label
      (0 here) and no definition (the empty one here).  The last two cells are those of the
      graveyard, void.py 180-217, with their MatInfo; the other void cells have none. *)
  Definition labelled (n : Z) (inf : string) (m : mcell) : cell :=
    match m_id m, m_def m with
    | Some i, Some d =>
        if m_void m then Cell true n 0 true inf (com_of i) d
        else Cell true n (mat_of i) false (info_of i) (com_of i) d
    | i, _ => Cell false 0 0 false "" (com_of (match i with Some i => i | None => 0 end)) (Seq AND 0 [])
    end.
  Fixpoint label_cells (n : Z) (ms : list mcell) : list cell :=
    match ms with
    | [] => []
    | m :: r =>
        let inf := match r with [] => "Graveyard" | [_] => "Graveyard_in" | _ => "" end%string in
        let c := labelled n inf m in
        c :: label_cells (if has_id c then n + 1 else n) r
    end.
End Label.

(** ph 168-171, 256-355: the cell block of a STEP file without enclosures (as in Export.write_one;
    the signs of planes, simplify_planes, are those of the definitions: see C28) *)
Definition merged_file (start : Z) (cs : list cell) : res (list ocell) :=
  do l <- mapM (phits_cell_uni start (solid_cells cs)) cs; Ok (flat_map snd l).

(** ** Meaning of the file: in PHITS "#n" is the outside of the cell with number n.  The place
    with sides [v]; the cells that are named by # have no # themselves (C58_cells_partial). *)
Definition numbered_true (v : point) (file : list ocell) (i : Z) : bool :=
  existsb (fun o => match o with OCell n _ _ d _ _ _ => (n =? i) && eval v d | OComment _ => false end) file.
Definition phits_true (v : point) (file : list ocell) (o : ocell) : bool :=
  match o with
  | OCell _ _ _ d ex _ _ => eval v d && forallb (fun i => negb (numbered_true v file i)) ex
  | OComment _ => false
  end.
Definition is_cell (o : ocell) : bool := match o with OCell _ _ _ _ _ _ _ => true | OComment _ => false end.
Definition number_of (o : ocell) : Z := match o with OCell n _ _ _ _ _ _ => n | OComment _ => 0 end.
Definition def_of (o : ocell) : option node := match o with OCell _ _ _ d _ _ _ => Some d | OComment _ => None end.
Definition hashes (o : ocell) : list Z := match o with OCell _ _ _ _ ex _ _ => ex | OComment _ => [] end.
Definition outside (o : ocell) : bool := match o with OCell _ _ out _ _ _ _ => out | OComment _ => false end.

(** ** Proofs *)
Definition is_sol (m : mcell) : Prop := m_void m = false /\ (exists i, m_id m = Some i) /\ (exists n, m_def m = Some n).
Definition is_rest (m : mcell) : Prop :=
  (m_void m = true /\ (exists i, m_id m = Some i) /\ (exists n, m_def m = Some n)) \/ (m_id m = None /\ m_def m = None).

Section Proofs.
  Variable mat_of : Z -> Z.
  Variable info_of com_of : Z -> string.
  Notation labelled := (labelled mat_of info_of com_of).
  Notation label_cells := (label_cells mat_of info_of com_of).

  (** cells that are followed by two or more others *)
  Fixpoint label_pre (n : Z) (ms : list mcell) : list cell :=
    match ms with
    | [] => []
    | m :: r => let c := labelled n "" m in c :: label_pre (if has_id c then n + 1 else n) r
    end.
  Fixpoint next (n : Z) (ms : list mcell) : Z :=
    match ms with
    | [] => n
    | m :: r => next (if has_id (labelled n "" m) then n + 1 else n) r
    end.
  Lemma next_le : forall ms n, n <= next n ms.
  Proof. induction ms as [|m ms IH]; intros n; cbn [next]; [lia|]. destruct (has_id _); [specialize (IH (n + 1)); lia|apply IH]. Qed.
  Lemma label_app : forall l n a b, label_cells n (l ++ [a; b]) = label_pre n l ++ label_cells (next n l) [a; b].
  Proof.
    induction l as [|m l IH]; intros n a b; [reflexivity|]. cbn [app label_pre next PhitsVoid.label_cells].
    destruct (l ++ [a; b]) as [|x [|y r]] eqn:E.
    - apply (f_equal (@List.length mcell)) in E. rewrite app_length in E. cbn in E. lia.
    - apply (f_equal (@List.length mcell)) in E. rewrite app_length in E. cbn in E. lia.
    - cbn zeta. f_equal. rewrite <- E. apply IH.
  Qed.
  Lemma label_pre_app : forall l r n, label_pre n (l ++ r) = label_pre n l ++ label_pre (next n l) r.
  Proof. induction l as [|m l IH]; intros r n; [reflexivity|]. cbn [app label_pre next]. cbn zeta. f_equal. apply IH. Qed.
  Lemma next_app : forall l r n, next n (l ++ r) = next (next n l) r.
  Proof. induction l as [|m l IH]; intros r n; [reflexivity|]. cbn [app next]. apply IH. Qed.

  (** the written cell of a solid *)
  Definition sol_out (n : Z) (m : mcell) : ocell :=
    let i := match m_id m with Some i => i | None => 0 end in
    OCell n (mat_of i) false (match m_def m with Some d => d | None => Seq AND 0 [] end) [] (com_of i) (info_of i).
  Fixpoint sols_out (n : Z) (ms : list mcell) : list ocell :=
    match ms with [] => [] | m :: r => sol_out n m :: sols_out (n + 1) r end.

  Lemma mapM_app {A B} (f : A -> res B) l1 l2 : mapM f (l1 ++ l2) = do a <- mapM f l1; do b <- mapM f l2; Ok (a ++ b).
  Proof.
    induction l1 as [|x l1 IH]; cbn [mapM app bind].
    - destruct (mapM f l2); reflexivity.
    - destruct (f x); cbn [bind]; auto. rewrite IH. destruct (mapM f l1); cbn [bind]; auto. destruct (mapM f l2); reflexivity.
  Qed.

  Lemma sols_written s k : forall sols n, Forall is_sol sols ->
    next n sols = n + Z.of_nat (List.length sols) /\
    solid_cells (label_pre n sols) = Z.of_nat (List.length sols) /\
    exists l, mapM (phits_cell_uni s k) (label_pre n sols) = Ok l /\ flat_map snd l = sols_out n sols.
  Proof.
    induction sols as [|m sols IH]; intros n F.
    - cbn. split; [lia|]. split; auto. exists []. auto.
    - inversion F as [|? ? (V & (i & E1) & (d & E2)) F']; subst. cbn [label_pre next]. cbn zeta.
      assert (L : labelled n "" m = Cell true n (mat_of i) false (info_of i) (com_of i) d) by (unfold PhitsVoid.labelled; rewrite E1, E2, V; reflexivity).
      rewrite L. cbn [has_id]. destruct (IH (n + 1) F') as (A & B & l & C & D). split; [rewrite A; cbn [List.length]; lia|]. split.
      + unfold solid_cells in *. cbn [filter has_id isvoid negb andb List.length]. lia.
      + eexists. cbn [mapM]. unfold phits_cell_uni at 1. cbn [has_id isvoid bind]. rewrite C. cbn [bind]. split; [reflexivity|].
        cbn [flat_map snd sols_out app]. rewrite D. f_equal. unfold sol_out. rewrite E1, E2. reflexivity.
  Qed.
  Lemma rest_written s k : forall rest n, Forall is_rest rest ->
    solid_cells (label_pre n rest) = 0 /\
    exists l, mapM (phits_cell_uni s k) (label_pre n rest) = Ok l /\ filter is_cell (flat_map snd l) = [].
  Proof.
    induction rest as [|m rest IH]; intros n F.
    - split; auto. exists []. auto.
    - inversion F as [|? ? R F']; subst. cbn [label_pre]. cbn zeta. destruct R as [(V & (i & E1) & (d & E2))|(E1 & E2)].
      + assert (L : labelled n "" m = Cell true n 0 true "" (com_of i) d) by (unfold PhitsVoid.labelled; rewrite E1, E2, V; reflexivity).
        rewrite L. cbn [has_id]. destruct (IH (n + 1) F') as (A & l & C & D). split; [unfold solid_cells in *; cbn [filter has_id isvoid negb andb]; auto|].
        eexists. cbn [mapM]. unfold phits_cell_uni at 1. cbn [has_id isvoid info is_graveyard]. unfold is_graveyard. cbn [info].
        change (String.eqb "" "Graveyard_in") with false. change (String.eqb "" "Graveyard") with false. cbn iota. cbn [bind]. rewrite C. cbn [bind]. split; [reflexivity|]. exact D.
      + assert (L : labelled n "" m = Cell false 0 0 false "" (com_of 0) (Seq AND 0 [])) by (unfold PhitsVoid.labelled; rewrite E1; reflexivity).
        rewrite L. cbn [has_id]. destruct (IH n F') as (A & l & C & D). split; [unfold solid_cells in *; cbn [filter has_id isvoid negb andb]; auto|].
        eexists. cbn [mapM]. unfold phits_cell_uni at 1. cbn [has_id bind]. rewrite C. cbn [bind]. split; [reflexivity|]. exact D.
  Qed.
  Lemma solid_cells_app l r : solid_cells (l ++ r) = solid_cells l + solid_cells r.
  Proof. unfold solid_cells. rewrite filter_app, app_length. lia. Qed.

  (** The file: the solids, and two cells. *)
  Lemma phits_file sc sols rest a b ja jb k lev t :
    Forall is_sol sols -> Forall is_rest rest ->
    m_id a = Some ja -> m_void a = true -> m_def a = Some (Seq AND lev (Lit (- k) :: t)) ->
    m_id b = Some jb -> m_void b = true -> m_def b = Some (Seq AND 0 [Lit k]) ->
    let cs := label_cells sc (sols ++ rest ++ [a; b]) in
    exists l na, mapM (phits_cell_uni sc (solid_cells cs)) cs = Ok l /\ sc + Z.of_nat (List.length sols) <= na /\
      filter is_cell (flat_map snd l) = sols_out sc sols ++
        [OCell na 0 false (Seq AND lev [Lit (- k)]) (zrange sc (Z.of_nat (List.length sols) + sc)) "VOID CELLs merged" "Inner void";
         OCell (na + 1) 0 true (Seq AND 0 [Lit k]) [] (com_of jb) "Outer void"].
  Proof.
    intros FS FR A1 A2 A3 B1 B2 B3 cs.
    assert (E : cs = label_pre sc (sols ++ rest) ++ label_cells (next sc (sols ++ rest)) [a; b]) by (unfold cs; rewrite app_assoc; apply label_app).
    set (na := next sc (sols ++ rest)) in *.
    assert (LA : label_cells na [a; b] = [Cell true na 0 true "Graveyard_in" (com_of ja) (Seq AND lev (Lit (- k) :: t));
      Cell true (na + 1) 0 true "Graveyard" (com_of jb) (Seq AND 0 [Lit k])]).
    { cbn [PhitsVoid.label_cells]. cbn zeta. unfold PhitsVoid.labelled. rewrite A1, A2, A3, B1, B2, B3. reflexivity. }
    rewrite LA in E. rewrite label_pre_app, <- app_assoc in E.
    destruct (rest_written sc (solid_cells cs) rest (next sc sols) FR) as (R0 & lr & R1 & R2).
    destruct (sols_written sc (solid_cells cs) sols sc FS) as (S0 & S1 & ls & S2 & S3).
    assert (NS : solid_cells cs = Z.of_nat (List.length sols)).
    { rewrite E, !solid_cells_app, S1, R0. unfold solid_cells. cbn. lia. }
    rewrite NS in *. rewrite E, !mapM_app, S2, R1. cbn [bind mapM].
    unfold phits_cell_uni. cbn [has_id isvoid info def label mat]. change (String.eqb "Graveyard_in" "Graveyard_in") with true.
    change (String.eqb "Graveyard" "Graveyard_in") with false. unfold is_graveyard. cbn [info].
    change (String.eqb "Graveyard" "Graveyard") with true. cbn iota. cbn [first_element firstn bind].
    eexists. exists na. split; [reflexivity|]. split.
    - rewrite <- S0. unfold na. rewrite next_app. apply next_le.
    - rewrite !flat_map_app, !filter_app, S3, R2. cbn [flat_map snd app filter is_cell comments set_comments set_info set_def info]. f_equal.
      clear. revert sc. induction sols as [|m sols IH]; intros sc; cbn [sols_out filter is_cell sol_out]; auto. rewrite IH. reflexivity.
  Qed.

  (** ** Its meaning *)
  Definition sol_true (v : point) (m : mcell) : bool := match m_def m with Some n => eval v n | None => false end.
  Lemma sols_numbers : forall sols n o, In o (sols_out n sols) -> n <= number_of o < n + Z.of_nat (List.length sols) /\ hashes o = [] /\ is_cell o = true /\ outside o = false.
  Proof.
    induction sols as [|m sols IH]; intros n o J; cbn [sols_out] in J; [destruct J|]. cbn [List.length]. destruct J as [<-|J].
    - cbn. split; [lia|auto].
    - apply IH in J. destruct J as (A & B). split; [lia|auto].
  Qed.
  Lemma numbered_filter v file i : numbered_true v file i = numbered_true v (filter is_cell file) i.
  Proof. unfold numbered_true. induction file as [|o file IH]; auto. cbn [existsb filter]. destruct o; cbn [is_cell existsb]; rewrite IH; reflexivity. Qed.
  Lemma phits_true_filter v file o : phits_true v file o = phits_true v (filter is_cell file) o.
  Proof.
    destruct o as [|n m x d ex c i]; auto. cbn [phits_true]. f_equal. induction ex as [|i' ex IH]; auto. cbn [forallb]. rewrite IH, <- numbered_filter. reflexivity.
  Qed.
  Lemma hash_all v : forall sols sc tail, Forall is_sol sols ->
    (forall o, In o tail -> sc + Z.of_nat (List.length sols) <= number_of o) ->
    forallb (fun i => negb (numbered_true v (sols_out sc sols ++ tail) i)) (zrange sc (Z.of_nat (List.length sols) + sc)) = negb (existsb (sol_true v) sols).
  Proof.
    intros sols sc tail F T. apply eq_true_iff_eq. rewrite forallb_forall, negb_true_iff. split.
    - intros H. apply not_true_is_false. intros E. apply existsb_exists in E. destruct E as (m & J & E).
      apply in_split in J. destruct J as (l1 & l2 & ->). set (i := sc + Z.of_nat (List.length l1)).
      specialize (H i). rewrite negb_true_iff in H. assert (C : numbered_true v (sols_out sc (l1 ++ m :: l2) ++ tail) i = true).
      { unfold numbered_true. rewrite existsb_app. apply orb_true_iff. left. apply existsb_exists. exists (sol_out i m). split.
        - unfold i. clear. revert sc. induction l1 as [|x l1 IH]; intros sc; cbn [app sols_out List.length].
          + left. f_equal. lia.
          + right. replace (sc + Z.of_nat (S (List.length l1))) with (sc + 1 + Z.of_nat (List.length l1)) by lia. apply IH.
        - cbn. rewrite Z.eqb_refl. unfold sol_true in E. destruct (m_def m); [exact E|discriminate]. }
      rewrite C in H. discriminate H. unfold zrange. apply in_map_iff. exists (List.length l1). split; [reflexivity|]. apply in_seq. rewrite app_length. cbn [List.length]. lia.
    - intros H i J. apply negb_true_iff. apply not_true_is_false. intros E. unfold numbered_true in E. apply existsb_exists in E. destruct E as (o & J2 & E).
      unfold zrange in J. apply in_map_iff in J. destruct J as (q & <- & J). apply in_seq in J.
      destruct o as [|n m0 x d ex c i0]; [discriminate|]. apply andb_true_iff in E. destruct E as (E1 & E2). apply Z.eqb_eq in E1. subst n.
      apply in_app_or in J2. destruct J2 as [J2|J2]; [|apply T in J2; cbn in J2; lia].
      assert (X : existsb (sol_true v) sols = true); [|congruence]. clear - J2 E2 F. 
      revert J2. generalize (sc + Z.of_nat q) as z. revert sc. induction sols as [|m sols IH]; intros sc z J2; cbn [sols_out] in J2; [destruct J2|].
      inversion F as [|? ? (_ & _ & (n & E)) F']; subst. cbn [existsb]. destruct J2 as [J2|J2].
      + unfold sol_out in J2. injection J2. intros. subst. unfold sol_true at 1. rewrite E in *. rewrite E2. reflexivity.
      + rewrite (IH F' _ _ J2). apply orb_true_r.
  Qed.
  Lemma sols_true v file : forall sols sc, Forall is_sol sols ->
    List.length (filter (phits_true v file) (sols_out sc sols)) = List.length (filter (sol_true v) sols).
  Proof.
    induction sols as [|m sols IH]; intros sc F; auto. inversion F as [|? ? (_ & _ & (n & E)) F']; subst. cbn [sols_out filter].
    unfold sol_out at 1. cbn [phits_true]. unfold sol_true at 1. rewrite E. cbn [forallb]. rewrite andb_true_r. destruct (eval v n); cbn [List.length]; rewrite IH; auto.
  Qed.
  Lemma filter_both {A} (p q : A -> bool) l : (forall x, p x = true -> q x = true) -> filter p (filter q l) = filter p l.
  Proof.
    intros H. induction l as [|x l IH]; auto. cbn [filter]. destruct (q x) eqn:Q; cbn [filter]; rewrite IH; auto. destruct (p x) eqn:P; auto. apply H in P. congruence.
  Qed.
End Proofs.
