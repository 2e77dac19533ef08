(** The parenthesis passes of outer_terms / remove_redundant, seen on trees. *)
From Coq Require Import Ascii String Decimal DecimalZ.
From Verif Require Import Prelude BoolSpec BoolSeq CellText ParenModel BoolProofs WritersProofs.

(* ------------------------------------------------------------------ *)
(** * Working trees: the parse tree with the state of each parenthesis *)

Inductive xt :=
| XNum (pre : nat) (sg : chars) (ds : Decimal.uint) (post : nat)
| XBr (pre : nat) (t : xt) (post : nat)      (* turned into [...] *)
| XOpen (pre : nat) (t : xt) (post : nat)    (* not processed yet *)
| XFlat (pre : nat) (t : xt) (post : nat)    (* blanked out *)
| XAnd (a b : xt)
| XOr (a b : xt).

Definition bl (n : nat) : list pc := twice (blanks n).

Section R.
Variable fill : ascii -> ascii.
Hypothesis fill_open : forall c, c <> "("%char -> fill c <> "("%char.
Hypothesis fill_close : forall c, c <> ")"%char -> fill c <> ")"%char.
Hypothesis fill_caret : forall c, c <> "^"%char -> fill c <> "^"%char.
Hypothesis fill_colon : forall c, fill c <> ":"%char.

Definition refill (l : list pc) : list pc := map (fun p => setc (fill (snd p)) p) l.

Fixpoint render (x : xt) : list pc :=
  match x with
  | XNum pre sg ds post => twice (blanks pre ++ sg ++ digits ds ++ blanks post)
  | XBr pre t post => bl pre ++ ("("%char, "["%char) :: refill (render t) ++ (")"%char, "]"%char) :: bl post
  | XOpen pre t post => bl pre ++ ("("%char, "("%char) :: render t ++ (")"%char, ")"%char) :: bl post
  | XFlat pre t post => bl pre ++ ("("%char, " "%char) :: render t ++ (")"%char, " "%char) :: bl post
  | XAnd a b => render a ++ render b
  | XOr a b => render a ++ (":"%char, ":"%char) :: render b
  end.

Fixpoint erase (x : xt) : tree :=
  match x with
  | XNum pre sg ds post => TNum pre sg ds post
  | XBr pre t post | XOpen pre t post | XFlat pre t post => TPar pre (erase t) post
  | XAnd a b => TAnd (erase a) (erase b)
  | XOr a b => TOr (erase a) (erase b)
  end.
Fixpoint inject (t : tree) : xt :=
  match t with
  | TNum pre sg ds post => XNum pre sg ds post
  | TPar pre t post => XOpen pre (inject t) post
  | TAnd a b => XAnd (inject a) (inject b)
  | TOr a b => XOr (inject a) (inject b)
  end.

Lemma twice_app a b : twice (a ++ b) = twice a ++ twice b.
Proof. apply map_app. Qed.
Lemma fst_twice s : map fst (twice s) = s.
Proof. unfold twice. rewrite map_map. simpl. apply map_id. Qed.
Lemma fst_refill l : map fst (refill l) = map fst l.
Proof. unfold refill. rewrite map_map. reflexivity. Qed.
Lemma erase_inject t : erase (inject t) = t.
Proof. induction t; simpl; congruence. Qed.
Lemma render_inject t : render (inject t) = twice (text mcnp t).
Proof.
  induction t; simpl; rewrite ?twice_app; auto; unfold bl.
  - rewrite IHt. simpl. rewrite twice_app. reflexivity.
  - rewrite IHt1, IHt2. reflexivity.
  - rewrite IHt1, IHt2. reflexivity.
Qed.
Lemma fst_bl n : map fst (bl n) = blanks n.
Proof. apply fst_twice. Qed.
Lemma fst_render x : map fst (render x) = text mcnp (erase x).
Proof.
  induction x; simpl; rewrite ?map_app, ?fst_bl; simpl;
    rewrite ?map_app, ?fst_refill; simpl; rewrite ?fst_bl; try congruence.
  apply fst_twice.
Qed.

(* ------------------------------------------------------------------ *)
(** * Character classes *)

Definition par (p : pc) : bool := is_c "(" p || is_c ")" p || is_c "^" p.
Definition plain (l : list pc) : Prop := Forall (fun p => par p = false) l.

Lemma plain_app a b : plain (a ++ b) <-> plain a /\ plain b.
Proof. unfold plain. rewrite Forall_app. tauto. Qed.
Lemma plain_cons p l : plain (p :: l) <-> par p = false /\ plain l.
Proof. unfold plain. rewrite Forall_cons_iff. tauto. Qed.

Definition good_num (sg : chars) (ds : Decimal.uint) : Prop :=
  (sg = [] \/ sg = cs "+" \/ sg = cs "-") /\ ds <> Decimal.Nil.

Lemma digits_Forall (P : ascii -> Prop) ds :
  P "0"%char -> P "1"%char -> P "2"%char -> P "3"%char -> P "4"%char -> P "5"%char ->
  P "6"%char -> P "7"%char -> P "8"%char -> P "9"%char -> Forall P (digits ds).
Proof. intros. induction ds; simpl; constructor; auto. Qed.
Lemma digits_digit ds : Forall (fun c => is_digit c = true) (digits ds).
Proof. apply digits_Forall; reflexivity. Qed.

Lemma num_Forall (P : ascii -> Prop) sg ds :
  good_num sg ds -> P "+"%char -> P "-"%char ->
  (forall c, is_digit c = true -> P c) -> Forall P (sg ++ digits ds).
Proof.
  intros (S & _) H1 H2 HD. apply Forall_app; split.
  - destruct S as [->|[->| ->]]; repeat constructor; auto.
  - eapply Forall_impl; [exact HD|]. apply digits_digit.
Qed.

Lemma blanks_Forall (P : ascii -> Prop) n : P " "%char -> Forall P (blanks n).
Proof. intros H. apply Forall_forall. intros x Hx. apply repeat_spec in Hx. subst; auto. Qed.
Lemma bl_Forall (P : pc -> Prop) n : P (" "%char, " "%char) -> Forall P (bl n).
Proof.
  intros H. unfold bl, twice. apply Forall_map. apply Forall_forall. intros x Hx.
  apply repeat_spec in Hx. subst; auto.
Qed.
Lemma twice_Forall (P : pc -> Prop) s : Forall (fun c => P (c, c)) s -> Forall P (twice s).
Proof. intros H. apply Forall_map. auto. Qed.

Lemma digit_cases c : is_digit c = true ->
  In c ["0"; "1"; "2"; "3"; "4"; "5"; "6"; "7"; "8"; "9"]%char.
Proof.
  unfold is_digit, digit_of. intros H.
  repeat match type of H with context [Ascii.eqb c ?d] =>
    destruct (Ascii.eqb_spec c d); [subst; simpl; auto 20|] end. discriminate.
Qed.
Ltac digit H := apply digit_cases in H; simpl in H;
  repeat match type of H with _ \/ _ => destruct H as [H|H] end; [subst ..|tauto].

(** every number of the working tree is well written *)
Fixpoint nums (x : xt) : Prop :=
  match x with
  | XNum _ sg ds _ => good_num sg ds
  | XBr _ t _ | XOpen _ t _ | XFlat _ t _ => nums t
  | XAnd a b | XOr a b => nums a /\ nums b
  end.

Fixpoint closed (x : xt) : Prop :=
  match x with
  | XNum _ _ _ _ => True
  | XOpen _ _ _ => False
  | XBr _ t _ | XFlat _ t _ => closed t
  | XAnd a b | XOr a b => closed a /\ closed b
  end.

Lemma bl_plain n : plain (bl n).
Proof. apply bl_Forall. reflexivity. Qed.
Lemma par_refill l : plain l -> plain (refill l).
Proof.
  intros H. apply Forall_map. eapply Forall_impl; [|exact H].
  intros [o c] Hp. unfold par, is_c, setc in *. simpl in *.
  apply orb_false_iff in Hp. destruct Hp as (Hp & H3). apply orb_false_iff in Hp. destruct Hp as (H1 & H2).
  apply Ascii.eqb_neq in H1, H2, H3. rewrite !orb_false_iff, !Ascii.eqb_neq. auto.
Qed.
Lemma closed_plain x : nums x -> closed x -> plain (render x).
Proof.
  induction x; simpl; intros N C.
  - apply twice_Forall. repeat (apply Forall_app; split); try (apply blanks_Forall; reflexivity).
    rewrite app_assoc || idtac.
    + destruct N as (S & _). destruct S as [->|[->| ->]]; repeat constructor.
    + eapply Forall_impl; [|apply digits_digit]. intros c H. digit H; reflexivity.
  - rewrite plain_app, plain_cons, plain_app, plain_cons. repeat split; auto using bl_plain, par_refill.
  - tauto.
  - rewrite plain_app, plain_cons, plain_app, plain_cons. repeat split; auto using bl_plain.
  - rewrite plain_app. destruct N, C. auto.
  - rewrite plain_app, plain_cons. destruct N, C. repeat split; auto.
Qed.

(** contents of processed parentheses hold no open parenthesis *)
Fixpoint okx (x : xt) : Prop :=
  match x with
  | XNum _ _ _ _ => True
  | XOpen _ t _ => okx t
  | XBr _ t _ | XFlat _ t _ => closed t
  | XAnd a b | XOr a b => okx a /\ okx b
  end.
Lemma closed_okx x : closed x -> okx x.
Proof. induction x; simpl; auto; tauto. Qed.

(* ------------------------------------------------------------------ *)
(** * Splitting lists *)

Lemma app_eq_split {A} (a b : list A) : forall l o r,
  a ++ b = l ++ o :: r ->
  (exists m, a = l ++ o :: m /\ r = m ++ b) \/ (exists m, l = a ++ m /\ b = m ++ o :: r).
Proof.
  induction a as [|x a IH]; intros l o r H; simpl in *.
  - right. exists l. auto.
  - destruct l as [|y l]; simpl in H; injection H as H1 H2; subst.
    + left. exists a. auto.
    + destruct (IH _ _ _ H2) as [(m & -> & ->)|(m & -> & ->)]; [left|right]; exists m; auto.
Qed.
Lemma cons_eq_split {A} (x : A) b : forall l o r,
  x :: b = l ++ o :: r -> (l = [] /\ x = o /\ b = r) \/ (exists m, l = x :: m /\ b = m ++ o :: r).
Proof. intros [|y l] o r H; simpl in H; injection H as H1 H2; subst; [left; auto|right; eauto]. Qed.

Ltac spl H :=
  match type of H with
  | (_ ++ _) = _ ++ _ :: _ => apply app_eq_split in H;
       let m := fresh "m" in let E := fresh "E" in
       destruct H as [(m & H & E)|(m & E & H)]; try (subst; [idtac])
  | (_ :: _) = _ ++ _ :: _ => apply cons_eq_split in H;
       let m := fresh "m" in let E1 := fresh "E" in let E2 := fresh "E" in
       destruct H as [(E1 & E2 & H)|(m & E1 & H)]; try (subst; [idtac])
  end.

Lemma plain_not_in l a p b : plain l -> l = a ++ p :: b -> par p = false.
Proof. intros H ->. apply plain_app in H. destruct H as (_ & H). apply plain_cons in H. tauto. Qed.

Lemma par_open p : is_c "(" p = true -> par p = true.
Proof. unfold par. intros ->. reflexivity. Qed.
Lemma par_close p : is_c ")" p = true -> par p = true.
Proof. unfold par. intros ->. rewrite orb_true_r. reflexivity. Qed.

(** [p] is a parenthesis inside a plain list: absurd. *)
Ltac absurd_plain Q H := exfalso;
  let W := fresh in pose proof (plain_not_in _ _ _ _ Q H) as W;
  match goal with
  | HC : is_c "(" ?p = true |- _ => match type of W with par p = false => apply par_open in HC; congruence end
  | HC : is_c ")" ?p = true |- _ => match type of W with par p = false => apply par_close in HC; congruence end
  end.

Lemma first_paren x : nums x -> okx x -> forall l1 p l2,
  render x = l1 ++ p :: l2 -> plain l1 -> is_c ")" p = true -> False.
Proof.
  induction x; intros N K l1 p l2 H HP HC; simpl in N, K.
  - absurd_plain (closed_plain (XNum pre sg ds post) N I) H.
  - absurd_plain (closed_plain (XBr pre x post) N K) H.
  - simpl in H. spl H; [absurd_plain (bl_plain pre) H|].
    spl H; [discriminate|].
    rewrite plain_app, plain_cons in HP. destruct HP as (_ & HP & _). discriminate.
  - absurd_plain (closed_plain (XFlat pre x post) N K) H.
  - destruct N as (N1 & N2), K as (K1 & K2). simpl in H. spl H; eauto.
    apply plain_app in HP. destruct HP. eauto.
  - destruct N as (N1 & N2), K as (K1 & K2). simpl in H. spl H; eauto.
    spl H; [discriminate|].
    apply plain_app in HP. destruct HP as (HP1 & HP2). apply plain_cons in HP2. destruct HP2. eauto.
Qed.

Lemma last_paren x : nums x -> okx x -> forall l1 p l2,
  render x = l1 ++ p :: l2 -> plain l2 -> is_c "(" p = true -> False.
Proof.
  induction x; intros N K l1 p l2 H HP HC; simpl in N, K.
  - absurd_plain (closed_plain (XNum pre sg ds post) N I) H.
  - absurd_plain (closed_plain (XBr pre x post) N K) H.
  - simpl in H.
    assert (HH : In (")"%char, ")"%char) l2 -> False).
    { intros Hi. unfold plain in HP. rewrite Forall_forall in HP. apply HP in Hi. discriminate. }
    spl H; [absurd_plain (bl_plain pre) H|].
    spl H; [apply HH; apply in_elt|].
    spl H; [apply HH; apply in_elt|].
    spl H; [discriminate|]. absurd_plain (bl_plain post) H.
  - absurd_plain (closed_plain (XFlat pre x post) N K) H.
  - destruct N as (N1 & N2), K as (K1 & K2). simpl in H. spl H; eauto.
    apply plain_app in HP. destruct HP. eauto.
  - destruct N as (N1 & N2), K as (K1 & K2). simpl in H. spl H.
    + apply plain_app in HP. destruct HP. eauto.
    + spl H; [discriminate|]. eauto.
Qed.

(* ------------------------------------------------------------------ *)
(** * Contexts *)

Inductive fr :=
| FAndL (b : xt) | FAndR (a : xt) | FOrL (b : xt) | FOrR (a : xt) | FOpen (pre post : nat).

Definition fplug (f : fr) (x : xt) : xt :=
  match f with
  | FAndL b => XAnd x b
  | FAndR a => XAnd a x
  | FOrL b => XOr x b
  | FOrR a => XOr a x
  | FOpen pre post => XOpen pre x post
  end.
Fixpoint plug (k : list fr) (x : xt) : xt :=
  match k with [] => x | f :: k => fplug f (plug k x) end.
Definition lfr (f : fr) : list pc :=
  match f with
  | FAndL b => []
  | FAndR a => render a
  | FOrL b => []
  | FOrR a => render a ++ [(":"%char, ":"%char)]
  | FOpen pre post => bl pre ++ [("("%char, "("%char)]
  end.
Definition rfr (f : fr) : list pc :=
  match f with
  | FAndL b => render b
  | FAndR a => []
  | FOrL b => (":"%char, ":"%char) :: render b
  | FOrR a => []
  | FOpen pre post => (")"%char, ")"%char) :: bl post
  end.
Fixpoint lctx (k : list fr) : list pc := match k with [] => [] | f :: k => lfr f ++ lctx k end.
Fixpoint rctx (k : list fr) : list pc := match k with [] => [] | f :: k => rctx k ++ rfr f end.

Lemma render_plug k x : render (plug k x) = lctx k ++ render x ++ rctx k.
Proof.
  induction k as [|f k IH]; simpl; [rewrite app_nil_r; auto|].
  destruct f; simpl; rewrite IH, <- ?app_assoc; simpl; rewrite <- ?app_assoc, ?app_nil_r; auto.
Qed.

Lemma decomp x : nums x -> okx x -> forall A o w c B,
  render x = A ++ o :: w ++ c :: B ->
  is_c "(" o = true -> is_c ")" c = true -> plain w ->
  exists k pre t post, x = plug k (XOpen pre t post) /\ A = lctx k ++ bl pre /\
    o = ("("%char, "("%char) /\ w = render t /\ c = (")"%char, ")"%char) /\ B = bl post ++ rctx k /\ plain (render t).
Proof.
  induction x; intros N K A o w c B H HO HC HW; simpl in N, K.
  - absurd_plain (closed_plain (XNum pre sg ds post) N I) H.
  - absurd_plain (closed_plain (XBr pre x post) N K) H.
  - simpl in H. spl H; [absurd_plain (bl_plain pre) H|].
    spl H.
    + spl H; [exfalso; eapply (first_paren x); eauto|].
      spl H.
      * exists [], pre, x, post. simpl. rewrite ?app_nil_r in *. repeat split; auto.
      * apply plain_app in HW. destruct HW as (_ & HW). apply plain_cons in HW. destruct HW. discriminate.
    + spl H.
      * symmetry in E. spl E.
        -- destruct (IHx N K _ _ _ _ _ H HO HC HW) as (k & p & t & q & G1 & G2 & G3 & G4 & G5 & G6 & G7).
           exists (FOpen pre post :: k), p, t, q. simpl. rewrite G1.
           repeat split; auto.
           ++ rewrite G2, <- !app_assoc. reflexivity.
           ++ rewrite G6, <- !app_assoc. reflexivity.
        -- exfalso. apply plain_app in HW. destruct HW. eapply (last_paren x); eauto.
      * exfalso. spl H; [discriminate|]. absurd_plain (bl_plain post) H.
  - absurd_plain (closed_plain (XFlat pre x post) N K) H.
  - destruct N as (N1 & N2), K as (K1 & K2). simpl in H. spl H.
    + symmetry in E. spl E.
      * destruct (IHx1 N1 K1 _ _ _ _ _ H HO HC HW) as (k & p & t & q & G1 & G2 & G3 & G4 & G5 & G6 & G7).
        exists (FAndL x2 :: k), p, t, q. simpl. rewrite G1. repeat split; auto.
        rewrite G6, <- !app_assoc. reflexivity.
      * exfalso. apply plain_app in HW. destruct HW. eapply (first_paren x2); eauto.
    + destruct (IHx2 N2 K2 _ _ _ _ _ H HO HC HW) as (k & p & t & q & G1 & G2 & G3 & G4 & G5 & G6 & G7).
      exists (FAndR x1 :: k), p, t, q. simpl. rewrite G1. repeat split; auto.
      * rewrite G2, <- !app_assoc. reflexivity.
      * rewrite app_nil_r. auto.
  - destruct N as (N1 & N2), K as (K1 & K2). simpl in H. spl H.
    + symmetry in E. spl E.
      * destruct (IHx1 N1 K1 _ _ _ _ _ H HO HC HW) as (k & p & t & q & G1 & G2 & G3 & G4 & G5 & G6 & G7).
        exists (FOrL x2 :: k), p, t, q. simpl. rewrite G1. repeat split; auto.
        rewrite G6, <- !app_assoc. reflexivity.
      * exfalso. spl E; [discriminate|].
        apply plain_app in HW. destruct HW as (_ & HW). apply plain_cons in HW. destruct HW.
        eapply (first_paren x2); eauto.
    + spl H; [discriminate|].
      destruct (IHx2 N2 K2 _ _ _ _ _ H HO HC HW) as (k & p & t & q & G1 & G2 & G3 & G4 & G5 & G6 & G7).
      exists (FOrR x1 :: k), p, t, q. simpl. rewrite G1. repeat split; auto.
      * rewrite G2, <- !app_assoc. reflexivity.
      * rewrite app_nil_r. auto.
Qed.

(* ------------------------------------------------------------------ *)
(** * Finding the most inner parentheses *)

Lemma scan_close_spec l : forall i c a, scan_close l = Some (i, c, a) ->
  l = i ++ c :: a /\ is_c ")" c = true /\ plain i.
Proof.
  induction l as [|p l IH]; simpl; intros i c a H; [discriminate|].
  destruct (is_c ")" p) eqn:E1.
  - injection H as <- <- <-. repeat split; auto. constructor.
  - destruct (is_c "(" p || is_c "^" p) eqn:E2; [discriminate|].
    destruct (scan_close l) as [[[i' c'] a']|] eqn:E3; [|discriminate].
    injection H as <- <- <-. destruct (IH _ _ _ eq_refl) as (-> & H1 & H2).
    repeat split; auto. constructor; auto. unfold par. rewrite E1.
    apply orb_false_iff in E2. destruct E2 as (-> & ->). reflexivity.
Qed.

Lemma scan_close_find i : forall c a, plain i -> is_c ")" c = true ->
  scan_close (i ++ c :: a) = Some (i, c, a).
Proof.
  induction i as [|p i IH]; simpl; intros c a HP HC.
  - rewrite HC. reflexivity.
  - apply plain_cons in HP. destruct HP as (Hp & HP). unfold par in Hp.
    apply orb_false_iff in Hp. destruct Hp as (Hp & H3). apply orb_false_iff in Hp. destruct Hp as (H1 & H2).
    rewrite H1, H2, H3. simpl. rewrite IH; auto.
Qed.

Lemma find_inner_spec l : forall b o i c a, find_inner l = Some (b, o, i, c, a) ->
  l = b ++ o :: i ++ c :: a /\ is_c "(" o = true /\ is_c ")" c = true /\ plain i.
Proof.
  induction l as [|p l IH]; simpl; intros b o i c a H; [discriminate|].
  assert (HN : forall b0 o0 i0 c0 a0,
    match find_inner l with Some (b, o, i, c, a) => Some (p :: b, o, i, c, a) | None => None end =
      Some (b0, o0, i0, c0, a0) ->
    p :: l = b0 ++ o0 :: i0 ++ c0 :: a0 /\ is_c "(" o0 = true /\ is_c ")" c0 = true /\ plain i0).
  { intros * HH. destruct (find_inner l) as [[[[[b1 o1] i1] c1] a1]|] eqn:E; [|discriminate].
    injection HH as <- <- <- <- <-. destruct (IH _ _ _ _ _ eq_refl) as (-> & ? & ? & ?). auto. }
  destruct (is_c "(" p) eqn:E; [|apply HN in H; exact H].
  destruct (scan_close l) as [[[i' c'] a']|] eqn:E2; [|apply HN in H; exact H].
  injection H as <- <- <- <- <-.
  apply scan_close_spec in E2. destruct E2 as (-> & ? & ?). auto.
Qed.

Lemma find_inner_some b : forall o i c a, is_c "(" o = true -> is_c ")" c = true -> plain i ->
  find_inner (b ++ o :: i ++ c :: a) <> None.
Proof.
  induction b as [|p b IH]; intros o i c a HO HC HP.
  - simpl. rewrite HO, scan_close_find; auto. discriminate.
  - simpl. specialize (IH _ _ _ a HO HC HP).
    destruct (find_inner (b ++ o :: i ++ c :: a)) as [[[[[b1 o1] i1] c1] a1]|]; [|congruence].
    destruct (is_c "(" p); [|discriminate].
    destruct (scan_close (b ++ o :: i ++ c :: a)) as [[[? ?] ?]|]; discriminate.
Qed.

(* ------------------------------------------------------------------ *)
(** * The invariant kept by the passes *)

(** A visible colon. *)
Fixpoint vis (x : xt) : bool :=
  match x with
  | XNum _ _ _ _ => false
  | XBr _ _ _ => false
  | XOpen _ t _ | XFlat _ t _ => vis t
  | XAnd a b => vis a || vis b
  | XOr _ _ => true
  end.

Definition sep (a b : tree) : Prop := ~ (ends_num a /\ starts_num b).

(** [b]: the tree is an operand of an intersection. *)
Fixpoint G (b : bool) (x : xt) : Prop :=
  match x with
  | XNum _ _ _ _ => True
  | XBr _ t _ => b = true /\ vis t = true /\ closed t /\ G false t
  | XOpen _ t _ => G false t
  | XFlat _ t _ => closed t /\ G false t /\ (vis t = true -> b = false)
  | XAnd x y => G true x /\ G true y /\ sep (erase x) (erase y)
  | XOr x y => b = false /\ G false x /\ G false y
  end.

Lemma G_okx x : forall b, G b x -> okx x.
Proof. induction x; simpl; intros b H; intuition eauto. Qed.

Lemma G_inject t : grammatical mcnp t -> forall b, (b = true -> ~ is_or t) -> G b (inject t).
Proof.
  induction t; simpl; intros H b Hb; auto.
  - apply IHt; auto; discriminate.
  - destruct H as (H1 & H2 & H3 & H4 & H5). repeat split; auto.
    unfold sep. rewrite !erase_inject. auto.
  - destruct H as (H1 & H2). repeat split; try (apply IHt1 || apply IHt2; auto; discriminate).
    destruct b; auto. exfalso. apply Hb; auto.
Qed.
Lemma nums_inject t : grammatical mcnp t -> nums (inject t).
Proof. induction t; simpl; unfold good_num; tauto. Qed.

Definition isand (f : fr) : bool := match f with FAndL _ | FAndR _ => true | _ => false end.
Fixpoint hb (b : bool) (k : list fr) : bool := match k with [] => b | f :: k => hb (isand f) k end.

Lemma erase_plug k : forall x y, erase x = erase y -> erase (plug k x) = erase (plug k y).
Proof. induction k as [|f k IH]; intros x y H; simpl; auto. destruct f; simpl; f_equal; auto. Qed.
Lemma nums_plug k : forall x y, (nums x -> nums y) -> nums (plug k x) -> nums (plug k y).
Proof. induction k as [|f k IH]; intros x y H; simpl; auto. destruct f; simpl; intuition eauto. Qed.

Lemma G_hole k : forall b x, G b (plug k x) -> G (hb b k) x.
Proof.
  induction k as [|f k IH]; simpl; intros b x H; auto.
  destruct f; simpl in *; apply IH; intuition.
Qed.
Lemma G_plug k : forall b x y, erase x = erase y -> G b (plug k x) ->
  G (hb b k) y -> G b (plug k y).
Proof.
  induction k as [|f k IH]; simpl; intros b x y HE HG HY; auto.
  destruct f; simpl in *; intuition eauto; rewrite <- (erase_plug k x y HE); auto.
Qed.

(* ------------------------------------------------------------------ *)
(** * What [redundant] sees *)

Lemma colon_refill l : existsb (is_c ":") (refill l) = false.
Proof.
  induction l as [|p l IH]; simpl; auto. unfold is_c at 1, setc. simpl.
  destruct (Ascii.eqb_spec (fill (snd p)) ":"); simpl; auto. exfalso. eapply fill_colon; eauto.
Qed.
Lemma colon_bl n : existsb (is_c ":") (bl n) = false.
Proof. unfold bl, blanks. induction n; simpl; auto. Qed.
Lemma colon_num sg ds : good_num sg ds -> existsb (is_c ":") (twice (sg ++ digits ds)) = false.
Proof.
  intros (S & _). rewrite twice_app, existsb_app. apply orb_false_iff. split.
  - destruct S as [->|[->| ->]]; reflexivity.
  - induction ds; simpl; auto.
Qed.
Lemma colon_render x : nums x -> existsb (is_c ":") (render x) = vis x.
Proof.
  induction x; simpl; intros N;
    repeat (rewrite existsb_app || rewrite colon_bl || rewrite colon_refill || (progress simpl)); auto.
  - rewrite app_assoc, app_assoc, twice_app, existsb_app, <- app_assoc, twice_app, existsb_app.
    fold (bl pre) (bl post). rewrite !colon_bl, colon_num; auto.
  - rewrite orb_false_r. auto.
  - rewrite orb_false_r. auto.
  - destruct N. rewrite IHx1, IHx2; auto.
  - rewrite orb_true_r. auto.
Qed.

(** First and last significant characters of an operand. *)
Definition startc (p : pc) : bool :=
  is_digit (snd p) || is_sign (snd p) || is_c "(" p || is_c "[" p.
Definition endc (p : pc) : bool := is_digit (snd p) || is_c ")" p || is_c "]" p.

Lemma first_valid_bl n l : first_valid (bl n ++ l) = first_valid l.
Proof. unfold bl, blanks. induction n; simpl; auto. Qed.
Lemma rev_bl n : rev (bl n) = bl n.
Proof.
  unfold bl, blanks, twice. rewrite <- map_rev. f_equal.
  assert (H : forall m, repeat " "%char m ++ [" "%char] = " "%char :: repeat " "%char m).
  { induction m; simpl; congruence. }
  induction n; simpl; auto. rewrite IHn. apply H.
Qed.
Lemma first_valid_app a b p : first_valid a = Some p -> first_valid (a ++ b) = Some p.
Proof. induction a as [|q a IH]; simpl; [discriminate|]. destruct (skipped q); auto. Qed.
Lemma first_valid_app_none a b : first_valid a = None -> first_valid (a ++ b) = first_valid b.
Proof. induction a as [|q a IH]; simpl; auto. destruct (skipped q); auto. discriminate. Qed.

Lemma digit_notskip c : is_digit c = true -> skipped (c, c) = false.
Proof. intros H. digit H; reflexivity. Qed.

Lemma digits_first ds l : ds <> Decimal.Nil ->
  exists c, is_digit c = true /\ first_valid (twice (digits ds) ++ l) = Some (c, c).
Proof. intros H. destruct ds; [congruence|..]; simpl; eexists; (split; [|reflexivity]); reflexivity. Qed.
Lemma digits_last ds : ds <> Decimal.Nil -> exists l c, digits ds = l ++ [c] /\ is_digit c = true.
Proof.
  intros H. assert (D := digits_digit ds).
  assert (HN : digits ds <> []) by (destruct ds; simpl; congruence).
  destruct (exists_last HN) as (l & c & E). exists l, c. split; auto.
  rewrite E in D. apply Forall_app in D. destruct D as (_ & D). inversion D; auto.
Qed.
Lemma num_start sg ds l : good_num sg ds ->
  exists p, startc p = true /\ first_valid (twice (sg ++ digits ds) ++ l) = Some p.
Proof.
  intros (S & D). destruct S as [->|[->| ->]]; simpl.
  - destruct (digits_first ds l D) as (c & Hc & E). exists (c, c). split; auto. unfold startc. simpl. rewrite Hc. auto.
  - eexists; split; [|reflexivity]. reflexivity.
  - eexists; split; [|reflexivity]. reflexivity.
Qed.
Lemma num_end sg ds l : good_num sg ds ->
  exists p, endc p = true /\ first_valid (rev (twice (sg ++ digits ds)) ++ l) = Some p.
Proof.
  intros (S & D). destruct (digits_last ds D) as (m & c & E & Hc). rewrite E.
  rewrite app_assoc, twice_app, rev_app_distr. simpl.
  rewrite (digit_notskip c Hc). exists (c, c). split; auto. unfold endc. simpl. rewrite Hc. auto.
Qed.

Lemma start_render x : nums x -> forall l, exists p, startc p = true /\ first_valid (render x ++ l) = Some p.
Proof.
  induction x; simpl; intros N l.
  - rewrite twice_app, <- app_assoc. fold (bl pre). rewrite first_valid_bl, (app_assoc sg), twice_app, <- app_assoc.
    apply num_start; auto.
  - rewrite <- app_assoc, first_valid_bl. eexists; split; [|reflexivity]; reflexivity.
  - rewrite <- app_assoc, first_valid_bl. eexists; split; [|reflexivity]; reflexivity.
  - rewrite <- app_assoc, first_valid_bl. simpl. rewrite <- app_assoc. apply IHx; auto.
  - rewrite <- app_assoc. apply IHx1. tauto.
  - rewrite <- app_assoc. apply IHx1. tauto.
Qed.
Lemma end_render x : nums x -> forall l, exists p, endc p = true /\ first_valid (rev (render x) ++ l) = Some p.
Proof.
  assert (HP : forall p q t l post, rev (bl p ++ q :: t ++ l :: bl post) = bl post ++ l :: rev t ++ q :: bl p).
  { intros. rewrite rev_app_distr. simpl. rewrite rev_app_distr. simpl. rewrite !rev_bl, <- !app_assoc. reflexivity. }
  induction x; simpl; intros N l.
  - rewrite twice_app, rev_app_distr, app_assoc, !twice_app, <- app_assoc, !rev_app_distr.
    fold (bl pre) (bl post). rewrite <- !app_assoc, rev_bl, first_valid_bl, app_assoc.
    rewrite <- rev_app_distr, <- twice_app. apply num_end; auto.
  - rewrite HP, <- app_assoc, first_valid_bl. eexists; split; [|reflexivity]; reflexivity.
  - rewrite HP, <- app_assoc, first_valid_bl. eexists; split; [|reflexivity]; reflexivity.
  - rewrite HP, <- app_assoc, first_valid_bl. simpl. rewrite <- app_assoc. apply IHx; auto.
  - rewrite rev_app_distr, <- app_assoc. apply IHx2. tauto.
  - rewrite rev_app_distr. simpl. rewrite <- !app_assoc. apply IHx2. tauto.
Qed.

Lemma right_ok_render x l : nums x -> right_ok (render x ++ l) = false.
Proof.
  intros N. unfold right_ok. destruct (start_render x N l) as (p & Hp & ->).
  unfold startc, is_c in *. destruct p as [o c]. simpl in *.
  destruct (is_digit c) eqn:E; [digit E; reflexivity|].
  unfold is_sign in Hp.
  repeat match type of Hp with context [Ascii.eqb c ?d] =>
    destruct (Ascii.eqb_spec c d); [subst; reflexivity|] end. discriminate.
Qed.
Lemma left_ok_render x l : nums x -> left_ok (l ++ render x) = false.
Proof.
  intros N. unfold left_ok. rewrite rev_app_distr. destruct (end_render x N (rev l)) as (p & Hp & ->).
  unfold endc, is_c in *. destruct p as [o c]. simpl in *.
  destruct (is_digit c) eqn:E; [digit E; reflexivity|].
  repeat match type of Hp with context [Ascii.eqb c ?d] =>
    destruct (Ascii.eqb_spec c d); [subst; reflexivity|] end. discriminate.
Qed.

Lemma lr_ctx k : forall b P R x, G b (plug k x) -> nums (plug k x) ->
  (b = false -> left_ok P = true /\ right_ok R = true) ->
  (b = true -> left_ok P && right_ok R = false) ->
  left_ok (P ++ lctx k) && right_ok (rctx k ++ R) = negb (hb b k).
Proof.
  induction k as [|f k IH]; intros b P R x HG HN H1 H2; simpl.
  - rewrite app_nil_r. destruct b; simpl; auto. destruct H1 as (-> & ->); auto.
  - rewrite (app_assoc P), <- (app_assoc (rctx k)).
    destruct f; simpl in HG, HN |- *; rewrite ?app_nil_r.
    + apply (IH true _ _ x); [tauto|tauto|discriminate|]; intros _.
      rewrite right_ok_render by tauto. apply andb_false_r.
    + apply (IH true _ _ x); [tauto|tauto|discriminate|]; intros _.
      rewrite left_ok_render by tauto. reflexivity.
    + destruct HG as (-> & HG). destruct H1 as (H1 & _); auto.
      apply (IH false _ _ x); [tauto|tauto| |discriminate]; intros _. auto.
    + destruct HG as (-> & HG). destruct H1 as (_ & H1); auto.
      apply (IH false _ _ x); [tauto|tauto| |discriminate]; intros _. split; auto.
      unfold left_ok. rewrite !rev_app_distr. reflexivity.
    + apply (IH false _ _ x); [tauto|tauto| |discriminate]; intros _. split; auto.
      unfold left_ok. rewrite !rev_app_distr. reflexivity.
Qed.

Lemma left_ok_bl A n : left_ok (A ++ bl n) = left_ok A.
Proof. unfold left_ok. rewrite rev_app_distr, rev_bl, first_valid_bl. reflexivity. Qed.
Lemma right_ok_bl A n : right_ok (bl n ++ A) = right_ok A.
Proof. unfold right_ok. rewrite first_valid_bl. reflexivity. Qed.

(* ------------------------------------------------------------------ *)
(** * Left over parentheses around an expression *)

Definition wl (L : chars) : Prop := Forall (fun c => c = " "%char \/ c = "("%char) L.
Definition wr (R : chars) : Prop := Forall (fun c => c = " "%char \/ c = ")"%char) R.
Definition allbl (L : chars) : Prop := Forall (fun c => c = " "%char) L.
Definition onesided (L R : chars) : Prop := allbl L \/ allbl R.

Lemma allbl_plain L : allbl L -> plain (twice L).
Proof. intros H. apply twice_Forall. eapply Forall_impl; [|exact H]. intros c ->. reflexivity. Qed.

Lemma twice_In p L : In p (twice L) -> In (snd p) L /\ fst p = snd p.
Proof. unfold twice. rewrite in_map_iff. intros (c & <- & H). auto. Qed.
Lemma wl_close L a p b : wl L -> twice L = a ++ p :: b -> is_c ")" p = true -> False.
Proof.
  intros H E HC. assert (HI : In p (twice L)) by (rewrite E; apply in_elt).
  apply twice_In in HI. destruct HI as (HI & _). unfold wl in H. rewrite Forall_forall in H.
  unfold is_c in HC. apply Ascii.eqb_eq in HC. apply H in HI. rewrite HC in HI. destruct HI; discriminate.
Qed.
Lemma wr_open L a p b : wr L -> twice L = a ++ p :: b -> is_c "(" p = true -> False.
Proof.
  intros H E HC. assert (HI : In p (twice L)) by (rewrite E; apply in_elt).
  apply twice_In in HI. destruct HI as (HI & _). unfold wr in H. rewrite Forall_forall in H.
  unfold is_c in HC. apply Ascii.eqb_eq in HC. apply H in HI. rewrite HC in HI. destruct HI; discriminate.
Qed.

Lemma decompW L R x : wl L -> wr R -> onesided L R -> nums x -> okx x -> forall A o w c B,
  twice L ++ render x ++ twice R = A ++ o :: w ++ c :: B ->
  is_c "(" o = true -> is_c ")" c = true -> plain w ->
  exists k pre t post, x = plug k (XOpen pre t post) /\ A = twice L ++ lctx k ++ bl pre /\
    o = ("("%char, "("%char) /\ w = render t /\ c = (")"%char, ")"%char) /\
    B = bl post ++ rctx k ++ twice R /\ plain (render t).
Proof.
  intros HL HR HS N K A o w c B H HO HC HW. spl H.
  - exfalso. symmetry in E. spl E; [|].
    + eapply (wl_close L); [auto| |exact HC]. rewrite H.
      change (A ++ o :: w ++ c :: m0) with (A ++ (o :: w) ++ c :: m0). rewrite app_assoc. reflexivity.
    + spl E; [|].
      * eapply (first_paren x); eauto. apply plain_app in HW. tauto.
      * destruct HS as [HS|HS].
        -- absurd_plain (allbl_plain _ HS) H.
        -- absurd_plain (allbl_plain _ HS) E.
  - spl H; [|exfalso; eapply wr_open; eauto].
    symmetry in E. spl E.
    + destruct (decomp x N K _ _ _ _ _ H HO HC HW) as (k & p & t & q & G1 & G2 & G3 & G4 & G5 & G6 & G7).
      exists k, p, t, q. subst. rewrite <- !app_assoc. repeat split; auto.
    + exfalso. apply plain_app in HW. destruct HW. eapply (last_paren x); eauto.
Qed.

Fixpoint opens (x : xt) : nat :=
  match x with
  | XNum _ _ _ _ => 0
  | XOpen _ t _ => S (opens t)
  | XBr _ t _ | XFlat _ t _ => opens t
  | XAnd a b | XOr a b => opens a + opens b
  end.
Lemma opens_closed x : opens x = 0%nat <-> closed x.
Proof. induction x; simpl; try tauto; try lia; rewrite <- IHx1, <- IHx2; lia. Qed.
Lemma opens_plug k : forall x y d, opens x = (d + opens y)%nat -> opens (plug k x) = (d + opens (plug k y))%nat.
Proof. induction k as [|f k IH]; simpl; intros x y d H; auto. destruct f; simpl; rewrite (IH x y d H); lia. Qed.
Lemma opens_length x : (opens x <= length (render x))%nat.
Proof.
  induction x; simpl; rewrite ?app_length; simpl; rewrite ?app_length; simpl;
    unfold refill; rewrite ?map_length; lia.
Qed.
Lemma inner_open x : okx x -> (opens x > 0)%nat ->
  exists k pre t post, x = plug k (XOpen pre t post) /\ closed t.
Proof.
  induction x; simpl; intros K H; try lia.
  - apply opens_closed in K. lia.
  - destruct (Nat.eq_dec (opens x) 0) as [E|E].
    + exists [], pre, x, post. split; auto. apply opens_closed; auto.
    + destruct IHx as (k & p & t & q & -> & C); auto; try lia. exists (FOpen pre post :: k), p, t, q. auto.
  - apply opens_closed in K. lia.
  - destruct K as (K1 & K2). destruct (Nat.eq_dec (opens x1) 0) as [E|E].
    + destruct IHx2 as (k & p & t & q & -> & C); auto; try lia. exists (FAndR x1 :: k), p, t, q. auto.
    + destruct IHx1 as (k & p & t & q & -> & C); auto; try lia. exists (FAndL x2 :: k), p, t, q. auto.
  - destruct K as (K1 & K2). destruct (Nat.eq_dec (opens x1) 0) as [E|E].
    + destruct IHx2 as (k & p & t & q & -> & C); auto; try lia. exists (FOrR x1 :: k), p, t, q. auto.
    + destruct IHx1 as (k & p & t & q & -> & C); auto; try lia. exists (FOrL x2 :: k), p, t, q. auto.
Qed.

Lemma left_ok_wl L : wl L -> left_ok (twice L) = true.
Proof.
  intros H. unfold left_ok. unfold twice. rewrite <- map_rev.
  assert (H' : wl (rev L)) by (apply Forall_rev; auto). clear H.
  induction H' as [|c l H1 H2 IH]; simpl; auto. destruct H1 as [->| ->]; simpl; auto.
Qed.
Lemma right_ok_wr L : wr L -> right_ok (twice L) = true.
Proof.
  intros H. unfold right_ok, twice.
  induction H as [|c l H1 H2 IH]; simpl; auto. destruct H1 as [->| ->]; simpl; auto.
Qed.

(** State of the text during the passes: the tree [x] between [L] and [R]. *)
Definition inv_state (L R : chars) (t0 : tree) (x : xt) : Prop :=
  erase x = t0 /\ nums x /\ G false x.

Lemma plain_closed x : nums x -> okx x -> plain (render x) -> closed x.
Proof.
  intros N K HP. apply opens_closed. destruct (opens x) eqn:E; auto. exfalso.
  destruct (inner_open x K) as (k & p & t & q & -> & _); [lia|].
  rewrite render_plug in HP. simpl in HP.
  rewrite !plain_app, plain_cons in HP. destruct HP as (_ & ((_ & HP & _) & _)). discriminate.
Qed.

Lemma pass_spec L R t0 : wl L -> wr R -> onesided L R -> forall fuel done rest x,
  (length rest < fuel)%nat -> inv_state L R t0 x ->
  done ++ rest = twice L ++ render x ++ twice R ->
  exists x' cont, pass fill fuel done rest = (twice L ++ render x' ++ twice R, cont) /\
    inv_state L R t0 x' /\ (opens x' <= opens x)%nat /\
    (cont = true -> (opens x' < opens x)%nat) /\
    (cont = false -> find_inner rest = None /\ x' = x).
Proof.
  intros HL HR HS. induction fuel as [|fuel IH]; intros done rest x HF HI HE; [lia|]. simpl.
  destruct (find_inner rest) as [[[[[b o] i] c] a]|] eqn:EF.
  2:{ exists x, false. rewrite HE. split; auto. split; auto. split; auto. split; [discriminate|auto]. }
  destruct (find_inner_spec _ _ _ _ _ _ EF) as (-> & HO & HC & HP).
  destruct HI as (I1 & I2 & I3).
  rewrite app_assoc in HE.
  destruct (decompW L R x HL HR HS I2 (G_okx _ _ I3) (done ++ b) o i c a) as
    (k & pre & t & post & Hx & HA & Ho & Hw & Hc & HB & HPt); auto.
  subst x o i c.
  assert (HG := G_hole _ _ _ I3). simpl in HG.
  assert (HN : nums t).
  { clear - I2. induction k as [|f k IH]; simpl in I2; auto. destruct f; simpl in I2; tauto. }
  assert (HCt : closed t).
  { apply plain_closed; auto. eapply G_okx; eauto. }
  assert (HRd : redundant (done ++ b) (render t) a = negb (vis t && hb false k)).
  { unfold redundant. rewrite colon_render by auto. destruct (vis t); simpl; auto.
    rewrite HA, HB, app_assoc, left_ok_bl, right_ok_bl.
    apply (lr_ctx k false (twice L) (twice R) (XOpen pre t post)); auto; [|discriminate].
    intros _. split; [apply left_ok_wl; auto|apply right_ok_wr; auto]. }
  set (y := if vis t && hb false k then XBr pre t post else XFlat pre t post).
  assert (HEr : erase (XOpen pre t post) = erase y) by (unfold y; destruct (vis t && hb false k); auto).
  assert (HI' : inv_state L R t0 (plug k y)).
  { repeat split.
    - rewrite <- I1. symmetry. apply erase_plug; auto.
    - eapply nums_plug; [|exact I2]. unfold y. destruct (vis t && hb false k); auto.
    - eapply G_plug; [exact HEr|exact I3|]. unfold y.
      destruct (vis t) eqn:EV; simpl.
      + destruct (hb false k) eqn:EB; simpl; auto 6.
      + repeat split; auto. congruence. }
  set (mid := if redundant (done ++ b) (render t) a
              then setc " " ("("%char, "("%char) :: render t ++ [setc " " (")"%char, ")"%char)]
              else setc "[" ("("%char, "("%char) :: map (fun p => setc (fill (snd p)) p) (render t) ++ [setc "]" (")"%char, ")"%char)]).
  assert (HM : render y = bl pre ++ mid ++ bl post).
  { unfold mid, y. rewrite HRd. destruct (vis t && hb false k); simpl; rewrite <- app_assoc; reflexivity. }
  assert (HO' : opens (plug k (XOpen pre t post)) = (1 + opens (plug k y))%nat).
  { apply opens_plug. unfold y. destruct (vis t && hb false k); reflexivity. }
  destruct (IH (done ++ b ++ mid) a (plug k y)) as (x' & cont & E1 & E2 & E3 & E4 & E5); auto.
  { rewrite app_length in HF. simpl in HF. rewrite app_length in HF. simpl in HF. lia. }
  { rewrite render_plug, HM, HB. rewrite <- !app_assoc.
    rewrite (app_assoc done b), HA, <- !app_assoc. reflexivity. }
  exists x', true. fold mid. rewrite E1. simpl. repeat split; try (apply E2); try lia; discriminate.
Qed.

Lemma find_inner_none_closed L R x : nums x -> okx x ->
  find_inner (twice L ++ render x ++ twice R) = None -> closed x.
Proof.
  intros N K H. apply opens_closed. destruct (opens x) eqn:E; auto. exfalso.
  destruct (inner_open x K) as (k & p & t & q & -> & C); [lia|].
  assert (HN : nums t).
  { clear - N. induction k as [|f k IH]; simpl in N; auto. destruct f; simpl in N; tauto. }
  revert H. rewrite render_plug. simpl.
  replace (twice L ++ (lctx k ++ (bl p ++ ("("%char, "("%char) :: render t ++ (")"%char, ")"%char) :: bl q) ++ rctx k) ++ twice R)
    with ((twice L ++ lctx k ++ bl p) ++ ("("%char, "("%char) :: render t ++ (")"%char, ")"%char) :: bl q ++ rctx k ++ twice R)
    by (rewrite <- !app_assoc; simpl; rewrite <- !app_assoc; reflexivity).
  apply find_inner_some; auto. apply closed_plain; auto.
Qed.

Lemma passes_spec L R t0 : wl L -> wr R -> onesided L R -> forall fuel x,
  (opens x < fuel)%nat -> inv_state L R t0 x ->
  exists x', passes fill fuel (twice L ++ render x ++ twice R) = Ok (twice L ++ render x' ++ twice R) /\
    inv_state L R t0 x' /\ closed x'.
Proof.
  intros HL HR HS. induction fuel as [|fuel IH]; intros x HF HI; [lia|]. unfold passes; fold passes.
  destruct (pass_spec L R t0 HL HR HS (S (length (twice L ++ render x ++ twice R))) [] _ x
              (Nat.lt_succ_diag_r _) HI eq_refl) as (x' & cont & -> & H1 & H2 & H3 & H4).
  destruct cont.
  - apply IH; auto. specialize (H3 eq_refl). lia.
  - destruct (H4 eq_refl) as (H5 & ->). exists x. repeat split; try apply H1.
    destruct H1 as (_ & N & HG). eapply find_inner_none_closed; eauto. eapply G_okx; eauto.
Qed.

(** The passes applied to the text of a grammatical expression. *)
Lemma passes_text L R t : wl L -> wr R -> onesided L R -> grammatical mcnp t ->
  exists x, passes fill (S (length (L ++ text mcnp t ++ R))) (twice (L ++ text mcnp t ++ R)) =
              Ok (twice L ++ render x ++ twice R) /\
    erase x = t /\ nums x /\ G false x /\ closed x.
Proof.
  intros HL HR HS HG.
  rewrite !twice_app, <- render_inject.
  destruct (passes_spec L R t HL HR HS (S (length (L ++ text mcnp t ++ R))) (inject t)) as (x & E & (I1 & I2 & I3) & C).
  - pose proof (opens_length (inject t)) as H. rewrite render_inject in H.
    unfold twice in H. rewrite map_length in H. rewrite !app_length. lia.
  - repeat split; [apply erase_inject|apply nums_inject; auto|apply G_inject; auto; discriminate].
  - exists x. auto.
Qed.
End R.
