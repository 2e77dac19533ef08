(** Property C55, continued: constraint tables (settings simplify = "full") and cones that are
    not along X, Y or Z. *)
From Verif Require Import Prelude BoolSpec BoolSeq CtSpec Ctable VoidCell SurfDict SurfDictProofs PropsBool
  CellDef CellDefSpec CellDefProofs PropsCellDef ConePlanes ConeSpec ConeProofs.

(** * A geometry in a plane *)
(** Places (x, y); the cone |y| < x, whose card is |y| < |x|; planes a x + b y > c; a
    cylinder of squared radius [rr] about (cx, cy), positive outside. *)
Inductive tgeo := TCone | TPl (a b c : Z) | TCyl (cx cy rr : Z).
Definition t_key (g : tgeo) : key :=
  match g with TCone => Cone | TPl a b _ => if b =? 0 then PX else if a =? 0 then PY else PP | TCyl _ _ _ => Cyl end.
Definition t_same (g g' : tgeo) : bool :=
  match g, g' with
  | TCone, TCone => true
  | TPl a b c, TPl a' b' c' => (a =? a') && (b =? b') && (c =? c')
  | TCyl x y r, TCyl x' y' r' => (x =? x') && (y =? y') && (r =? r')
  | _, _ => false
  end.
Definition t_opp (g g' : tgeo) : bool := false.
Definition t_al (g : tgeo) : bool := false.
Definition t_apex (g : tgeo) : tgeo := TPl 1 0 0.
Definition t_card (p : Z * Z) (g : tgeo) : bool :=
  match g with
  | TCone => Z.abs (fst p) <=? Z.abs (snd p)
  | TPl a b c => c <? a * fst p + b * snd p
  | TCyl x y r => r <? (fst p - x) * (fst p - x) + (snd p - y) * (snd p - y)
  end.
Definition t_real (p : Z * Z) (g : tgeo) : bool :=
  match g with TCone => fst p <=? Z.abs (snd p) | _ => t_card p g end.
Lemma t_sheets p : two_sheets t_key t_al t_apex (t_card p) (t_real p).
Proof.
  split; intros [|a b c|x y r] T; auto.
  - unfold t_apex, t_real, t_card. rewrite Z.mul_1_l, Z.mul_0_l, Z.add_0_r.
    destruct (Z.leb_spec (fst p) (Z.abs (snd p))), (Z.leb_spec (Z.abs (fst p)) (Z.abs (snd p))), (Z.ltb_spec 0 (fst p)); cbn [orb negb]; auto; lia.
  - destruct T as (T & _). cbn in T. destruct (b =? 0), (a =? 0); discriminate.
  - destruct T; discriminate.
  - exfalso. apply T. split; auto.
Qed.
Lemma t_faithful p : faithful t_key t_same t_opp t_opp (fun _ => True) (t_card p).
Proof.
  intros g g' _ _ K H. assert (g' = g) as ->.
  { destruct H as [H|H]; [auto|]. destruct g, g'; cbn in H; try discriminate; auto; rewrite !andb_true_iff, !Z.eqb_eq in H; destruct H as ((-> & ->) & ->); auto. }
  split; intros PL; [auto|]. unfold t_opp. auto.
Qed.

(** Surfaces 1 to 14, in this order. *)
Definition t_hist : list (op tgeo) := map Add
  [TPl 1 0 (-5); TPl (-1) 1 5; TCone; TPl 0 1 10; TCyl 20 14 256; TPl 0 1 100; TPl 1 0 (-100); TPl 1 0 26; TPl 0 1 (-30); TPl 0 1 28;
   TPl 1 0 (-40); TPl 1 0 20; TPl 0 1 (-20); TPl 0 1 20].
Definition t_dict : sdict tgeo := Eval vm_compute in match run tgeo t_key t_same t_hist (empty 0) with Ok d => d | _ => empty 0 end.
Definition t_at (p : Z * Z) (side : Z * Z -> tgeo -> bool) : point := fun i =>
  match get_surface i t_dict with Ok (_, Some s) => side p (geo s) | _ => true end.
Lemma t_agrees p side : agrees (side p) (t_at p side) t_dict.
Proof.
  intros s (k & I). destruct k; vm_compute in I;
    repeat (destruct I as [<-|I]; [reflexivity|]); destruct I.
Qed.

(** Two solids; a void box -40 < x < 20, -20 < y < 20.  Solid 7 is what is outside the cone, above y = 10 and outside
    the cylinder; solid 8 is the polygon x > -5, y < x + 5, -30 < y < 28, x < 26. *)
Definition t_box := Seq AND 0 [Lit 11; Lit (-12); Lit 13; Lit (-14)].
Definition t_A := Seq OR 1 [Seq AND 0 [Lit 3; Lit 4; Lit 5; Lit (-6); Lit 7]].
Definition t_B := Seq OR 1 [Seq AND 0 [Lit 1; Lit (-2); Lit (-8); Lit 9; Lit (-10)]].
(** The table of the surfaces of the solids in the box, enlarged by 2 (void_box_class.py 213-219). *)
Definition t_tab : ctab := Eval vm_compute in
  let al := CQuad true true true true in
  match fill_missing
    [(1, [(1, CDiag 0); (2, al); (3, CQuad true true false true); (4, al); (5, CQuad true true false true)]);
     (2, [(2, CDiag 0); (3, CQuad true false true true); (4, al); (5, al)]);
     (3, [(3, CDiag 0); (4, al); (5, al)]);
     (4, [(4, CDiag 0); (5, al)]);
     (5, [(5, CDiag 0)]); (6, [(6, CDiag (-1))]); (7, [(7, CDiag 1)]);
     (8, [(8, CDiag (-1))]); (9, [(9, CDiag 1)]); (10, [(10, CDiag (-1))])] with Ok t => t | _ => [] end.

Definition possibleb (e : ctval) (p q : bool) : bool :=
  match e with
  | CNone => true
  | CDiag d => eqb p q && ((d =? 0) || (0 <? d) && p || (d <? 0) && negb p)
  | CQuad pp pm mm mp => match p, q with true, true => pp | true, false => pm | false, false => mm | false, true => mp end
  end.
Lemma possibleb_ok e p q : possibleb e p q = true -> possible e p q.
Proof.
  destruct e as [|d|pp pm mm mp]; cbn; auto. rewrite andb_true_iff, !orb_true_iff, !andb_true_iff, Z.eqb_eq, !Z.ltb_lt, negb_true_iff.
  intros (E & H). apply eqb_prop in E. subst q. split; auto. intuition (auto; lia).
Qed.
Definition t_rows : list (Z * Z * ctval) := Eval vm_compute in flat_map (fun r => map (fun c => (fst r, fst c, snd c)) (snd r)) t_tab.
Lemma get_in {A} (k : Z) (l : list (Z * A)) a : get k l = Some a -> In (k, a) l.
Proof. induction l as [|[x b] l IH]; cbn; [discriminate|]. destruct (Z.eqb_spec x k) as [->|]; [intros [= <-]; auto|auto]. Qed.
Lemma t_entry k1 k2 e : entry t_tab k1 k2 = Some e -> In (k1, k2, e) t_rows.
Proof.
  unfold entry. destruct (get k1 t_tab) as [r|] eqn:E; [|discriminate]. intros H. apply get_in in E. apply get_in in H.
  change t_rows with (flat_map (fun r => map (fun c => (fst r, fst c, snd c)) (snd r)) t_tab). apply in_flat_map. exists (k1, r). split; auto.
  apply in_map_iff. exists (k2, e). auto.
Qed.
Definition range (lo : Z) (n : nat) : list Z := map (fun i => lo + Z.of_nat i) (seq 0 n).
Lemma range_in lo n x : lo <= x < lo + Z.of_nat n -> In x (range lo n).
Proof. intros H. apply in_map_iff. exists (Z.to_nat (x - lo)). split; [lia|]. apply in_seq. lia. Qed.
(** The table is right: it allows every place of the enlarged box, with the real surfaces. *)
Lemma t_tab_right x y : -42 <= x <= 22 -> -22 <= y <= 22 -> in_box t_tab (t_at (x, y) t_real).
Proof.
  intros X Y k1 k2 e H. apply t_entry in H. apply possibleb_ok.
  assert (C : forallb (fun x => forallb (fun y => forallb (fun r => possibleb (snd r) (t_at (x, y) t_real (fst (fst r))) (t_at (x, y) t_real (snd (fst r)))) t_rows)
     (range (-22) 45)) (range (-42) 65) = true) by (vm_compute; reflexivity).
  rewrite forallb_forall in C. specialize (C x (range_in (-42) 65 x ltac:(lia))). rewrite forallb_forall in C. specialize (C y (range_in (-22) 45 y ltac:(lia))).
  rewrite forallb_forall in C. exact (C _ H).
Qed.

(** Simplification of a void with a constraint table can change the sign of a cone.  Solid 7 is outside of the
    cone; its cone is recorded with a plus sign, and the number -3 in voids gets the apex
    plane.  But the code finds with the table (which is right) that the void is outside of the
    cone too, and writes 3.  The place (-10, 0) is in the box, in no solid, and in the void that was made; it is
    not in the void that is written, nor in any cell. *)
Theorem C55_simplify_refuted : exists n d' m7 m8 m9,
  (forall x y, -42 <= x <= 22 -> -22 <= y <= 22 -> in_box t_tab (t_at (x, y) t_real)) /\
  get_void true 20 ascending (fun _ => Ok t_tab) SFull false t_box [t_A; t_B] = Ok (Some n) /\
  process_cones tgeo t_key t_same t_opp t_al t_apex (fun l => l) [(7, [3])]
    [MC (Some 7) false None (Some t_A); MC (Some 8) false None (Some t_B);
     MC (Some 9) true (Some (cells_in [(false, 7); (false, 8)])) (Some n)] t_dict = Ok (d', [m7; m8; m9]) /\
  eval (t_at (-10, 0) t_real) t_box = true /\ eval (t_at (-10, 0) t_real) t_A = false /\ eval (t_at (-10, 0) t_real) t_B = false /\
  eval (t_at (-10, 0) t_real) n = true /\
  forall v, agrees (t_card (-10, 0)) v d' -> forall m c, In m [m7; m8; m9] -> m_def m = Some c -> eval v c = false.
Proof.
  do 5 eexists. split; [exact t_tab_right|]. split; [vm_compute; reflexivity|]. split; [vm_compute; reflexivity|].
  do 4 (split; [vm_compute; reflexivity|]). intros v V m c I E.
  assert (K : v 3 = false /\ v 1 = false /\ v 4 = false /\ v 2 = true).
  { split; [|split; [|split]].
    - exact (V (Surf 3 TCone) ltac:(exists Cone; simpl; tauto)).
    - exact (V (Surf 1 (TPl 1 0 (-5))) ltac:(exists PX; simpl; tauto)).
    - exact (V (Surf 4 (TPl 0 1 10)) ltac:(exists PY; simpl; tauto)).
    - exact (V (Surf 2 (TPl (-1) 1 5)) ltac:(exists PP; simpl; tauto)). }
  destruct K as (K3 & K1 & K4 & K2).
  destruct I as [<-|[<-|[<-|[]]]]; cbn [m_def] in E; injection E as <-; cbn; rewrite ?K1, ?K2, ?K3, ?K4; cbn; rewrite ?andb_false_r; auto.
Qed.
