(** A kernel in one dimension for the examples of C50: shapes are lists of integer points, boxes
    are intervals, [slice] cuts a list into runs of neighbours on one side.  It meets [good_cad]. *)
From Verif Require Import Prelude BoolSpec BoolSeq RBool RBox RPlanes Build BuildSpec.
Open Scope Z_scope.

Definition range (a b : Z) : list Z := map (fun i => a + Z.of_nat i) (seq 0 (Z.to_nat (b - a + 1))).
Section V.
Variable side : Z -> Z -> bool.
Fixpoint runs (f : Z -> bool) (l : list Z) : list (list Z) :=
  match l with
  | [] => []
  | x :: r =>
      match runs f r with
      | (y :: q) :: s => if eqb (f x) (f y) && (y =? x + 1) then (x :: y :: q) :: s else [x] :: (y :: q) :: s
      | s => [x] :: s
      end
  end.
Definition vox : cad := {|
  shape := list Z; bx := Z * Z;
  make := fun b => match range (fst b) (snd b) with [] => None | l => Some l end;
  same := fun a b => (fst a =? fst b) && (snd a =? snd b);
  flat := fun s => match s with [] => true | _ => false end;
  thin := fun s => match s with [] => true | _ => false end;
  slice := fun s z => runs (side z) s;
  small := fun s => match s with [] => true | _ => false end;
  side_at := fun s z => match s with [] => true | x :: _ => side z x end;
  fuse := fun l => nodup Z.eq_dec (concat l);
  meets := fun b s => existsb (fun x => fst b <=? x) s && existsb (fun x => x <=? snd b) s |}.
Definition hullz (k : Z) (l : list Z) : option (Z * Z) :=
  match l with [] => None | x :: r => Some (fold_right Z.min x r - Z.abs k / 100, fold_right Z.max x r + Z.abs k / 100) end.
Definition vin (d : node) (x : Z) : bool := eval (fun z => side z x) d.
Definition vboxer (ext : Z * Z) (p : node * (Z * Z)) (k : Z) : res (abox (Z * Z)) :=
  if vin (fst p) (fst ext) && vin (fst p) (snd ext)
  then Ok (AB (hullz k (filter (fun x => negb (vin (fst p) x)) (range (fst ext) (snd ext)))) Rev)
  else Ok (AB (hullz k (filter (vin (fst p)) (range (fst ext) (snd ext)))) Fwd).
Definition vcell (n : node) (ext : Z * Z) : bcell vox := Bcell (C:=vox) n (n, ext) None.
Definition vsolid (n : node) (ext : Z * Z) := build_shape vox (vboxer ext) surfs ext 10 (fun _ => false) (vcell n ext).
Definition vtrue (n : node) (ext : Z * Z) := filter (fun x => eval (fun z => side z x) n) (range (fst ext) (snd ext)).
End V.
Definition a0 l := Seq AND 0 (map Lit l).
Definition o0 l := Seq OR 0 (map Lit l).

Definition vread (side : Z -> Z -> bool) : reading (vox side) :=
  @Reading (vox side) Z (fun s x => In x s) (fun b x => fst b <= x <= snd b) (fun x z => side z x).

Lemma range_In a b x : In x (range a b) <-> a <= x <= b.
Proof.
  unfold range. rewrite in_map_iff. split.
  - intros (i & <- & H). apply in_seq in H. lia.
  - intros H. exists (Z.to_nat (x - a)). split; [lia|]. apply in_seq. lia.
Qed.
Lemma runs_ok f : forall l, concat (runs f l) = l /\ Forall (fun r => r <> [] /\ forall x y, In x r -> In y r -> f x = f y) (runs f l).
Proof.
  induction l as [|x l (A & B)]; [split; [reflexivity|constructor]|]. cbn [runs].
  destruct (runs f l) as [|[|y q] s] eqn:E; cbn [concat app] in *.
  - split; [congruence|]. constructor; auto. split; [discriminate|]. intros a b [<-|[]] [<-|[]]. reflexivity.
  - apply Forall_inv in B as (B & _). congruence.
  - destruct (eqb (f x) (f y) && (y =? x + 1)) eqn:C.
    + split; [cbn; congruence|]. apply Forall_cons_iff in B as ((_ & B1) & B2). constructor; auto. split; [discriminate|].
      apply andb_true_iff in C as (C & _). apply eqb_prop in C.
      assert (U : forall a, In a (x :: y :: q) -> f a = f y). { intros a [<-|Ha]; auto. apply B1; auto. now left. }
      intros a b Ha Hb. rewrite (U a Ha), (U b Hb). reflexivity.
    + split; [cbn; congruence|]. constructor; auto. split; [discriminate|]. intros a b [<-|[]] [<-|[]]. reflexivity.
Qed.
Lemma vox_good side : good_cad (vox side) (vread side).
Proof.
  constructor; cbn.
  - intros b s H x. pose proof (range_In (fst b) (snd b) x) as R. destruct (range (fst b) (snd b)); [discriminate|]. injection H as <-. exact R.
  - intros b H x R. apply range_In in R. destruct (range (fst b) (snd b)); [destruct R|discriminate].
  - intros [|? ?]; [intros _ x []|discriminate].
  - intros [|? ?]; [intros _ x []|discriminate].
  - intros [|? ?]; [intros _ x []|discriminate].
  - intros s z x. rewrite <- (proj1 (runs_ok (side z) s)) at 1. rewrite in_concat. split; intros (t & A & B); exists t; auto.
  - intros s z t Ht x Hx. destruct (runs_ok (side z) s) as (_ & F). rewrite Forall_forall in F. destruct (F t Ht) as (N & U). destruct t as [|y t]; [congruence|]. apply U; auto. now left.
  - intros l x. rewrite nodup_In, in_concat. tauto.
  - intros b s H x R M. apply andb_false_iff in H as [H|H].
    + assert (existsb (fun x => fst b <=? x) s = true) by (apply existsb_exists; exists x; split; auto; apply Z.leb_le; lia). congruence.
    + assert (existsb (fun x => x <=? snd b) s = true) by (apply existsb_exists; exists x; split; auto; apply Z.leb_le; lia). congruence.
Qed.
Lemma hullz_ok k l x : In x l -> exists b, hullz k l = Some b /\ fst b <= x <= snd b.
Proof.
  intros H. destruct l as [|y l]; [destruct H|]. eexists. split; [reflexivity|]. cbn [fst snd].
  assert (0 <= Z.abs k / 100) by (apply Z.div_pos; lia).
  assert (fold_right Z.min y l <= x <= fold_right Z.max y l); [|lia].
  assert (Y : fold_right Z.min y l <= y <= fold_right Z.max y l) by (clear; induction l; cbn; lia).
  destruct H as [<-|H]; auto. clear - H. induction l as [|w l IH]; [destruct H|]. cbn. destruct H as [<-|H]; [lia|]. specialize (IH H). lia.
Qed.
Lemma vboxes_ok side ext n : boxes_ok (vread side) ext (vboxer side ext) n.
Proof.
  intros d out k m _ _ H. unfold vboxer in H. cbn [fst] in H. set (ins := vin side d) in *.
  intros x X. cbn in X. assert (RX : In x (range (fst ext) (snd ext))) by now apply range_In.
  destruct (ins (fst ext) && ins (snd ext)) eqn:E; injection H as <-; cbn [a_or a_box].
  - destruct (ins x) eqn:I1.
    + destruct (hullz k _); [intros Q; destruct Q; exact I1|exact I1].
    + destruct (hullz_ok k (filter (fun x => negb (ins x)) (range (fst ext) (snd ext))) x) as (b & -> & B); [apply filter_In; split; auto; now rewrite I1|]. intros _. exact B.
  - destruct (ins x) eqn:I1.
    + destruct (hullz_ok k (filter ins (range (fst ext) (snd ext))) x) as (b & -> & B); [apply filter_In; auto|]. intros _. exact B.
    + destruct (hullz k _); unfold holds; cbn; change (eval _ d) with (ins x); rewrite I1; discriminate.
Qed.
