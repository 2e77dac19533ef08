(** A strict run follows the real run until the ghost event [NeutralUpdate]. *)
From Verif Require Import Prelude BoolSpec BoolSeq BoolProofs BoolProofs2 BoolTotal BoolTotal2.

Definition sim {A} (s r : res A) : Prop := s = r \/ s = Err NeutralUpdate.

Lemma sim_refl {A} (r : res A) : sim r r. Proof. left; auto. Qed.
Lemma sim_bind {A B} (s r : res A) (f g : A -> res B) :
  sim s r -> (forall a, sim (f a) (g a)) -> sim (bind s f) (bind r g).
Proof. intros [->| ->] H; [destruct r; simpl; auto using sim_refl|right; reflexivity]. Qed.

Lemma sim_mapM {A B} (f g : A -> res B) l : (forall a, sim (f a) (g a)) -> sim (mapM f l) (mapM g l).
Proof.
  intros H. induction l as [|x l IH]; simpl; [apply sim_refl|].
  apply sim_bind; auto. intros y. apply sim_bind; auto using sim_refl.
Qed.

Lemma update_base_sim seq idx base : sim (update_base true seq idx base) (update_base false seq idx base).
Proof.
  destruct base as [z|op lev b|op lev l]; try apply sim_refl. unfold update_base.
  destruct seq; try apply sim_refl. simpl. destruct (_ && _); [right; auto|left; auto].
Qed.
Lemma upd_at_sim f g path : (forall b, sim (f b) (g b)) -> forall n, sim (upd_at path f n) (upd_at path g n).
Proof.
  intros H. induction path as [|i p IH]; intros n; simpl; auto.
  destruct n; try apply sim_refl. destruct (nth_error l i); [|apply sim_refl].
  apply sim_bind; auto using sim_refl.
Qed.
Lemma factorize_sim x ts fs n : sim (factorize true x ts fs n) (factorize false x ts fs n).
Proof.
  unfold factorize. destruct ts, fs; try apply sim_refl.
  apply sim_bind; [apply sim_refl|]. intros [pos sub].
  apply sim_bind; [apply sim_refl|]. intros [tr sub1].
  apply sim_bind; [apply sim_refl|]. intros [fr ?].
  apply sim_bind; [apply sim_refl|]. intros [nseq|]; [|apply sim_refl].
  destruct pos as [[path idx]|]; [|apply sim_refl].
  unfold update. apply sim_bind; [|intros; apply sim_refl]. apply upd_at_sim, update_base_sim.
Qed.
Lemma ss_loop_sim ct names : forall nn n, sim (ss_loop true ct names nn n) (ss_loop false ct names nn n).
Proof.
  induction names as [|x names IH]; intros nn n; [apply sim_refl|]. cbn [ss_loop].
  destruct (existsb _ _); auto. apply sim_bind; [apply sim_refl|]. intros [ts fs].
  apply sim_bind; [apply sim_refl|]. intros []; auto.
  apply sim_bind; [apply factorize_sim|]. intros []; auto using sim_refl.
Qed.
Lemma simplify_sequence_sim ord ct n : sim (simplify_sequence true ord ct n) (simplify_sequence false ord ct n).
Proof.
  unfold simplify_sequence. destruct ct, (level_of n <? 1), (surfs n);
    try apply sim_refl; apply ss_loop_sim.
Qed.
Lemma simplify_sim ord ct k : forall d n, sim (simplify_f k true ord ct d n) (simplify_f k false ord ct d n).
Proof.
  induction k as [|k IH]; intros d n; [apply sim_refl|]. rewrite !simplify_unfold. unfold simp_body.
  destruct n as [z|op lev b|op lev l]; [apply sim_refl| |].
  - apply sim_bind; [apply sim_refl|]. intros s1. destruct s1; try apply sim_refl.
    destruct (_ || _); try apply sim_refl. apply sim_bind; [apply simplify_sequence_sim|].
    intros s2. destruct (_ && _); auto using sim_refl.
  - apply sim_bind.
    + destruct (0 <? _); [|apply sim_refl]. apply sim_bind; [apply sim_mapM; auto|]. intros; apply sim_refl.
    + intros s1. destruct s1; try apply sim_refl.
      destruct (_ || _); try apply sim_refl. apply sim_bind; [apply simplify_sequence_sim|].
      intros s2. destruct (_ && _); auto using sim_refl.
Qed.
