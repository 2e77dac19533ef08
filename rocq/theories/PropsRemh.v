(** C39: complement operators of MCNP cells (GEOReverse). *)
From Coq Require Import Ascii String Decimal DecimalZ.
From Verif Require Import Prelude BoolSpec CellText Remh RemhSpec RemhProofs RemhProofs2.

(** The complement of the text of a region is the text of its complement. *)
Theorem C39_complement : forall s f, denotes mcnp s f ->
  exists s', complementary s = Ok s' /\ denotes mcnp s' (fun v => negb (f v)).
Proof.
  intros s f (t & G & <- & S). destruct (complementary_text t G) as (p & u & q & C & GU & SU).
  exists (text mcnp (TPar p u q)). split; auto. exists (TPar p u q). cbn. repeat split; auto. intros v. now rewrite SU, S.
Qed.
Example C39_complement_example : denotes mcnp (cs "1 (-2:+3) ") (fun v => lit_val v 1 && (lit_val v (-2) || lit_val v 3)) /\
  complementary (cs "1 (-2:+3) ") = Ok (cs " (-1:  2  -3)   ").
Proof.
  split; [|reflexivity]. exists (TAnd (TNum 0 [] (D1 Nil) 1) (TPar 0 (TOr (TNum 0 (cs "-") (D2 Nil) 0) (TNum 0 (cs "+") (D3 Nil) 0)) 1)).
  cbn. repeat split; auto; try discriminate; try tauto; intuition discriminate.
Qed.

(** Removing the operators of a cell that has a meaning succeeds, and gives a text
    without operators and with this meaning. *)
Theorem C39_remove_operators : forall cards cell n,
  (forall m c, card_of m cards = Ok c -> hproc c = true \/ has "#" (geom c) = false) ->
  defined (fun m => match card_of m cards with Ok c => Some (geom c) | _ => None end) cell n ->
  exists k s, (forall fuel, (k <= fuel)%nat -> remove_hash fuel cards n = Ok s) /\ ~ In "#"%char s /\ denotes mcnp s (cell n).
Proof.
  intros cards cell n A D. destruct (remove_hash_spec' cards cell n D A) as (k & u & G & S & R). exists k, (text mcnp u). repeat split; auto.
  - intros I. pose proof (text_nohash u G) as N. unfold has in N. apply not_true_iff_false in N. apply N, existsb_exists. eexists. split; [exact I|reflexivity].
  - exists u. auto.
Qed.
(** Expanding the selected cells one after the other (each replacing its definition)
    gives each its meaning, and leaves the others. *)
Theorem C39_selected_cells : forall cards cell selected,
  (forall n, In n selected -> exists c, card_of n cards = Ok c) ->
  (forall n c, card_of n cards = Ok c -> hproc c = true \/ ~ In "#"%char (geom c)) ->
  (forall n c, card_of n cards = Ok c -> defined (fun m => match card_of m cards with Ok c => Some (geom c) | _ => None end) cell n) ->
  exists k cards', (forall fuel, (k <= fuel)%nat -> expand_all fuel selected cards = Ok cards') /\
    map fst cards' = map fst cards /\
    (forall n c, In n selected -> card_of n cards' = Ok c -> ~ In "#"%char (geom c) /\ denotes mcnp (geom c) (cell n)) /\
    (forall n, ~ In n selected -> card_of n cards' = card_of n cards).
Proof.
  intros cards cell sel D A W. assert (HI : forall s, has "#" s = false <-> ~ In "#"%char s).
  { intros s. unfold has. rewrite <- not_true_iff_false, existsb_exists. split; intros N; [intros I; apply N; exists "#"%char; auto|intros (x & I & E); apply Ascii.eqb_eq in E; subst; auto]. }
  destruct (expand_all_spec cell sel cards D) as (k & cards' & E & K & P & Q).
  - intros n c C. rewrite HI. eauto.
  - exact W.
  - exists k, cards'. repeat split; auto; [apply HI|]; eapply P; eauto.
Qed.
Definition three_cells : dict := [(1, Card true (cs "1 -2")); (2, Card true (cs "#1 #(3:4)")); (3, Card true (cs "5:#2"))].
Definition their_meaning (n : Z) (v : point) : bool :=
  let c1 := lit_val v 1 && lit_val v (-2) in
  let c2 := negb c1 && negb (lit_val v 3 || lit_val v 4) in
  if n =? 1 then c1 else if n =? 2 then c2 else lit_val v 5 || negb c2.
Example C39_example : (forall n c, card_of n three_cells = Ok c -> defined (fun m => match card_of m three_cells with Ok c => Some (geom c) | _ => None end) their_meaning n) /\
  remove_hash 3 three_cells 2 = Ok (cs "       (-1: 2)     ((-3  -4))  ") /\
  remove_hash 3 three_cells 3 = Ok (cs "5:               (1   -2 :       3:  4)      ").
Proof.
  assert (W1 : defined (fun m => match card_of m three_cells with Ok c => Some (geom c) | _ => None end) their_meaning 1).
  { apply (defined_cell _ _ 1 (cs "1 -2") (HAnd (HNum 0 [] (D1 Nil) 1) (HNum 0 (cs "-") (D2 Nil) 0))); try reflexivity; cbn; repeat split; auto; try discriminate; try tauto. intuition discriminate. }
  assert (W2 : defined (fun m => match card_of m three_cells with Ok c => Some (geom c) | _ => None end) their_meaning 2).
  { apply (defined_cell _ _ 2 (cs "#1 #(3:4)") (HAnd (HCell 0 0 (D1 Nil) 1) (HNot 0 0 (HOr (HNum 0 [] (D3 Nil) 0) (HNum 0 [] (D4 Nil) 0)) 0))); try reflexivity; cbn; repeat split; auto; try discriminate; try tauto.
    intros m [<- | []]. exact W1. }
  assert (W3 : defined (fun m => match card_of m three_cells with Ok c => Some (geom c) | _ => None end) their_meaning 3).
  { apply (defined_cell _ _ 3 (cs "5:#2") (HOr (HNum 0 [] (D5 Nil) 0) (HCell 0 0 (Decimal.D2 Nil) 0))); try reflexivity; cbn; repeat split; auto; try discriminate; try tauto.
    intros m [<- | []]. exact W2. }
  split; [|split; vm_compute; reflexivity].
  intros n c. unfold three_cells. cbn [card_of]. destruct (Z.eqb_spec 1 n) as [<- | ?]; [auto|]. destruct (Z.eqb_spec 2 n) as [<- | ?]; [auto|]. destruct (Z.eqb_spec 3 n) as [<- | ?]; [auto|discriminate].
Qed.

(** A cell card with a transformation keeps its operators, whatever the fuel: what is
    left is not a cell text without operators. *)
Theorem C39_transformed_cells_refuted : exists cards n c,
  card_of n cards = Ok c /\ hproc c = false /\
  (exists cell, defined (fun m => match card_of m cards with Ok c => Some (geom c) | _ => None end) cell n) /\
  forall fuel, remove_hash (S fuel) cards n = Ok (geom c) /\ In "#"%char (geom c) /\ forall f, ~ denotes mcnp (geom c) f.
Proof.
  exists [(2, Card false (cs "#(1)"))], 2, (Card false (cs "#(1)")). repeat split; auto.
  - exists (fun _ v => negb (lit_val v 1)). apply (defined_cell _ _ 2 (cs "#(1)") (HNot 0 0 (HNum 0 [] (D1 Nil) 0) 0)); try reflexivity; cbn; repeat split; auto; try discriminate; tauto.
  - cbn. auto.
  - intros f (t & G & T & _). pose proof (text_nohash t G) as N. rewrite T in N. discriminate.
Qed.

(** A cell defined through its own complement: the recursion does not end. *)
Theorem C39_circular_refuted : exists cards n c, card_of n cards = Ok c /\ forall fuel, remove_hash fuel cards n = Fuel.
Proof.
  exists [(1, Card true (cs "2 #1"))], 1, (Card true (cs "2 #1")). split; auto.
  induction fuel as [|k IH]; auto. cbn [remove_hash]. change (card_of 1 [(1, Card true (cs "2 #1"))]) with (Ok (Card true (cs "2 #1"))). cbn [bind hproc geom].
  change (negb true || negb (has "#" (cs "2 #1"))) with false. cbn iota. change (rev (hashes 0 (cs "2 #1"))) with [(2%nat, Some (1, 4%nat))]. cbn [subst_hashes]. rewrite IH. reflexivity.
Qed.

Print Assumptions C39_complement.
Print Assumptions C39_remove_operators.
Print Assumptions C39_selected_cells.
Print Assumptions C39_transformed_cells_refuted.
Print Assumptions C39_circular_refuted.
