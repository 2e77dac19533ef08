(** Vectors of R^3 and the few FreeCAD.Vector operations the model uses.
    Real arithmetic stands for Python floats (rounding is not modelled). *)
From Coq Require Export Reals Lra.
Open Scope R_scope.

Record vec := V { vx : R; vy : R; vz : R }.

Definition vadd (a b : vec) : vec := V (vx a + vx b) (vy a + vy b) (vz a + vz b).
Definition vsub (a b : vec) : vec := V (vx a - vx b) (vy a - vy b) (vz a - vz b).
Definition vopp (a : vec) : vec := V (- vx a) (- vy a) (- vz a).
Definition vscale (k : R) (a : vec) : vec := V (k * vx a) (k * vy a) (k * vz a).
Definition dot (a b : vec) : R := vx a * vx b + vy a * vy b + vz a * vz b.
Definition cross (a b : vec) : vec :=
  V (vy a * vz b - vz a * vy b) (vz a * vx b - vx a * vz b) (vx a * vy b - vy a * vx b).
Definition vlen (a : vec) : R := sqrt (dot a a).
Definition vzero : vec := V 0 0 0.

Lemma vec_eq a b : vx a = vx b -> vy a = vy b -> vz a = vz b -> a = b.
Proof. destruct a, b; simpl; intros -> -> ->; reflexivity. Qed.
Lemma dot_nonneg a : 0 <= dot a a.
Proof. unfold dot. nra. Qed.
Lemma dot_zero a : dot a a = 0 -> a = vzero.
Proof.
  destruct a as [x y z]; unfold dot, vzero; simpl. intros H.
  assert (x = 0) by nra. assert (y = 0) by nra. assert (z = 0) by nra. subst. reflexivity.
Qed.
Lemma dot_pos a : a <> vzero -> 0 < dot a a.
Proof.
  intros H. destruct (Rle_lt_or_eq_dec _ _ (dot_nonneg a)) as [|E]; auto.
  exfalso. apply H, dot_zero. auto.
Qed.
Lemma vlen_pos a : a <> vzero -> 0 < vlen a.
Proof. intros H. apply sqrt_lt_R0, dot_pos, H. Qed.
Lemma vlen_sq a : vlen a * vlen a = dot a a.
Proof. apply sqrt_sqrt, dot_nonneg. Qed.
Lemma vlen_zero : vlen vzero = 0.
Proof. unfold vlen, dot, vzero; simpl. replace (0 * 0 + 0 * 0 + 0 * 0) with 0 by ring. apply sqrt_0. Qed.
Lemma vlen_scale k a : vlen (vscale k a) = Rabs k * vlen a.
Proof.
  unfold vlen. replace (dot (vscale k a) (vscale k a)) with (k * k * dot a a) by (unfold dot, vscale; simpl; ring).
  rewrite sqrt_mult; [|nra|apply dot_nonneg]. f_equal. apply sqrt_Rsqr_abs.
Qed.
