(** Specification of the GQ and SQ cards (MCNP manual) and of an eigen-decomposition. *)
From Verif Require Import Prelude Vec3 Prim PrimSpec Quadric CardsSpec.
Open Scope R_scope.

Definition quad (q : gq) (x : vec) : R :=
  ga q * vx x ^ 2 + gb q * vy x ^ 2 + gc q * vz x ^ 2 + gd q * vx x * vy x + ge q * vy x * vz x + gf q * vz x * vx x.
(** GQ: Ax2 + By2 + Cz2 + Dxy + Eyz + Fzx + Gx + Hy + Jz + K; its sign is the sense *)
Definition qval (q : gq) (x : vec) : R := quad q x + gg q * vx x + gh q * vy x + gj q * vz x + gk q.
(** SQ: A(x-x0)2 + B(y-y0)2 + C(z-z0)2 + 2D(x-x0) + 2E(y-y0) + 2F(z-z0) + G *)
Definition sqval (a b c d e f g x0 y0 z0 : R) (x : vec) : R :=
  a * (vx x - x0) ^ 2 + b * (vy x - y0) ^ 2 + c * (vz x - z0) ^ 2
  + 2 * d * (vx x - x0) + 2 * e * (vy x - y0) + 2 * f * (vz x - z0) + g.

(** [g] diagonalises the quadratic part of [q] *)
Definition eig_of (q : gq) (g : eig) : Prop :=
  orthonormal (vv g 0%nat, vv g 1%nat, vv g 2%nat) /\
  forall x, quad q x = sum3 (fun i => ev g i * dot (vv g i) x ^ 2).

(** the primitive stands for the card: same two sides (primitive in mm, card in cm) *)
Definition same_sides (q : gq) (s : prim) : Prop :=
  forall x, (qval q x < 0 <-> inside s (vscale 10 x)) /\ (0 < qval q x <-> outside s (vscale 10 x)).
