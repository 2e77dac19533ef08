(** Specification: the two sides of the primitive surfaces, in coordinates along and
    across the axis.  The negative side ([inside]) is the inner one, as in MCNP for
    the standard orientation of each card. *)
From Verif Require Import Prelude Vec3 Prim.
Open Scope R_scope.

(** Point [x] relative to a centre and a unit axis: height and squared distance to
    the axis *)
Definition height (p v x : vec) : R := dot (vsub x p) v.
Definition radial2 (p v x : vec) : R := dot (vsub x p) (vsub x p) - height p v x * height p v x.
(** distance between 0 and the length of the vector [v], not unit *)
Definition slab (p v x : vec) : Prop := 0 < dot v (vsub x p) < dot v v.
Definition off_slab (p v x : vec) : Prop := dot v (vsub x p) < 0 \/ dot v v < dot v (vsub x p).
(** squared distance to the line, [v] not unit *)
Definition dist2 (p v x : vec) : R := dot (vsub x p) (vsub x p) - (dot v (vsub x p)) ^ 2 / dot v v.

(** strictly on the negative side *)
Definition inside (s : prim) (x : vec) : Prop :=
  match s with
  | PPlane n d => dot n x < d
  | PSphere c r => dot (vsub x c) (vsub x c) < r ^ 2
  | PCyl p v r => radial2 p v x < r ^ 2
  | PCan p v r => dist2 p v x < r ^ 2 /\ slab p v x
  | PCone p v t dbl => radial2 p v x < t ^ 2 * height p v x ^ 2 /\ (dbl = true \/ 0 < height p v x)
  (* radius at the height h of the axis: r1 + (r2 - r1) h / |v|, with h = v.(x-p) / |v| *)
  | PTCone p v r1 r2 => dist2 p v x < (r1 + (r2 - r1) * (dot v (vsub x p) / dot v v)) ^ 2 /\ slab p v x
  | PECone p v ra r0 r1 a0 a1 dbl =>
      (dot (vsub x p) a1 / r1) ^ 2 + (dot (vsub x p) a0 / r0) ^ 2 < (height p v x / ra) ^ 2 /\ (dbl = true \/ 0 < height p v x)
  (* revolution around a1 *)
  | PHyper c v r0 r1 a0 a1 one =>
      if one then radial2 c a1 x / r0 ^ 2 - height c a1 x ^ 2 / r1 ^ 2 < 1
      else radial2 c a1 x / r0 ^ 2 - height c a1 x ^ 2 / r1 ^ 2 < -1
  (* revolution around v = a0 (radius r0) or v = a1 (radius r1) *)
  | PEllip c v r0 r1 a0 a1 =>
      (v = a0 -> height c v x ^ 2 / r0 ^ 2 + radial2 c v x / r1 ^ 2 < 1) /\
      (v <> a0 -> height c v x ^ 2 / r1 ^ 2 + radial2 c v x / r0 ^ 2 < 1)
  | PECyl c v r0 r1 a0 a1 => (dot (vsub x c) a1 / r1) ^ 2 + (dot (vsub x c) a0 / r0) ^ 2 < 1
  | PECan c v r0 r1 a0 a1 => (dot (vsub x c) a1 / r1) ^ 2 + (dot (vsub x c) a0 / r0) ^ 2 < 1 /\ slab c v x
  | PHCyl c v r0 r1 a0 a1 => (dot (vsub x c) a1 / r1) ^ 2 - (dot (vsub x c) a0 / r0) ^ 2 < 1
  | PPara c v f => radial2 c v x < 4 * f * height c v x
  | PTorus c v ra rb rc => (height c v x / rb) ^ 2 + ((sqrt (radial2 c v x) - ra) / rc) ^ 2 < 1
  | PBox p v1 v2 v3 => slab p v1 x /\ slab p v2 x /\ slab p v3 x
  end.
(** strictly on the positive side *)
Definition outside (s : prim) (x : vec) : Prop :=
  match s with
  | PPlane n d => d < dot n x
  | PSphere c r => r ^ 2 < dot (vsub x c) (vsub x c)
  | PCyl p v r => r ^ 2 < radial2 p v x
  | PCan p v r => r ^ 2 < dist2 p v x \/ off_slab p v x
  | PCone p v t dbl => t ^ 2 * height p v x ^ 2 < radial2 p v x \/ (dbl = false /\ height p v x < 0)
  | PTCone p v r1 r2 => (r1 + (r2 - r1) * (dot v (vsub x p) / dot v v)) ^ 2 < dist2 p v x \/ off_slab p v x
  | PECone p v ra r0 r1 a0 a1 dbl =>
      (height p v x / ra) ^ 2 < (dot (vsub x p) a1 / r1) ^ 2 + (dot (vsub x p) a0 / r0) ^ 2 \/ (dbl = false /\ height p v x < 0)
  | PHyper c v r0 r1 a0 a1 one =>
      if one then 1 < radial2 c a1 x / r0 ^ 2 - height c a1 x ^ 2 / r1 ^ 2
      else -1 < radial2 c a1 x / r0 ^ 2 - height c a1 x ^ 2 / r1 ^ 2
  | PEllip c v r0 r1 a0 a1 =>
      (v = a0 -> 1 < height c v x ^ 2 / r0 ^ 2 + radial2 c v x / r1 ^ 2) /\
      (v <> a0 -> 1 < height c v x ^ 2 / r1 ^ 2 + radial2 c v x / r0 ^ 2)
  | PECyl c v r0 r1 a0 a1 => 1 < (dot (vsub x c) a1 / r1) ^ 2 + (dot (vsub x c) a0 / r0) ^ 2
  | PECan c v r0 r1 a0 a1 => 1 < (dot (vsub x c) a1 / r1) ^ 2 + (dot (vsub x c) a0 / r0) ^ 2 \/ off_slab c v x
  | PHCyl c v r0 r1 a0 a1 => 1 < (dot (vsub x c) a1 / r1) ^ 2 - (dot (vsub x c) a0 / r0) ^ 2
  | PPara c v f => 4 * f * height c v x < radial2 c v x
  | PTorus c v ra rb rc => 1 < (height c v x / rb) ^ 2 + ((sqrt (radial2 c v x) - ra) / rc) ^ 2
  | PBox p v1 v2 v3 => off_slab p v1 x \/ off_slab p v2 x \/ off_slab p v3 x
  end.

(** Parameters that make sense: unit axes, positive radii. *)
Definition proper (s : prim) : Prop :=
  match s with
  | PPlane n d => n <> vzero
  | PSphere c r => 0 < r
  | PCyl p v r => vlen v = 1 /\ 0 < r
  | PCan p v r => v <> vzero /\ 0 < r
  | PCone p v t dbl => vlen v = 1 /\ 0 < t
  | PTCone p v r1 r2 => v <> vzero /\ 0 <= r2 < r1
  | PECone p v ra r0 r1 a0 a1 dbl => vlen v = 1 /\ vlen a0 = 1 /\ vlen a1 = 1 /\ 0 < ra /\ 0 < r0 /\ 0 < r1
  | PHyper c v r0 r1 a0 a1 one => vlen v = 1 /\ vlen a0 = 1 /\ vlen a1 = 1 /\ 0 < r0 /\ 0 < r1
  | PEllip c v r0 r1 a0 a1 => vlen v = 1 /\ (v = a0 \/ v = a1) /\ vlen a0 = 1 /\ vlen a1 = 1 /\ 0 < r0 /\ 0 < r1
  | PECyl c v r0 r1 a0 a1 => vlen v = 1 /\ vlen a0 = 1 /\ vlen a1 = 1 /\ 0 < r0 /\ 0 < r1
  | PECan c v r0 r1 a0 a1 => v <> vzero /\ vlen a0 = 1 /\ vlen a1 = 1 /\ 0 < r0 /\ 0 < r1
  | PHCyl c v r0 r1 a0 a1 => vlen v = 1 /\ vlen a0 = 1 /\ vlen a1 = 1 /\ 0 < r0 /\ 0 < r1
  | PPara c v f => vlen v = 1 /\ 0 < f
  | PTorus c v ra rb rc => vlen v = 1 /\ 0 <= ra /\ 0 < rb /\ 0 < rc
  | PBox p v1 v2 v3 => v1 <> vzero /\ v2 <> vzero /\ v3 <> vzero
  end.
(** the kinds with a correct side test *)
Definition supported_side (s : prim) : Prop :=
  match s with PECone _ _ _ _ _ _ _ _ | PHyper _ _ _ _ _ _ _ | PEllip _ _ _ _ _ _ => False | _ => True end.
(** points where the test can fail: the virtual apex of a truncated cone (no direction),
    the extension of the lateral surface of an elliptic can beyond its ends *)
Definition blind (s : prim) (x : vec) : Prop :=
  match s with
  | PTCone p v r1 r2 => x = vadd p (vscale (r1 / (r1 - r2)) v)
  | PECan c v r0 r1 a0 a1 => (dot (vsub x c) a1 / r1) ^ 2 + (dot (vsub x c) a0 / r0) ^ 2 = 1
  | _ => False
  end.
