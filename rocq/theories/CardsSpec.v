(** Specification: the meaning of the MCNP surface cards (MCNP manual, "Surface cards"
    and "Macrobodies") and of the TR card, independent of the code.  Lengths in cm. *)
From Coq Require Import String.
From Verif Require Import Prelude Vec3 Geom GeomSpec.
Open Scope string_scope.
Open Scope list_scope.
Open Scope R_scope.

Inductive ax := AX | AY | AZ.
(** coordinate along the axis, and the two others *)
Definition along (a : ax) (x : vec) : R := match a with AX => vx x | AY => vy x | AZ => vz x end.
Definition off1 (a : ax) (x : vec) : R := match a with AX => vy x | _ => vx x end.
Definition off2 (a : ax) (x : vec) : R := match a with AZ => vy x | _ => vz x end.
Definition at_ (a : ax) (h : R) : vec := match a with AX => V h 0 0 | AY => V 0 h 0 | AZ => V 0 0 h end.
Definition off_at (a : ax) (u w : R) : vec := match a with AX => V 0 u w | AY => V u 0 w | AZ => V u w 0 end.
(** squared distance to the line through [p] parallel to the axis *)
Definition line2 (a : ax) (p x : vec) : R := (off1 a x - off1 a p) ^ 2 + (off2 a x - off2 a p) ^ 2.

Inductive mcnp :=
| MP (a b c d : R)
| MP3 (p1 p2 p3 : vec)
| MPA (a : ax) (d : R)
| MS (c : vec) (r : R) | MSPH (c : vec) (r : R) | MSA (a : ax) (h r : R) | MSO (r : R)
| MC (a : ax) (r : R) | MCP (a : ax) (u w r : R)
| MK (a : ax) (h t2 : R) (sheet : option R)
| MKP (a : ax) (p : vec) (t2 : R) (sheet : option R)
| MT (a : ax) (p : vec) (ra rb rc : R)
| MX1 (a : ax) (h r : R)
| MX2 (a : ax) (h1 r1 h2 r2 : R)
| MBOX (p v1 v2 v3 : vec)
| MRPP (x0 x1 y0 y1 z0 z1 : R)
| MRCC (p h : vec) (r : R)
| MREC (p h v1 v2 : vec)
| MREC1 (p h v1 : vec) (r : R)
| MTRC (p h : vec) (r1 r2 : R).

(** The sheet of a cone: both when it is missing or 0 *)
Definition sheet_val (s : option R) : R := match s with None => 0 | Some s => s end.
Definition cone_neg (a : ax) (p : vec) (t2 s : R) (x : vec) : Prop :=
  line2 a p x < t2 * (along a x - along a p) ^ 2 /\ (s = 0 \/ 0 < s * (along a x - along a p)).
Definition cone_pos (a : ax) (p : vec) (t2 s : R) (x : vec) : Prop :=
  t2 * (along a x - along a p) ^ 2 < line2 a p x \/ (s <> 0 /\ s * (along a x - along a p) < 0).
(** component of x - p along the vector v, and its two bounds for a macrobody *)
Definition comp (p v x : vec) : R := dot (vsub x p) v / dot v v.
Definition in_ends (p v x : vec) : Prop := 0 < comp p v x < 1.
Definition out_ends (p v x : vec) : Prop := comp p v x < 0 \/ 1 < comp p v x.
(** squared distance of x to the line (p, v) *)
Definition axis2 (p v x : vec) : R := dot (vsub x p) (vsub x p) - comp p v x ^ 2 * dot v v.

(** [neg c x]: x has negative sense with respect to the card; [pos_]: positive sense *)
Definition neg (c : mcnp) (x : vec) : Prop :=
  match c with
  | MP a b c d => a * vx x + b * vy x + c * vz x < d
  | MP3 p1 p2 p3 => exists n d, three_point_plane p1 p2 p3 n d /\ dot n x < d
  | MPA a d => along a x < d
  | MS c r | MSPH c r => (vx x - vx c) ^ 2 + (vy x - vy c) ^ 2 + (vz x - vz c) ^ 2 < r ^ 2
  | MSA a h r => line2 a vzero x + (along a x - h) ^ 2 < r ^ 2
  | MSO r => vx x ^ 2 + vy x ^ 2 + vz x ^ 2 < r ^ 2
  | MC a r => line2 a vzero x < r ^ 2
  | MCP a u w r => (off1 a x - u) ^ 2 + (off2 a x - w) ^ 2 < r ^ 2
  | MK a h t2 s => cone_neg a (at_ a h) t2 (sheet_val s) x
  | MKP a p t2 s => cone_neg a p t2 (sheet_val s) x
  | MT a p ra rb rc => (along a x - along a p) ^ 2 / rb ^ 2 + (sqrt (line2 a p x) - ra) ^ 2 / rc ^ 2 < 1
  | MX1 a h r => along a x < h
  | MX2 a h1 r1 h2 r2 =>
      (* the cone (one sheet) or cylinder through the two circles *)
      let rad := r1 + (r2 - r1) * (along a x - h1) / (h2 - h1) in
      line2 a vzero x < rad ^ 2 /\ 0 < rad
  | MBOX p v1 v2 v3 => in_ends p v1 x /\ in_ends p v2 x /\ in_ends p v3 x
  | MRPP x0 x1 y0 y1 z0 z1 => x0 < vx x < x1 /\ y0 < vy x < y1 /\ z0 < vz x < z1
  | MRCC p h r => axis2 p h x < r ^ 2 /\ in_ends p h x
  | MREC p h v1 v2 => comp p v1 x ^ 2 + comp p v2 x ^ 2 < 1 /\ in_ends p h x
  | MREC1 p h v1 r => comp p v1 x ^ 2 + dot (vsub x p) (cross h v1) ^ 2 / (dot h h * dot v1 v1 * r ^ 2) < 1 /\ in_ends p h x
  | MTRC p h r1 r2 => axis2 p h x < (r1 + (r2 - r1) * comp p h x) ^ 2 /\ in_ends p h x
  end.
Definition pos_ (c : mcnp) (x : vec) : Prop :=
  match c with
  | MP a b c d => d < a * vx x + b * vy x + c * vz x
  | MP3 p1 p2 p3 => exists n d, three_point_plane p1 p2 p3 n d /\ d < dot n x
  | MPA a d => d < along a x
  | MS c r | MSPH c r => r ^ 2 < (vx x - vx c) ^ 2 + (vy x - vy c) ^ 2 + (vz x - vz c) ^ 2
  | MSA a h r => r ^ 2 < line2 a vzero x + (along a x - h) ^ 2
  | MSO r => r ^ 2 < vx x ^ 2 + vy x ^ 2 + vz x ^ 2
  | MC a r => r ^ 2 < line2 a vzero x
  | MCP a u w r => r ^ 2 < (off1 a x - u) ^ 2 + (off2 a x - w) ^ 2
  | MK a h t2 s => cone_pos a (at_ a h) t2 (sheet_val s) x
  | MKP a p t2 s => cone_pos a p t2 (sheet_val s) x
  | MT a p ra rb rc => 1 < (along a x - along a p) ^ 2 / rb ^ 2 + (sqrt (line2 a p x) - ra) ^ 2 / rc ^ 2
  | MX1 a h r => h < along a x
  | MX2 a h1 r1 h2 r2 =>
      let rad := r1 + (r2 - r1) * (along a x - h1) / (h2 - h1) in
      rad ^ 2 < line2 a vzero x \/ rad < 0
  | MBOX p v1 v2 v3 => out_ends p v1 x \/ out_ends p v2 x \/ out_ends p v3 x
  | MRPP x0 x1 y0 y1 z0 z1 => vx x < x0 \/ x1 < vx x \/ vy x < y0 \/ y1 < vy x \/ vz x < z0 \/ z1 < vz x
  | MRCC p h r => r ^ 2 < axis2 p h x \/ out_ends p h x
  | MREC p h v1 v2 => 1 < comp p v1 x ^ 2 + comp p v2 x ^ 2 \/ out_ends p h x
  | MREC1 p h v1 r => 1 < comp p v1 x ^ 2 + dot (vsub x p) (cross h v1) ^ 2 / (dot h h * dot v1 v1 * r ^ 2) \/ out_ends p h x
  | MTRC p h r1 r2 => (r1 + (r2 - r1) * comp p h x) ^ 2 < axis2 p h x \/ out_ends p h x
  end.

(** Cards the manual allows *)
Definition legal (c : mcnp) : Prop :=
  match c with
  | MP a b c d => V a b c <> vzero
  | MP3 p1 p2 p3 => ~ collinear p1 p2 p3
  | MPA _ _ | MX1 _ _ _ => True
  | MS _ r | MSPH _ r | MSA _ _ r | MSO r | MC _ r | MCP _ _ _ r => 0 < r
  | MK _ _ t2 _ | MKP _ _ t2 _ => 0 < t2
  | MT _ _ ra rb rc => 0 <= ra /\ 0 < rb /\ 0 < rc
  | MX2 _ h1 r1 h2 r2 => h1 <> h2 /\ 0 <= r1 /\ 0 <= r2 /\ (0 < r1 \/ 0 < r2)
  | MBOX p v1 v2 v3 => v1 <> vzero /\ v2 <> vzero /\ v3 <> vzero /\ dot v1 v2 = 0 /\ dot v1 v3 = 0 /\ dot v2 v3 = 0
  | MRPP x0 x1 y0 y1 z0 z1 => x0 < x1 /\ y0 < y1 /\ z0 < z1
  | MRCC p h r => h <> vzero /\ 0 < r
  | MREC p h v1 v2 => h <> vzero /\ v1 <> vzero /\ v2 <> vzero /\ dot h v1 = 0 /\ dot h v2 = 0 /\ dot v1 v2 = 0
  | MREC1 p h v1 r => h <> vzero /\ v1 <> vzero /\ dot h v1 = 0 /\ 0 < r
  | MTRC p h r1 r2 => h <> vzero /\ 0 < r2 < r1
  end.

(** The card as text: mnemonic and numbers *)
Definition letter (a : ax) : string := match a with AX => "X" | AY => "Y" | AZ => "Z" end.
Definition nums (v : vec) : list R := [vx v; vy v; vz v].
Definition opt (s : option R) : list R := match s with None => [] | Some s => [s] end.
Definition written (c : mcnp) : string * list R :=
  match c with
  | MP a b c d => ("P", [a; b; c; d])
  | MP3 p1 p2 p3 => ("P", nums p1 ++ nums p2 ++ nums p3)
  | MPA a d => (String.append "P" (letter a), [d])
  | MS c r => ("S", nums c ++ [r])
  | MSPH c r => ("SPH", nums c ++ [r])
  | MSA a h r => (String.append "S" (letter a), [h; r])
  | MSO r => ("SO", [r])
  | MC a r => (String.append "C" (letter a), [r])
  | MCP a u w r => (String.append "C/" (letter a), [u; w; r])
  | MK a h t2 s => (String.append "K" (letter a), [h; t2] ++ opt s)
  | MKP a p t2 s => (String.append "K/" (letter a), nums p ++ [t2] ++ opt s)
  | MT a p ra rb rc => (String.append "T" (letter a), nums p ++ [ra; rb; rc])
  | MX1 a h r => (letter a, [h; r])
  | MX2 a h1 r1 h2 r2 => (letter a, [h1; r1; h2; r2])
  | MBOX p v1 v2 v3 => ("BOX", nums p ++ nums v1 ++ nums v2 ++ nums v3)
  | MRPP x0 x1 y0 y1 z0 z1 => ("RPP", [x0; x1; y0; y1; z0; z1])
  | MRCC p h r => ("RCC", nums p ++ nums h ++ [r])
  | MREC p h v1 v2 => ("REC", nums p ++ nums h ++ nums v1 ++ nums v2)
  | MREC1 p h v1 r => ("REC", nums p ++ nums h ++ nums v1 ++ [r])
  | MTRC p h r1 r2 => ("TRC", nums p ++ nums h ++ [r1; r2])
  end.

(** The TR card: displacement, the nine cosines, and m.  [placed] gives the main
    coordinates [x] of the point with auxiliary coordinates [y]. *)
Definition tr_rows (b : vec * vec * vec) (y : vec) : vec :=
  let '(b1, b2, b3) := b in
  V (vx b1 * vx y + vx b2 * vy y + vx b3 * vz y)
    (vy b1 * vx y + vy b2 * vy y + vy b3 * vz y)
    (vz b1 * vx y + vz b2 * vy y + vz b3 * vz y).
(** m = 1: the displacement is the position of the auxiliary origin in the main system;
    m = -1: the position of the main origin in the auxiliary system *)
Definition placed (m : Z) (o : vec) (b : vec * vec * vec) (y : vec) : vec :=
  if Z.eqb m (-1) then tr_rows b (vsub y o) else vadd o (tr_rows b y).
(** the three auxiliary axes are orthonormal *)
Definition orthonormal (b : vec * vec * vec) : Prop :=
  let '(b1, b2, b3) := b in
  dot b1 b1 = 1 /\ dot b2 b2 = 1 /\ dot b3 b3 = 1 /\ dot b1 b2 = 0 /\ dot b1 b3 = 0 /\ dot b2 b3 = 0.
