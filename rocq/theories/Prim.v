(** Primitive surfaces of GEOReverse (Objects.py, "ob", the parameters of each class)
    and surface_side,
    /repo/src/geouned/GEOReverse/Modules/splitFunction.py ("sf") 259-420.
    Floats are real numbers. *)
From Verif Require Import Prelude Vec3.
Open Scope R_scope.

(** ob 196-720.  [Can], [TCone], [ECan]: truncated = True. *)
Inductive prim :=
| PPlane (n : vec) (d : R)
| PSphere (c : vec) (r : R)
| PCyl (p v : vec) (r : R)
| PCan (p v : vec) (r : R)
| PCone (p v : vec) (t : R) (dbl : bool)
| PTCone (p v : vec) (r1 r2 : R)
| PECone (p v : vec) (ra : R) (r0 r1 : R) (a0 a1 : vec) (dbl : bool)
| PHyper (c v : vec) (r0 r1 : R) (a0 a1 : vec) (one : bool)
| PEllip (c v : vec) (r0 r1 : R) (a0 a1 : vec)
| PECyl (c v : vec) (r0 r1 : R) (a0 a1 : vec)
| PECan (c v : vec) (r0 r1 : R) (a0 a1 : vec)
| PHCyl (c v : vec) (r0 r1 : R) (a0 a1 : vec)
| PPara (c v : vec) (f : R)
| PTorus (c v : vec) (ra rb rc : R)
| PBox (p v1 v2 v3 : vec).

(** Python's float division and square root *)
Definition rdiv (a b : R) : res R := if Req_EM_T b 0 then Err ZeroDivision else Ok (a / b).
Definition rsqrt (a : R) : res R := if Rlt_dec a 0 then Err ValueError else Ok (sqrt a).
(** Vector.normalize(): fails for the null vector *)
Definition normalize (a : vec) : res vec :=
  if Req_EM_T (vlen a) 0 then Err ValueError else Ok (vscale (/ vlen a) a).
Definition rltb (a b : R) : bool := if Rlt_dec a b then true else false.
(** sf 290, 302: max(-1, min(1, x)) *)
Definition clamp (x : R) : R := Rmax (-1) (Rmin 1 x).
Definition rsq (x : R) : R := x * x.

(** btwPPlanes, sf 411-420: true stands for -1 *)
Definition between (p p0 v : vec) : bool :=
  rltb 0 (dot v (vsub p p0)) && rltb (dot v (vsub p (vadd p0 v))) 0.

(** surface_side, sf 259-408: true when the point is on the positive side *)
Definition surface_side (p : vec) (s : prim) : res bool :=
  match s with
  | PSphere c r => Ok (rltb 0 (vlen (vsub p c) - r))
  | PPlane n d => Ok (rltb 0 (dot p n - d))
  | PCyl q v r => Ok (rltb 0 (vlen (cross (vsub p q) v) - r))
  | PCan q v r =>
      do k <- rdiv (vlen (cross (vsub p q) v)) (vlen v);
      Ok (negb (rltb (k - r) 0 && between p q v))
  | PCone q v t dbl =>
      do X <- normalize (vsub p q);
      let c := clamp (dot X v) in
      let a := if dbl then acos (Rabs c) else acos c in
      Ok (rltb 0 (a - atan t))
  | PTCone q v r1 r2 =>
      do k <- rdiv r1 (r1 - r2);
      let apex := vadd q (vscale k v) in
      do X <- normalize (vsub p apex);
      do c <- rdiv (dot X (vopp v)) (vlen v);
      let a := acos (clamp c) in
      do t <- rdiv (r1 - r2) (vlen v);
      Ok (negb (rltb (a - atan t) 0 && between p q v))
  | PECone q v ra r0 r1 a0 a1 dbl =>
      let r := vsub p q in
      let Z := if dbl then Rabs (dot r v) else dot r v in
      do x <- rdiv (dot r a1) r1;
      do y <- rdiv (dot r a0) r0;
      do z <- rdiv Z ra;
      Ok (rltb 0 (rsq x + rsq y - z))
  | PHyper c v r0 r1 a0 a1 one =>
      let r := vsub p c in
      let rX := dot r a1 in
      let w := vsub r (vadd (vscale rX a1) c) in
      do k <- rdiv rX r1;
      let radical := rsq k + (if one then 1 else -1) in
      if Rlt_dec 0 radical then Ok (rltb 0 (vlen w - r0 * sqrt radical)) else Ok true
  | PEllip c v r0 r1 a0 a1 =>
      let r := vsub p c in
      let rX := dot r v in
      (* sf 349-352: radX is not defined in the second case; 355-357: a vector minus a
         number, when the radical is positive *)
      if Rlt_dec (vlen (vadd v (vopp a0))) (1 / 10 ^ 5) then
        do k <- rdiv rX r0;
        if Rlt_dec 0 (1 - rsq k) then Err TypeError else Ok true
      else Err UnboundLocal
  | PECyl c v r0 r1 a0 a1 =>
      let r := vsub p c in
      do x <- rdiv (dot r a1) r1;
      do y <- rdiv (dot r a0) r0;
      Ok (rltb 0 (rsq x + rsq y - 1))
  | PECan c v r0 r1 a0 a1 =>
      let r := vsub p c in
      do x <- rdiv (dot r a1) r1;
      do y <- rdiv (dot r a0) r0;
      Ok (if rltb (rsq x + rsq y - 1) 0 then negb (between p c v) else rltb 0 (rsq x + rsq y - 1))
  | PHCyl c v r0 r1 a0 a1 =>
      let r := vsub p c in
      do x <- rdiv (dot r a1) r1;
      do y <- rdiv (dot r a0) r0;
      Ok (rltb 0 (rsq x - rsq y - 1))
  | PPara c v f =>
      let r := vsub p c in
      let X := dot r v in
      if Rlt_dec X 0 then Ok true
      else
        do Y <- rsqrt (4 * f * X);
        Ok (rltb 0 (vlen (vsub r (vscale X v)) - Y))
  | PTorus q v ra rb rc =>
      let d := vsub p q in
      let z := dot d v in
      let rz := vsub d (vscale z v) in
      do a <- rdiv z rb;
      do b <- rdiv (vlen rz - ra) rc;
      Ok (rltb 0 (rsq a + rsq b - 1))
  | PBox q v1 v2 v3 =>
      (* sf 394-399: stops at the first direction the point is outside of *)
      Ok (negb (between p q v1 && between p q v2 && between p q v3))
  end.
