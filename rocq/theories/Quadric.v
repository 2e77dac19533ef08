(** The cards GQ and SQ: sq2params, gq2params, conicSurface and the get_*_parameters of
    /repo/src/geouned/GEOReverse/Modules/MCNPinput.py ("mi") 997-1330, 678-759.
    Floats are real numbers.  numpy.linalg.eigh is not modelled: its result (eigenvalues
    and the columns of the matrix of eigenvectors) is an argument.  A numpy division by
    zero gives an infinity; here the quotient is unspecified, and no theorem relies on it. *)
From Verif Require Import Prelude Vec3 Prim.
Open Scope R_scope.

(** the ten coefficients A..K of the card *)
Record gq := GQ { ga : R; gb : R; gc : R; gd : R; ge : R; gf : R; gg : R; gh : R; gj : R; gk : R }.
(** eigenvalues and columns of [vect] *)
Record eig := Eig { ev : nat -> R; vv : nat -> vec }.

Definition nx (i : nat) : nat := match i with 0 => 1 | 1 => 2 | _ => 0 end%nat.
Definition nx2 (i : nat) : nat := nx (nx i).
Definition sum3 (f : nat -> R) : R := f 0%nat + f 1%nat + f 2%nat.
Definition vsum3 (f : nat -> vec) : vec := vadd (f 0%nat) (vadd (f 1%nat) (f 2%nat)).
(** row [i] of [vect], i < 3 *)
Definition row (g : eig) (i : nat) : vec :=
  let c := match i with 0 => vx | 1 => vy | _ => vz end%nat in
  V (c (vv g 0%nat)) (c (vv g 1%nat)) (c (vv g 2%nat)).
(** np.sign *)
Definition sgn (x : R) : Z := if Rlt_dec 0 x then 1%Z else if Rlt_dec x 0 then (-1)%Z else 0%Z.

(** results of conicSurface; the ellipsoid carries the number of its axis, mi 1167 *)
Inductive qres :=
| QPrim (s : prim)
| QEllip (c : vec) (iaxis : nat) (r0 r1 : R) (a0 a1 : vec)
| QNone.

(** get_parabola_parameters, mi 997-1006: the axis is a row of the matrix *)
Definition get_parabola (g : eig) (T : vec) (iz : nat) (comp : R) : qres :=
  let f := comp / (4 * ev g (nx iz)) in
  if Rlt_dec f 0 then QPrim (PPara T (vopp (row g iz)) (- f)) else QPrim (PPara T (row g iz) f).

(** get_cylinder_parameters, mi 1009-1054 *)
Definition get_cylinder (g : eig) (T : vec) (k : R) (i : nat) : qres :=
  let o1 := nx i in let o2 := nx2 i in
  let axis := vv g i in
  if Rlt_dec (Rabs (ev g o1 - ev g o2)) (1 / 10 ^ 5) then QPrim (PCyl T axis (sqrt (k / ev g o2)))
  else
    let '(iMin, iMaj) := if Rlt_dec (Rabs (ev g o1)) (Rabs (ev g o2)) then (o2, o1) else (o1, o2) in
    let eMin := ev g iMin in let eMaj := ev g iMaj in
    let majR := sqrt (Rabs (k / eMaj)) in
    let minR := sqrt (Rabs (k / eMin)) in
    if Z.eqb (sgn eMaj) (sgn eMin) then QPrim (PECyl T axis minR majR (vv g iMin) (vv g iMaj))
    else if Z.eqb (sgn k) (sgn eMaj) then QPrim (PHCyl T axis minR majR (vv g iMin) (vv g iMaj))
    else QPrim (PHCyl T axis majR minR (vv g iMaj) (vv g iMin)).

(** get_cone_parameters, mi 1057-1086 *)
Definition get_cone (g : eig) (T : vec) (i : nat) : qres :=
  if Rlt_dec (Rabs (ev g (nx i) - ev g (nx2 i))) (1 / 10 ^ 5) then
    QPrim (PCone T (vv g i) (sqrt (- ev g (nx i) / ev g i)) true)
  else
    let i := if Z.eqb (sgn (ev g 1%nat)) (sgn (ev g 2%nat)) then 0%nat
             else if Z.eqb (sgn (ev g 2%nat)) (sgn (ev g 0%nat)) then 1%nat
             else if Z.eqb (sgn (ev g 0%nat)) (sgn (ev g 1%nat)) then 2%nat else i in
    let ra := Rabs (1 / ev g i) in
    let r1 := Rabs (1 / ev g (nx i)) in
    let r2 := Rabs (1 / ev g (nx2 i)) in
    if Rlt_dec r2 r1 then QPrim (PECone T (vv g i) ra r2 r1 (vv g (nx2 i)) (vv g (nx i)) true)
    else QPrim (PECone T (vv g i) ra r1 r2 (vv g (nx i)) (vv g (nx2 i)) true).

(** get_hyperboloid_parameters, mi 1089-1129, with iaxis given *)
Definition get_hyperboloid (g : eig) (T : vec) (k : R) (i : nat) : qres :=
  let o1 := nx i in let o2 := nx2 i in
  let rad1 := sqrt (Rabs (k / ev g o1)) in
  let rad2 := sqrt (Rabs (k / ev g o2)) in
  let o := if Rlt_dec rad2 rad1 then o1 else o2 in
  let majR := sqrt (Rabs (k / ev g i)) in
  let minR := sqrt (Rabs (k / ev g o)) in
  let one := negb (Z.eqb (sgn k) (sgn (ev g i))) in
  if one && rltb (10 ^ 3) (majR / minR) then get_cylinder g T k i
  else if rltb minR (1 / 10) then get_cone g T i
  else QPrim (PHyper T (vv g i) minR majR (vv g o) (vv g i) one).

(** get_ellipsoid_parameters, mi 1132-1167 *)
Definition get_ellipsoid (g : eig) (T : vec) (k : R) : qres :=
  let close := fun i j => rltb (Rabs (ev g i - ev g j)) (1 / 10 ^ 3) in
  let ia := if close 0%nat 1%nat then Some 2%nat else if close 1%nat 2%nat then Some 0%nat else if close 2%nat 0%nat then Some 1%nat else None in
  match ia with
  | None => QNone
  | Some i =>
      let o := nx i in
      let '(iMin, iMaj) := if Rlt_dec (ev g o) (ev g i) then (i, o) else (o, i) in
      let majR := sqrt (Rabs (k / ev g iMaj)) in
      let minR := sqrt (Rabs (k / ev g iMin)) in
      if rltb (10 ^ 3) (majR / minR) then get_cylinder g T k iMaj
      else QEllip T i minR majR (vv g iMin) (vv g iMaj)
  end.

(** getGQAxis, mi 1170-1217 *)
Definition argmin_abs (g : eig) : nat :=
  let a := fun i => Rabs (ev g i) in
  if Rle_dec (a 0%nat) (a 1%nat) then if Rle_dec (a 0%nat) (a 2%nat) then 0%nat else 2%nat
  else if Rle_dec (a 1%nat) (a 2%nat) then 1%nat else 2%nat.
Definition gq_axis_index (g : eig) : nat :=
  let close := fun i j => rltb (Rabs (ev g i - ev g j)) (1 / 10 ^ 5) in
  if close 0%nat 1%nat then 2%nat else if close 1%nat 2%nat then 0%nat else if close 2%nat 0%nat then 1%nat else argmin_abs g.
Inductive ekind := Ecyl | Econe | Ehyper | Eellip | Enone.
Definition gq_kind (g : eig) (k : R) (i : nat) : ekind :=
  let s0 := sgn (ev g i) in let s1 := sgn (ev g (nx i)) in let s2 := sgn (ev g (nx2 i)) in
  let same := Z.eqb s0 s1 && Z.eqb s1 s2 in
  let flat := if Req_EM_T (ev g i) 0 then true else false in
  if Req_EM_T k 0 then if flat then Enone else if same then Enone else Econe
  else if Z.eqb (sgn k) s1 then
    if flat then (if Z.eqb s1 s2 then Enone else Ecyl) else if same then Enone else Ehyper
  else if flat then Ecyl else if same then Eellip else Ehyper.

(** gq2params, mi 1260-1300, with the result of eigh *)
Definition small (x : R) : bool := rltb (Rabs x) (1 / 10 ^ 8).
Definition xd (q : gq) (g : eig) (i : nat) : R := dot (V (gg q / 2) (gh q / 2) (gj q / 2)) (vv g i).
Definition td0 (q : gq) (g : eig) (i : nat) : R :=
  - xd q g i * (if small (ev g i) then ev g i else 1 / ev g i).
Definition kval (q : gq) (g : eig) : R := sum3 (fun i => td0 q g i * xd q g i) + gk q.
Definition first_zero (g : eig) : option nat :=
  if small (ev g 0%nat) then Some 0%nat else if small (ev g 1%nat) then Some 1%nat else if small (ev g 2%nat) then Some 2%nat else None.
Definition centre (g : eig) (td : nat -> R) : vec := vsum3 (fun i => vscale (td i) (vv g i)).
(** conicSurface for the central conics, mi 1311-1330 *)
Definition conic (g : eig) (T : vec) (k : R) : qres :=
  let i := gq_axis_index g in
  match gq_kind g k i with
  | Ecyl => get_cylinder g T (- k) i
  | Econe => get_cone g T i
  | Ehyper => get_hyperboloid g T (- k) i
  | Eellip => get_ellipsoid g T (- k)
  | Enone => QNone
  end.
Definition gq2params (q : gq) (g : eig) : qres :=
  let k := kval q g in
  match first_zero g with
  | Some iz =>
      let comp := 2 * xd q g iz in
      if rltb (1 / 10 ^ 6) (Rabs comp) then
        let td := fun i => if Nat.eqb i iz then - k / comp else td0 q g i in
        get_parabola g (centre g td) iz comp
      else conic g (centre g (td0 q g)) k
  | None => conic g (centre g (td0 q g)) k
  end.

(** sq2params, mi 1220-1232 *)
Definition sq2gq (a b c d e f g x y z : R) : gq :=
  GQ a b c 0 0 0 (2 * (d - a * x)) (2 * (e - b * y)) (2 * (f - c * z))
     (g + a * x * x + b * y * y + c * z * z - 2 * d * x - 2 * e * y - 2 * f * z).

(** mi 686-757: lengths to mm *)
Definition mm (r : qres) : qres :=
  match r with
  | QPrim (PCyl p v r) => QPrim (PCyl (vscale 10 p) v (r * 10))
  | QPrim (PECyl p v r0 r1 a0 a1) => QPrim (PECyl (vscale 10 p) v (r0 * 10) (r1 * 10) a0 a1)
  | QPrim (PHCyl p v r0 r1 a0 a1) => QPrim (PHCyl (vscale 10 p) v (r0 * 10) (r1 * 10) a0 a1)
  | QPrim (PCone p v t b) => QPrim (PCone (vscale 10 p) v t b)
  | QPrim (PECone p v ra r0 r1 a0 a1 b) => QPrim (PECone (vscale 10 p) v (ra * 10) (r0 * 10) (r1 * 10) a0 a1 b)
  | QPrim (PHyper p v r0 r1 a0 a1 b) => QPrim (PHyper (vscale 10 p) v (r0 * 10) (r1 * 10) a0 a1 b)
  | QPrim (PPara p v f) => QPrim (PPara (vscale 10 p) v (f * 10))
  | QEllip c i r0 r1 a0 a1 => QEllip (vscale 10 c) i (r0 * 10) (r1 * 10) a0 a1
  | r => r
  end.
Definition gq_primitive (q : gq) (g : eig) : qres := mm (gq2params q g).
