(** Planes that replace the curved surfaces of a cell when its box is computed:
    /repo/src/geouned/GEOReverse/Modules/Utils/boundBox.py ("bb") 402-785.
    Floats are real numbers (so cos and sin of multiples of pi/2 are exact). *)
From Verif Require Import Prelude BoolSpec BoolSeq RBool Vec3 Prim RBox.
Open Scope R_scope.

(** Part.Plane(position, normal): the axis is made unit *)
Record pl := PL { pl_pos : vec; pl_axis : vec }.
Definition mk_plane (pos n : vec) : res pl := do u <- normalize n; Ok (PL pos u).
(** bb 214-222 isInside, without tolerance: a point is on the positive side *)
Definition pl_dist (p : pl) (x : vec) : R := dot (pl_axis p) (vsub x (pl_pos p)).

Definition ex := V 1 0 0.
Definition ey := V 0 1 0.
Definition ez := V 0 0 1.
Definition f085 : R := 8535533906 / 10 ^ 10.
Definition f070 : R := 70710678 / 10 ^ 8.
(** bb 496-499, 516-519, 546-549: [None] is the undefined orientation *)
Definition shrink (pos : option bool) (r : R) : R :=
  match pos with None => r * f085 | Some true => r * f070 | Some false => r end.

(** bb 478-491 get_orto_axis *)
Definition orto_axis (a : vec) : res (vec * vec) :=
  let ux := cross a ex in
  let uz := cross a ez in
  do v <- normalize (if Rlt_dec (vlen ux) (vlen uz) then uz else ux);
  do w <- normalize (cross v a);
  Ok (v, w).

(** bb 494-511 *)
Definition cyl_planes (c a : vec) (r0 : R) (pos : option bool) : res (list pl) :=
  let r := shrink pos r0 in
  do (x, y) <- orto_axis a;
  mapM (fun q => mk_plane (fst q) (snd q))
    [ (vadd c (vscale r x), vopp x); (vsub c (vscale r x), x);
      (vadd c (vscale r y), vopp y); (vsub c (vscale r y), y) ].
(** bb 514-540: the four directions rho, then the plane of the apex *)
Definition cone_planes (apex a : vec) (t0 : R) (pos : option bool) : res (list pl) :=
  let t := shrink pos t0 in
  let sa := atan t in
  do (x, y) <- orto_axis a;
  do l <- mapM (fun rho => mk_plane apex (vopp (vadd (vscale (- sin sa) a) (vscale (cos sa) rho))))
            [x; y; vopp x; vopp y];
  do p <- mk_plane apex a;
  Ok (l ++ [p]).
(** bb 543-568 *)
Definition six (c : vec) (rx ry rz : R) : res (list pl) :=
  mapM (fun q => mk_plane (fst q) (snd q))
    [ (vadd c (vscale rx ex), vopp ex); (vsub c (vscale rx ex), ex);
      (vadd c (vscale ry ey), vopp ey); (vsub c (vscale ry ey), ey);
      (vadd c (vscale rz ez), vopp ez); (vsub c (vscale rz ez), ez) ].
Definition sphere_planes (c : vec) (r0 : R) (pos : option bool) : res (list pl) :=
  let r := shrink pos r0 in six c r r r.
(** bb 571-647; [major, mR, mA] are the last three parameters in this order *)
Definition aligned (a e : vec) : bool := rltb (Rabs (Rabs (dot a e) - 1)) (/ 10 ^ 5).
Definition hole (c : vec) (d : R) (u w : vec) : res (list pl) :=
  if rltb 0 d then
    mapM (fun q => mk_plane (fst q) (snd q))
      [ (vadd c (vscale d u), u); (vsub c (vscale d u), vopp u);
        (vadd c (vscale d w), w); (vsub c (vscale d w), vopp w) ]
  else Ok [].
Definition torus_planes (c a : vec) (major mR mA : R) (pos : option bool) : res (list pl * list pl) :=
  let dist := shrink pos (major + mR) in
  let dif := match pos with
             | None => (major - mR) * f085
             | Some true => major - mR
             | Some false => (major - mR) * f070
             end in
  if aligned a ex then do e <- six c mA dist dist; do i <- hole c dif ey ez; Ok (e, i)
  else if aligned a ey then do e <- six c dist mA dist; do i <- hole c dif ex ez; Ok (e, i)
  else if aligned a ez then do e <- six c dist dist mA; do i <- hole c dif ex ey; Ok (e, i)
  else Err UnboundLocal.
(** bb 650-660 *)
Definition box_planes (o v1 v2 v3 : vec) : res (list pl) :=
  mapM (fun q => mk_plane (fst q) (snd q))
    [ (o, v1); (o, v2); (o, v3);
      (vadd o v1, vopp v1); (vadd o v2, vopp v2); (vadd o v3, vopp v3) ].
(** bb 663-702: the tangent planes at the distances x0, x0/b, ..., x0/b^7 from the axis,
    in four directions.  bb 678 makes the axis of the surface itself unit. *)
Definition para_b : R := 1 - sqrt (2 * (22 / 100)).
Definition para_x0 (f : R) : R := para_b ^ 7 * sqrt (4 * f * 750000).
Definition tangent (c a x y : vec) (f xp : R) (rho w : vec) : res pl :=
  let slope := vadd (vscale (2 * f) rho) (vscale xp a) in
  let zi := / 4 * xp * xp / f in
  do n <- normalize (cross w slope);
  mk_plane (vadd (vadd c (vscale xp rho)) (vscale zi a)) n.
Definition para_planes (c a0 : vec) (f : R) : res (list pl) :=
  do a <- normalize a0;
  do (x, y) <- orto_axis a;
  do p0 <- mk_plane c a;
  do ls <- mapM (fun n => let xp := para_x0 f / para_b ^ n in
                   mapM (fun q => tangent c a x y f xp (fst q) (snd q))
                     [ (x, y); (y, vopp x); (vopp x, vopp y); (vopp y, x) ]) (seq 0 8);
  Ok (p0 :: concat ls).

(** bb 461-475 convert_to_planes: a list, or the two lists of a torus.  A TRC is a "cone"
    whose third and fourth parameters are the radii. *)
Inductive shape_planes := SList (l : list pl) | SCone (dbl : bool) (l : list pl) | STorus (e i : list pl).
Definition to_planes (s : prim) (pos : option bool) : res shape_planes :=
  match s with
  | PPlane _ _ => Ok (SList [])
  | PCyl c a r | PCan c a r => do l <- cyl_planes c a r pos; Ok (SList l)
  | PCone c a t dbl => do l <- cone_planes c a t pos; Ok (SCone dbl l)
  | PTCone c a r1 r2 => do l <- cone_planes c a r1 pos; Ok (SCone (if Req_EM_T r2 0 then false else true) l)
  | PSphere c r => do l <- sphere_planes c r pos; Ok (SList l)
  | PTorus c a ra rb rc => do (e, i) <- torus_planes c a ra rb rc pos; Ok (STorus e i)
  | PPara c a f => do l <- para_planes c a f; Ok (SList l)
  | PBox o v1 v2 v3 => do l <- box_planes o v1 v2 v3; Ok (SList l)
  | _ => Ok (SList [])
  end.

Section FoldM.
  Context {A B : Type}.
  Variable f : A -> B -> res A.
  Fixpoint foldM (a : A) (l : list B) : res A :=
    match l with [] => Ok a | b :: r => do a' <- f a b; foldM a' r end.
End FoldM.

(** * Indexing the planes, bb 402-458 quadric_to_plane *)
Inductive entry := EList (l : list Z) | ECone (dbl : bool) (l : list Z) | ETorus (e i : list Z).
(** Python dictionaries: an existing key keeps its place *)
Fixpoint dset {A} (k : Z) (a : A) (d : list (Z * A)) : list (Z * A) :=
  match d with
  | [] => [(k, a)]
  | (k', a') :: r => if (k' =? k)%Z then (k, a) :: r else (k', a') :: dset k a r
  end.
Fixpoint dget {A} (k : Z) (d : list (Z * A)) : option A :=
  match d with [] => None | (k', a) :: r => if (k' =? k)%Z then Some a else dget k r end.
(** bb 418-420 *)
Inductive orient := OFwd | ORev | OUnd.
Definition pos_of (o : orient) (s : Z) : option bool :=
  match o with OUnd => None | OFwd => Some (0 <? s)%Z | ORev => Some (negb (0 <? s)%Z) end.
(** new planes get the next numbers *)
Fixpoint number (next : Z) (l : list pl) (planes : list (Z * pl)) : list Z * list (Z * pl) * Z :=
  match l with
  | [] => ([], planes, next)
  | p :: r => let '(ns, ps, nx) := number (next + 1) r (dset next p planes) in (next :: ns, ps, nx)
  end.
Record qstate := QS { q_planes : list (Z * pl); q_entries : list (Z * entry); q_next : Z }.
Definition q_step (surfaces : Z -> option prim) (o : orient) (st : qstate) (s : Z) : res qstate :=
  let lab := Z.abs s in
  match surfaces lab with
  | None => Err KeyError
  | Some (PPlane n d) =>
      do p <- mk_plane (vscale d n) n;
      Ok (QS (dset lab p (q_planes st)) (q_entries st) (q_next st))
  | Some s0 =>
      do sp <- to_planes s0 (pos_of o s);
      Ok (match sp with
          | SList l => let '(ns, ps, nx) := number (q_next st) l (q_planes st) in QS ps (dset lab (EList ns) (q_entries st)) nx
          | SCone dbl l => let '(ns, ps, nx) := number (q_next st) l (q_planes st) in QS ps (dset lab (ECone dbl ns) (q_entries st)) nx
          | STorus e i =>
              let '(ne, ps, nx) := number (q_next st) e (q_planes st) in
              let '(ni, ps', nx') := number nx i ps in
              QS ps' (dset lab (ETorus ne ni) (q_entries st)) nx'
          end)
  end.
(** [signed]: cellDef.signedSurfaces(), a set, in the order in which Python visits it *)
Definition quadric_to_plane (surfaces : Z -> option prim) (o : orient) (signed : list Z) : res qstate :=
  match signed with
  | [] => Err IndexError
  | _ => foldM (q_step surfaces o) (QS [] [] (fold_right Z.max 0%Z (map Z.abs signed) + 1)) signed
  end.

(** * bb 763-785 change_surf *)
(** what is put in the place of a literal: True/False, or a sequence *)
Inductive newval := NB (b : bool) | NS (n : node).
(** bb 242-272 clean of GEOReverse's BoolSequence on a list with raw bools: elements.remove(e) takes out
    the first element equal to e, and 1 == True in Python.  The list is visited from the
    end: [done] is the part already visited, [todo] the rest, reversed. *)
Inductive elt := EN (n : node) | EB (b : bool).
Definition same_py (b : bool) (e : elt) : bool :=
  match e with
  | EB c => eqb b c
  | EN (Lit z) => (z =? (if b then 1 else 0))%Z
  | EN _ => false
  end.
Fixpoint remove_first {A} (p : A -> bool) (l : list A) : list A :=
  match l with [] => [] | x :: r => if p x then r else x :: remove_first p r end.
(** position [i] of the reversed iterator over the list that is being changed; BoolSequences
    are compared by identity: the one at position [i] is removed (no two are the same) *)
Fixpoint raw_clean (fuel : nat) (op : bop) (l : list elt) : bool + list elt :=
  match fuel with
  | O => inr l
  | S i =>
      match nth_error l i with
      | None => raw_clean i op l
      | Some (EN (Lit _)) => raw_clean i op l
      | Some (EB b) =>
          if eqb b (absorbing op) then inl b else raw_clean i op (remove_first (same_py b) l)
      | Some (EN e) =>
          match rclean e with
          | Cst _ _ b => if eqb b (absorbing op) then inl b else raw_clean i op (remove_at i l)
          | e' => raw_clean i op (firstn i l ++ EN e' :: skipn (S i) l)
          end
      end
  end.
(** what is left is written back in the list; a raw bool that is still there has no [level] *)
Definition raw_end (op : bop) (lev : Z) (r : bool + list elt) : res node :=
  match r with
  | inl b => Ok (Cst op 0 b)
  | inr [] => Ok (Cst op 0 (neutral op))
  | inr l => do l' <- mapM (fun e => match e with EN n => Ok n | EB _ => Err AttributeError end) l; Ok (Seq op lev l')
  end.
Section ChangeSurf.
  Variable old : Z.
  Variable new : newval.
  (** the loop: [inl b] when the sequence becomes the constant [b]; the flag [clean] *)
  Section Loop.
    Variable f : node -> res node.
    Variable op : bop.
    Fixpoint change_list (l : list node) : res (bool + (bool * list elt)) :=
      match l with
      | [] => Ok (inr (false, []))
      | e :: r =>
          match e with
          | Lit z =>
              if (z =? old)%Z then
                match new with
                | NB b => if eqb b (absorbing op) then Ok (inl b)
                          else do k <- change_list r;
                               Ok (match k with inl c => inl c | inr (_, r') => inr (true, EB b :: r') end)
                | NS n => do k <- change_list r;
                          Ok (match k with inl c => inl c | inr (cl, r') => inr (cl, EN n :: r') end)
                end
              else do k <- change_list r;
                   Ok (match k with inl c => inl c | inr (cl, r') => inr (cl, EN (Lit z) :: r') end)
          | _ =>
              if existsb (Z.eqb (Z.abs old)) (surfs e) then
                do e' <- f e;
                match e' with
                | Cst _ _ b =>
                    if eqb b (absorbing op) then Ok (inl b)
                    else do k <- change_list r;
                         Ok (match k with inl c => inl c | inr (_, r') => inr (true, EN e' :: r') end)
                | _ => do k <- change_list r;
                       Ok (match k with inl c => inl c | inr (cl, r') => inr (cl, EN e' :: r') end)
                end
              else do k <- change_list r;
                   Ok (match k with inl c => inl c | inr (cl, r') => inr (cl, EN e :: r') end)
          end
      end.
  End Loop.
  (** a constant [elements] cannot be enumerated (bb 765) *)
  Fixpoint change_surf (n : node) : res node :=
    match n with
    | Lit _ => Err AttributeError
    | Cst _ _ _ => Err TypeError
    | Seq op lev l =>
        do k <- change_list change_surf op l;
        match k with
        | inl b => Ok (Cst op lev b)
        | inr (cl, l') => if cl then raw_end op lev (raw_clean (length l') op l') else raw_end op lev (inr l')
        end
    end.
End ChangeSurf.

(** * bb 705-760 plane_definition *)
(** BoolSequence(" ".join(...)), BoolSequence(":".join(...)) of plane numbers: the parser
    gives one term per number *)
Definition flat (op : bop) (l : list Z) : node := Seq op 0 (map Lit l).
(** the sequence for the inside, and whether the positive side is replaced too *)
Definition entry_seq (e : entry) : res (node * bool) :=
  match e with
  | EList l => Ok (flat AND l, false)
  | ECone false l => Ok (flat AND l, true)
  | ECone true l =>
      do s <- rappend (Seq OR 0 []) [flat AND l; flat AND (map Z.opp l)]; Ok (s, true)
  | ETorus e [] => Ok (flat AND e, false)
  | ETorus e i => do s <- rappend (Seq AND 0 []) [flat AND e; flat OR i]; Ok (s, false)
  end.
Definition entry_empty (e : entry) : bool := match e with EList [] => true | _ => false end.
(** one round of the loop bb 706-757; a constant definition is returned as it is (bb 737) *)
Definition is_const (n : node) : bool := match n with Cst _ _ _ => true | _ => false end.
Definition pd_step (o : orient) (s : Z) (e : entry) (n : node) : res node :=
  do (pm, addpos) <- entry_seq e;
  do (pp, pm') <- get_complementary pm;
  match o with
  | OFwd =>
      do n1 <- change_surf (- s) (NS pm') n;
      change_surf s (if addpos then NS pp else NB true) n1
  | ORev =>
      do n1 <- change_surf s (NS pp) n;
      change_surf (- s) (if addpos then NS pm' else NB false) n1
  | OUnd =>
      do n1 <- change_surf s (NS pp) n;
      change_surf (- s) (NS pm') n1
  end.
Fixpoint pd_loop (o : orient) (es : list (Z * entry)) (n : node) : res (bool * node) :=
  match es with
  | [] => Ok (false, n)
  | (s, e) :: r =>
      if entry_empty e then pd_loop o r n
      else if is_const n then Ok (true, n)
      else do n' <- pd_step o s e n; pd_loop o r n'
  end.
Definition plane_definition (fuel : nat) (o : orient) (es : list (Z * entry)) (n : node) : res node :=
  do (stop, n') <- pd_loop o es n;
  if stop then Ok n' else rjoin fuel n'.
