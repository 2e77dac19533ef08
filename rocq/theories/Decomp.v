(** Model of the decomposition of solids, /repo/src/geouned/GEOUNED/decompose/decom_one.py
    ("do") 28-115, 686-952, of split_bop, utils/functions.py 600-618 ("uf"), and of
    GEOUNED._decompose_solids, core.py 614-680.

    Simplifications.  The CAD kernel is a record of functions: volume, slice (which
    may raise), and the surfaces that the code finds on a shape (extract_surfaces,
    cyl_bound_planes, plane_2nd_order are not modelled here: their results are
    fields of the record).  A compound is the list of its solids, its volume the sum
    of theirs.  The kinds of exceptions of the kernel are not told apart ([cad_err]). *)
From Coq Require Import QArith Qabs.
From Verif Require Import Prelude.
Local Open Scope Q_scope.

Inductive kind := KCyl | KCone | KSph | KTor.

Section Decomp.
  Variable Sh T : Type.
  (** [slice s tools tol]: BOPTools.SplitAPI.slice(s, tools, "Split", tolerance=tol).Solids,
      None if it raises;
      [planes]: extract_surfaces(s, "Planes"), in the order PX, PY, PZ, P (do 764-768);
      [parallel p q]: is_parallel(axis of p, axis of q, 0.1) (do 717);
      [along q p]: axis of q . position of p (do 727);
      [full_cyl]: the first closed convex cylinder and its bounding planes, merged by
      the dictionary (do 46-79); [quadrics]: extract_surfaces(s, kind) (do 794-803);
      [extra]: plane_2nd_order(s) (do 863). *)
  Record cad := Cad {
    vol : Sh -> Q;
    slice : Sh -> list T -> Q -> option (list Sh);
    planes : Sh -> list T;
    parallel : T -> T -> bool;
    along : T -> T -> Q;
    full_cyl : Sh -> option (T * list T);
    quadrics : kind -> Sh -> list T;
    extra : Sh -> list T }.
  (** Options.scaleUp, splitTolerance, nPlaneReverse *)
  Record options := Options { scale_up : bool; split_tol : Q; n_reverse : nat }.
  Variable C : cad.
  Variable op : options.

  Definition cad_err {A} : res A := Err ValueError.

  Definition sliced (s : Sh) (tools : list T) (tol : Q) : res (list Sh) :=
    match slice C s tools tol with Some l => Ok l | None => cad_err end.
  (** split_bop, uf 600-618; [lim]: the recursion limit of Python (RecursionError) *)
  Fixpoint split_bop (lim : nat) (s : Sh) (tools : list T) (tol scale : Q) : res (list Sh) :=
    match lim with
    | O => cad_err
    | S lim =>
        if Qle_bool (1 # 10) tol then sliced s tools tol
        else if negb (Qle_bool (1 # 1000000000000) tol) then
          if scale_up op then
            let t := if Qeq_bool (split_tol op) 0 then 1 # 10000000000000 else split_tol op in
            split_bop lim s tools (Qred (t / scale)) (Qred (1 / scale))
          else sliced s tools tol
        else match slice C s tools tol with
             | Some l => Ok l
             | None => split_bop lim s tools (Qred (tol * scale)) scale
             end
    end.
  (** The calls: split_bop(solid, tools, options.splitTolerance, options) *)
  Definition bop (lim : nat) (s : Sh) (tools : list T) : res (list Sh) := split_bop lim s tools (split_tol op) (1 # 10).

  (** ParallelPlanes.append and the loop do 738-746: a plane goes in the first group
      with a parallel first plane *)
  Fixpoint put_plane (p : T) (gs : list (T * list T)) : list (T * list T) :=
    match gs with
    | [] => [(p, [])]
    | (q, r) :: gs => if parallel C p q then (q, r ++ [p]) :: gs else (q, r) :: put_plane p gs
    end.
  Definition group_planes (l : list T) : list (T * list T) := fold_left (fun gs p => put_plane p gs) l [].
  (** list.sort of (key, position) pairs: a stable sort by key *)
  Fixpoint insert {A} (leb : A -> A -> bool) (x : A) (l : list A) : list A :=
    match l with
    | [] => [x]
    | y :: r => if leb x y then x :: y :: r else y :: insert leb x r
    end.
  Definition sort {A} (leb : A -> A -> bool) (l : list A) : list A := fold_right (insert leb) [] l.
  (** sort_planes, do 735-757 (pp.sort(): do 724-733) *)
  Definition sort_planes (srt : bool) (l : list T) : list (list T) :=
    let gs := map (fun g => let e := fst g :: snd g in
                     if srt then sort (fun a b => Qle_bool (along C (fst g) a) (along C (fst g) b)) e else e)
                  (group_planes l) in
    sort (fun a b => Nat.leb (length a) (length b)) gs.
  (** do 773-774, 84-85: Planes.reverse() if the largest group is small *)
  Definition reversed_planes (gs : list (list T)) : list (list T) :=
    if Nat.ltb (length (last gs [])) (n_reverse op) then rev gs else gs.

  (** The first of several results with more than one solid (do 776-786, 88-104);
      [raise]: exceptions are passed on, otherwise the solid is not cut. *)
  Fixpoint first_cut (raise : bool) (lim : nat) (s : Sh) (tools : list (list T)) : res (option (list Sh)) :=
    match tools with
    | [] => Ok None
    | t :: r =>
        match bop lim s t with
        | Ok l => if Nat.ltb 1 (length l) then Ok (Some l) else first_cut raise lim s r
        | Err e => if raise then Err e else first_cut raise lim s r
        | Fuel => Fuel
        end
    end.

  (** split_p_planes_new, do 763-787 *)
  Definition split_p_planes (lim : nat) (s : Sh) : res (list Sh * Z) :=
    do r <- first_cut true lim s (reversed_planes (sort_planes false (planes C s)));
    Ok (match r with Some l => l | None => [s] end, 0%Z).

  (** cut_full_cylinder, do 46-118; tools of a group: its first and last plane *)
  Definition outer (g : list T) : list T :=
    match g with
    | a :: _ :: _ => [a; last g a]
    | _ => g
    end.
  Definition cut_full_cylinder (lim : nat) (s : Sh) : res (list Sh * Z) :=
    match full_cyl C s with
    | None => Ok ([s], 0%Z)
    | Some (cyl, ps) =>
        match sort_planes true ps with
        | [] => Ok ([s], 0%Z)
        | gs =>
            do r <- first_cut false lim s (map outer (reversed_planes gs) ++ [[cyl]]);
            Ok (match r with Some l => l | None => [s] end, 0%Z)
        end
    end.

  (** split_2nd_o_plane, do 859-881, with remove_solids, do 884-896.  [com]: comsolid.Solids *)
  Definition remove_solids (l : list Sh) : list Sh * Z :=
    (filter (fun s => negb (Qle_bool (vol C s) (1 # 100))) l,
     if existsb (fun s => Qle_bool (vol C s) (1 # 100)) l then 2%Z else 0%Z).
  Fixpoint extra_loop (lim : nat) (s : Sh) (ps : list T) (com : list Sh) (err : Z) : res (list Sh * Z) :=
    match ps with
    | [] => Ok (com, err)
    | p :: r =>
        do l <- bop lim s [p];
        match l with
        | [] => extra_loop lim s r [s] err
        | [_] => extra_loop lim s r l err
        | _ => let (rem, err) := remove_solids l in
               if Nat.ltb 1 (length rem) then Ok (rem, err) else extra_loop lim s r rem err
        end
    end.
  Definition split_2nd_o_plane (lim : nat) (s : Sh) : res (list Sh * Z) := extra_loop lim s (extra C s) [s] 0%Z.

  (** The loops of split_full_cylinder (do 29-43), split_planes (do 686-704) and
      split_2nd_order_planes (do 839-856): cut every base until all are simple; err is
      that of the last base. *)
  Fixpoint pass (f : Sh -> res (list Sh * Z)) (bases : list Sh) (simple new : list Sh) (err : Z) :
      res (list Sh * list Sh * Z) :=
    match bases with
    | [] => Ok (simple, new, err)
    | b :: r =>
        do (cut, err) <- f b;
        if Nat.eqb (length cut) 1 then pass f r (simple ++ cut) new err
        else pass f r simple (new ++ cut) err
    end.
  Fixpoint rounds (fuel : nat) (f : Sh -> res (list Sh * Z)) (bases simple : list Sh) (err : Z) : res (list Sh * Z) :=
    match fuel with
    | O => Fuel
    | S fuel =>
        do (simple, new, err) <- pass f bases simple [] err;
        match new with
        | [] => Ok (simple, err)
        | _ => rounds fuel f new simple err
        end
    end.

  (** split_planes, do 686-704 *)
  Definition split_planes (fuel lim : nat) (solids : list Sh) : res (list Sh * Z) :=
    rounds fuel (split_p_planes lim) solids [] 0%Z.

  Fixpoint sum_vol (l : list Sh) : Q := match l with [] => 0 | s :: r => vol C s + sum_vol r end.

  (** do 805-832: the surfaces of one kind of a solid; None: the solid stays *)
  Fixpoint quad_loop (lim : nat) (s : Sh) (ts : list T) (err : Z) : option (list Sh) * Z :=
    match ts with
    | [] => (None, err)
    | t :: r =>
        match bop lim s [t] with
        | Ok l =>
            let big := filter (fun p => negb (Qle_bool (vol C p) (1 # 1000000000))) l in
            if Qeq_bool (vol C s) 0 then quad_loop lim s r (err + 2)
            else
              let same := negb (Qle_bool (1 # 100000) (Qabs ((vol C s - sum_vol big) / vol C s))) in
              if Nat.ltb 1 (length big) && same then (Some big, err) else quad_loop lim s r err
        | _ => quad_loop lim s r (err + 2)
        end
    end.
  Fixpoint quad_pass (lim : nat) (k : kind) (base kind_base cut_base : list Sh) (err : Z) : list Sh * list Sh * Z :=
    match base with
    | [] => (kind_base, cut_base, err)
    | s :: r =>
        match quad_loop lim s (quadrics C k s) err with
        | (None, err) => quad_pass lim k r (kind_base ++ [s]) cut_base err
        | (Some l, err) => quad_pass lim k r kind_base (cut_base ++ l) err
        end
    end.
  Fixpoint quad_rounds (fuel lim : nat) (k : kind) (base kind_base : list Sh) (err : Z) : res (list Sh * Z) :=
    match fuel with
    | O => Fuel
    | S fuel =>
        let '(kb, cb, err) := quad_pass lim k base kind_base [] err in
        match cb with
        | [] => Ok (kb, err)
        | _ => quad_rounds fuel lim k cb kb err
        end
    end.
  (** split_2nd_order, do 790-836 *)
  Fixpoint quad_kinds (fuel lim : nat) (ks : list kind) (base : list Sh) (err : Z) : res (list Sh * Z) :=
    match ks with
    | [] => Ok (base, err)
    | k :: r => do (base, err) <- quad_rounds fuel lim k base [] err; quad_kinds fuel lim r base err
    end.

  (** split_component, do 899-936 *)
  Definition split_component (fuel lim : nat) (solids : list Sh) : res (list Sh * Z) :=
    do (split0, _) <- split_planes fuel lim solids;
    do (split1, err1) <- quad_kinds fuel lim [KCyl; KCone; KSph; KTor] split0 0%Z;
    do (split, err2) <- rounds fuel (split_2nd_o_plane lim) split1 [] 0%Z;
    let tiny := filter (fun p => Qle_bool (vol C p) (1 # 10000000000)) split in
    let pieces := filter (fun p => negb (Qle_bool (vol C p) (1 # 10000000000))) split in
    let err := (err1 + err2 + 2 * Z.of_nat (length tiny))%Z in
    if Qeq_bool (sum_vol solids) 0 then Err ZeroDivision
    else
      let ch := (sum_vol solids - sum_vol pieces) / sum_vol solids in
      Ok (pieces, if negb (Qle_bool (Qabs ch) (1 # 100)) then (err + 4)%Z else err).

  (** SplitSolid, do 940-952 *)
  Fixpoint solid_loop (fuel lim : nat) (solids parts : list Sh) (err : option Z) : res (list Sh * Z) :=
    match solids with
    | [] => match err with Some e => Ok (parts, e) | None => Err UnboundLocal end
    | s :: r =>
        do (explode, _) <- rounds fuel (cut_full_cylinder lim) [s] [] 0%Z;
        do (piece, e) <- split_component fuel lim explode;
        solid_loop fuel lim r (parts ++ piece) (Some e)
    end.
  Definition split_solid (fuel lim : nat) (solids : list Sh) : res (list Sh * Z) := solid_loop fuel lim solids [] None.

  (** _decompose_solids, core 614-680: (IsEnclosure, Solids) of every cell; result:
      the new Solids and the positions of the cells with a warning. *)
  Fixpoint decompose (fuel lim : nat) (meta : bool) (i : nat) (ms : list (bool * list Sh)) :
      res (list (bool * list Sh) * list nat) :=
    match ms with
    | [] => Ok ([], [])
    | (encl, ss) :: r =>
        if meta && encl then
          do (ms', w) <- decompose fuel lim meta (S i) r; Ok ((encl, ss) :: ms', w)
        else
          do (pieces, err) <- split_solid fuel lim ss;
          do (ms', w) <- decompose fuel lim meta (S i) r;
          Ok ((encl, pieces) :: ms', if Z.eqb err 0 then w else i :: w)
    end.
End Decomp.
Arguments Cad {Sh T}. Arguments vol {Sh T}. Arguments slice {Sh T}. Arguments planes {Sh T}.
Arguments parallel {Sh T}. Arguments along {Sh T}. Arguments full_cyl {Sh T}. Arguments quadrics {Sh T}.
Arguments extra {Sh T}.
