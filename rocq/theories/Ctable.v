(** Model of constraint tables,
    /repo/src/geouned/GEOUNED/utils/boolean_solids.py ("bs"). *)
From Verif Require Import Prelude BoolSpec BoolSeq CtSpec.

(** Value returned by get_dependence: None, True/False or "Null". *)
Inductive dval := DNone | DVal (b : bool) | DNull.

(** bs 33-36 get_transpose (an off diagonal element). *)
Definition transpose (e : ctval) : res ctval :=
  match e with
  | CNone => Err TypeError
  | CDiag d => Ok (CDiag d)
  | CQuad a b c d => Ok (CQuad a d c b)
  end.

(** val.index(b, start) on the four flags; bs 51, 61, 62, 72. *)
Fixpoint index_from (b : bool) (i : nat) (l : list bool) : nat :=
  match l with
  | [] => i
  | x :: r => if eqb x b then i else index_from b (S i) r
  end.
Definition index2 (b : bool) (start : nat) (l : list bool) : nat := index_from b start (skipn start l).
Definition ones (l : list bool) : nat := length (filter (fun b => b) l).

(** bs 38-82 get_dependence *)
Definition get_dependence (e : ctval) : res (dval * dval) :=
  match e with
  | CNone => Err TypeError
  | CDiag d =>
      if d =? 0 then Ok (DVal true, DVal false)
      else if d =? -1 then Ok (DNull, DVal false)
      else Ok (DVal true, DNull)
  | CQuad a b c d =>
      let val := [a; b; c; d] in
      match ones val with
      | 4%nat => Ok (DNone, DNone)
      | 3%nat =>
          match index2 false 0 val with
          | 0%nat => Ok (DVal false, DNone)
          | 1%nat => Ok (DVal true, DNone)
          | 2%nat => Ok (DNone, DVal true)
          | _ => Ok (DNone, DVal false)
          end
      | 2%nat =>
          let i1 := index2 false 0 val in
          let i2 := index2 false (S i1) val in
          if Nat.eqb i1 0 && Nat.eqb i2 1 then Ok (DNull, DNone)
          else if Nat.eqb i1 2 && Nat.eqb i2 3 then Ok (DNone, DNull)
          else if Nat.eqb i1 0 && Nat.eqb i2 3 then Ok (DVal false, DVal false)
          else Ok (DVal true, DVal true)
      | 1%nat =>
          match index2 true 0 val with
          | 0%nat => Ok (DVal true, DNull)
          | 1%nat => Ok (DVal false, DNull)
          | 2%nat => Ok (DNull, DVal false)
          | _ => Ok (DNull, DVal true)
          end
      | _ => Ok (DNull, DNull)
      end
  end.

(** dict assignment d[k] = a *)
Fixpoint put {A} (k : Z) (a : A) (l : list (Z * A)) : list (Z * A) :=
  match l with
  | [] => [(k, a)]
  | (x, b) :: r => if x =? k then (x, a) :: r else (x, b) :: put k a r
  end.
Definition lookup {A} (k : Z) (l : list (Z * A)) : res A :=
  match get k l with Some a => Ok a | None => Err KeyError end.
Definition elem (t : ctab) (k1 k2 : Z) : res ctval := do r <- lookup k1 t; lookup k2 r.

(** bs 124-129 add_element *)
Definition add_element (t : ctab) (k1 k2 : Z) (e : ctval) : ctab :=
  match get k1 t with
  | Some r => put k1 (put k2 e r) t
  | None => put k1 [(k2, e)] t
  end.
(** self[k1][k2] = e *)
Definition set_elem (t : ctab) (k1 k2 : Z) (e : ctval) : res ctab :=
  do r <- lookup k1 t; Ok (put k1 (put k2 e r) t).

(** bs 223-242 combine_diag_elements *)
Definition combine_diag (d1 d2 : ctval) : option ctval :=
  match d1, d2 with
  | CDiag a, CDiag b =>
      if (a =? 0) && (b =? 0) then Some (CQuad true true true true)
      else if (a =? 1) && (b =? 0) then Some (CQuad true true false false)
      else if (a =? -1) && (b =? 0) then Some (CQuad false false true true)
      else if (a =? 0) && (b =? 1) then Some (CQuad true false false true)
      else if (a =? 0) && (b =? -1) then Some (CQuad false true true false)
      else if (a =? 1) && (b =? 1) then Some (CQuad true false false false)
      else if (a =? 1) && (b =? -1) then Some (CQuad false true false false)
      else if (a =? -1) && (b =? 1) then Some (CQuad false false false true)
      else if (a =? -1) && (b =? -1) then Some (CQuad false false true false)
      else None
  | _, _ => None
  end.

(** bs 131-150 fill_missing_elements: first double loop. *)
Definition pairs_of (keys : list Z) : list (Z * Z) :=
  (fix go (l : list Z) : list (Z * Z) :=
     match l with
     | [] => []
     | k1 :: r => map (fun k2 => (k1, k2)) r ++ go r
     end) keys.
Fixpoint fill1 (ps : list (Z * Z)) (t : ctab) (missing : list (Z * Z)) : res (ctab * list (Z * Z)) :=
  match ps with
  | [] => Ok (t, missing)
  | (k1, k2) :: r =>
      do row1 <- lookup k1 t;
      match get k2 row1 with
      | Some e => do e' <- transpose e; do t' <- set_elem t k2 k1 e'; fill1 r t' missing
      | None => fill1 r t (missing ++ [(k1, k2)])
      end
  end.
(** second loop *)
Fixpoint fill2 (ps : list (Z * Z)) (t : ctab) : res ctab :=
  match ps with
  | [] => Ok t
  | (k1, k2) :: r =>
      do d1 <- elem t k1 k1;
      do d2 <- elem t k2 k2;
      match combine_diag d1 d2 with
      | None => Err AttributeError
      | Some e =>
          do t1 <- set_elem t k1 k2 e;
          do e' <- transpose e;
          do t2 <- set_elem t1 k2 k1 e';
          fill2 r t2
      end
  end.
Definition fill_missing (t : ctab) : res ctab :=
  do (t1, missing) <- fill1 (pairs_of (map fst t)) t [];
  fill2 missing t1.

(** bs 152-157 get_out_surfaces: diagonal elements other than 0. *)
Definition nonzero_diag (e : ctval) : bool := match e with CDiag d => negb (d =? 0) | _ => true end.
Definition get_out_surfaces (t : ctab) : res (list Z) :=
  do l <- mapM (fun k => do e <- elem t k k; Ok (k, e)) (map fst t);
  Ok (map fst (filter (fun p => nonzero_diag (snd p)) l)).

(** bs 159-182 get_constraint_set *)
Fixpoint cset_loop (t : ctab) (name : Z) (keys : list Z) : res ((vset * bool) * (vset * bool)) :=
  match keys with
  | [] => Ok (([], false), ([], false))
  | k :: r =>
      do e <- elem t name k;
      do (T, F) <- get_dependence e;
      do ((ts, tn), (fs, fn)) <- cset_loop t name r;
      let add (d : dval) (s : vset) := match d with DVal b => (k, b) :: s | _ => s end in
      let isnull (d : dval) := match d with DNull => true | _ => false end in
      Ok ((add T ts, isnull T || tn), (add F fs, isnull F || fn))
  end.
Definition get_constraint_set (t : ctab) (name : Z) : res (option vset * option vset) :=
  do ((ts, tn), (fs, fn)) <- cset_loop t name (map fst t);
  Ok ((if tn then None else Some ts), (if fn then None else Some fs)).

(** bs 14 BoolVals[i] *)
Definition bool_vals (i : Z) : res (option bool) :=
  if (i =? 0) || (i =? -3) then Ok None
  else if (i =? 1) || (i =? -2) then Ok (Some true)
  else if (i =? 2) || (i =? -1) then Ok (Some false)
  else Err IndexError.

Definition as_bool (r : bres) : option bool := match r with RB b => Some b | RS _ => None end.

(** bs 184-220 solid_in_box.  [diag]: self.diagonal; [ord]: iteration order of
    the set of surface numbers.  Returns the value and the receiver (evaluate
    groups it). *)
Definition solid_in_box (ord : node -> list Z) (diag : bool) (t : ctab) (n : node) : res (option bool * node) :=
  let surfs := ord n in
  if diag then
    do vs <- mapM (fun s => do e <- elem t s s;
                            match e with
                            | CDiag d => do b <- bool_vals d; Ok (s, b)
                            | _ => Err TypeError
                            end) surfs;
    let vals := flat_map (fun p => match snd p with Some b => [(fst p, b)] | None => [] end) vs in
    do (r, g) <- evaluate vals n; Ok (as_bool r, g)
  else
    match surfs with
    | [] => Err IndexError
    | s :: _ =>
        do (ts, fs) <- get_constraint_set t s;
        match ts, fs with
        | Some t1, _ =>
            do (r, g) <- evaluate t1 n;
            match as_bool r with
            | None => Ok (None, g)
            | Some tv =>
                match fs with
                | Some f1 =>
                    do (r2, g2) <- evaluate f1 g;
                    match as_bool r2 with
                    | None => Ok (None, g2)
                    | Some fv => if eqb tv fv then Ok (Some tv, g2) else Ok (None, g2)
                    end
                | None => Ok (Some tv, g)
                end
            end
        | None, Some f1 => do (r, g) <- evaluate f1 n; Ok (as_bool r, g)
        | None, None => Ok (Some false, n)
        end
    end.

(** bs 323-372, loop of remove_extra_surfaces.  [strict]: ghost switch; a strict
    run reports [ConstSub] when check() turns a sub-cell into a constant (bs
    342-352 treat such a sub-cell with the two cases swapped); [strict = false]
    is the code.  [None]: the whole definition is the constant True. *)
Section RemoveExtra.
  Variable strict : bool.
  Variable ord : node -> list Z.
  Variable diag : bool.
  Variable t : ctab.
  Variable out : list Z.

  (** bs 362-366 *)
  Fixpoint subst_all (ss : list Z) (n : node) : res node :=
    match ss with
    | [] => Ok n
    | s :: r =>
        do e <- elem t s s;
        match e with
        | CDiag d => do n' <- subst s (VB (0 <? d)) n; subst_all r n'
        | _ => Err TypeError
        end
    end.

  Fixpoint remove_loop (l : list node) (newDef : node) : res (option node) :=
    match l with
    | [] => Ok (Some newDef)
    | sub :: r =>
        do sub1 <- check sub;
        match sub1 with
        | Cst _ _ b =>
            if strict then Err ConstSub
            else if negb b then Ok None              (* chk is True *)
            else remove_loop r newDef                 (* chk is False: null cell *)
        | _ =>
            do (res, sub2) <- solid_in_box ord diag t sub1;
            match res with
            | Some true => Ok None
            | Some false => remove_loop r newDef
            | None =>
                do sub3 <- (if level_of sub2 =? 0
                            then subst_all (filter (fun s => existsb (Z.eqb s) out) (ord sub2)) sub2
                            else Ok sub2);
                match sub3 with
                | Cst _ _ false => remove_loop r newDef
                | Cst _ _ true => Ok None
                | _ => do nd <- append newDef [AN sub3]; remove_loop r nd
                end
            end
        end
    end.
End RemoveExtra.

(** bs 323-379 remove_extra_surfaces *)
Definition remove_extra (strict : bool) (ord : node -> list Z) (diag : bool) (t : ctab) (n : node) : res node :=
  do out <- get_out_surfaces t;
  match n with
  | Lit _ => Err AttributeError
  | Cst AND lev b =>
      if lev =? 0 then Err TypeError (* len(bool) *)
      else do w <- append (Seq AND 0 []) [AN (copy n)];
           match w with
           | Seq _ _ l => do r <- remove_loop strict ord diag t out l (Seq OR 0 []);
                          match r with None => Ok (Cst OR (-1) true) | Some d => Ok (clean d) end
           | _ => Err TypeError
           end
  | Cst OR lev b => Err TypeError (* iteration over a bool, or len(bool) *)
  | Seq op lev l =>
      if (lev =? 0) && Nat.eqb (length l) 1 then Ok n
      else
        do w <- (match op with AND => append (Seq AND 0 []) [AN (copy n)] | OR => Ok n end);
        match w with
        | Seq _ _ l' => do r <- remove_loop strict ord diag t out l' (Seq OR 0 []);
                        match r with None => Ok (Cst OR (-1) true) | Some d => Ok (clean d) end
        | _ => Err TypeError
        end
  end.
