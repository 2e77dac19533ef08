(** Model of VoidBox.get_void_complementary,
    /repo/src/geouned/GEOUNED/void/void_box_class.py 167-364 ("vb"), from the
    point where the definition of the box is known (vb 168-230 build it from the
    box planes or from the CAD piece). *)
From Verif Require Import Prelude BoolSpec BoolSeq CtSpec Ctable.

Inductive smode := SNo | SDiag | SFull.

(** vb 232-239: union of the definitions of the objects. *)
Fixpoint void_union (acc : node) (defs : list node) : res node :=
  match defs with
  | [] => Ok acc
  | d :: r => do a <- append acc [AN d]; void_union a r
  end.

(** vb 261-263 *)
Fixpoint subst_box (bs : list node) (n : node) : res node :=
  match bs with
  | [] => Ok n
  | Lit s :: r => do n' <- subst (Z.abs s) (VB (0 <? s)) n; subst_box r n'
  | _ :: _ => Err TypeError
  end.

(** vb 283-288, 300-305: a sequence of level 0 is wrapped. *)
Definition wrap0 (n : node) : res node :=
  match n with
  | Lit _ => Err AttributeError
  | Cst _ lev _ => if lev =? 0 then Err TypeError else Ok n
  | Seq op lev l =>
      if lev =? 0 then
        append (Seq OR 0 []) [AN (Seq (if Nat.eqb (length l) 1 then AND else op) lev l)]
      else Ok n
  end.

Section VoidCell.
  Variable strict : bool.        (* ghost: see Prelude.err *)
  Variable k : nat.              (* recursion bound for simplify *)
  Variable ord : node -> list Z. (* iteration order of sets of surfaces *)
  (** build_c_table_from_solids on the given surfaces *)
  Variable mk : list Z -> res ctab.

  (** vb 290-295; [None]: a solid covers the box *)
  Fixpoint reduce_loop (diag : bool) (t : ctab) (l : list node) (newTemp : node) : res (option node) :=
    match l with
    | [] => Ok (Some newTemp)
    | s :: r =>
        do s' <- remove_extra strict ord diag t s;
        match s' with
        | Cst _ _ true => Ok None
        | Cst _ _ false => reduce_loop diag t r newTemp
        | _ => do nt <- append newTemp [AN s']; reduce_loop diag t r nt
        end
    end.

  (** vb 255-305: reduction of the solids with the constraint table.
      [inl r]: return r at once.  The table is handed on. *)
  Definition reduce (m : smode) (encl : bool) (boxDef vsd : node)
    : res (option node + (node * option ctab)) :=
    match m with
    | SNo => do w <- wrap0 vsd; Ok (inr (w, None))
    | _ =>
        let sl0 := surfs vsd in
        do (sl, vsd1) <-
           (if encl then Ok (nodup Z.eq_dec (sl0 ++ surfs boxDef), vsd)
            else do bs <- elems_of boxDef; do n <- subst_box bs vsd; Ok (sl0, clean n));
        match encl, vsd1 with
        | false, Cst _ _ true => Ok (inl None)
        | false, Cst _ _ false => Ok (inl (Some boxDef))
        | _, _ =>
            do t <- mk sl;
            do w <- wrap0 vsd1;
            match w with
            | Seq op _ l =>
                if strict && bop_eqb op AND then Err AndVoid
                else
                  do r <- reduce_loop (match m with SDiag => true | _ => false end) t l (Seq OR 0 []);
                  match r with
                  | None => Ok (inl None)
                  | Some n => Ok (inr (n, Some t))
                  end
            | _ => Err TypeError   (* iteration over a bool *)
            end
        end
    end.

  (** vb 321-339: complement of every component; [None]: return None, None *)
  Fixpoint comp_loop (no : bool) (l : list node) (compSeq : node) : res (option node) :=
    match l with
    | [] => Ok (Some compSeq)
    | c :: r =>
        do c1 <- (if no then check c else Ok c);
        match no, c1 with
        | true, Cst _ _ true => Ok None
        | true, Cst _ _ false => comp_loop no r compSeq
        | _, _ =>
            do (p, _) <- get_complementary c1;
            do cs <- append compSeq [AN p];
            comp_loop no r cs
        end
    end.

  (** vb 312-339 *)
  Definition comp_seq (no : bool) (n : node) : res (option node) :=
    match n with
    | Seq op lev l =>
        if lev =? 0 then do (c, _) <- get_complementary n; Ok (Some c)
        else comp_loop no l (Seq (if (lev =? 1) && bop_eqb op AND then OR else AND) 0 [])
    | _ => Err TypeError
    end.

  Definition simpl (ct : ctable) (n : node) : res node := simplify_f k strict ord ct 0 n.

  (** vb 341-356 *)
  Definition assemble (m : smode) (encl : bool) (t : option ctab) (compl0 compSeq : node) : res node :=
    match m, t with
    | SFull, Some t =>
        let ct := Some (get_constraint_set t) in
        if encl then do c <- append compl0 [AN compSeq]; simpl ct c
        else do cs <- simpl ct compSeq; append compl0 [AN cs]
    | _, _ =>
        do cs <- simpl None compSeq;
        do c <- simpl None compl0;
        if has_op OR c then append (Seq AND 0 []) [AN c; AN cs]
        else append c [AN cs]
    end.

  (** vb 307-356; [inl r]: return r at once, [inr c]: go on with c *)
  Definition finish (m : smode) (encl : bool) (boxDef compl0 : node) (vsd : node) (t : option ctab)
    : res (option node + node) :=
    match vsd with
    | Cst _ _ true => Ok (inl None)
    | Cst _ _ false => Ok (inl (Some boxDef))
    | Seq _ _ [] => Ok (inl (Some boxDef))
    | _ =>
        do cs <- comp_seq (match m with SNo => true | _ => false end) vsd;
        match cs with
        | None => Ok (inl None)
        | Some compSeq => do c <- assemble m encl t compl0 compSeq; Ok (inr c)
        end
    end.

  (** vb 232-356 *)
  Definition get_void_pre (m : smode) (encl : bool) (boxDef : node) (defs : list node)
    : res (option node + node) :=
    do vsd <- void_union (Seq OR 0 []) defs;
    let go :=
      do compl0 <- append (Seq AND 0 []) [AN boxDef];
      do red <- reduce m encl boxDef vsd;
      match red with
      | inl r => Ok (inl r)
      | inr (vsd2, t) => finish m encl boxDef compl0 vsd2 t
      end in
    match vsd with
    | Cst _ _ false => Ok (inl (Some boxDef))
    | Seq _ _ [] => Ok (inl (Some boxDef))
    | _ => go
    end.

  (** vb 232-364.  Result: the definition, None when there is no void cell. *)
  Definition get_void (m : smode) (encl : bool) (boxDef : node) (defs : list node) : res (option node) :=
    do x <- get_void_pre m encl boxDef defs;
    match x with
    | inl r => Ok r
    | inr c => match level_update (clean c) with
               | Cst _ _ _ => Ok None
               | c' => Ok (Some c')
               end
    end.
End VoidCell.
