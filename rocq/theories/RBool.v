(** Model of GEOReverse's class BoolSequence,
    /repo/src/geouned/GEOReverse/Modules/Utils/booleanFunction.py ("rb").
    The objects are those of BoolSpec.node; constants have level 0 here.
    rb 55-82 (assign, copy, get_complementary, comp_operator), 461-481 (group_single)
    and 509-518 (get_surfaces_numbers) are the same code as in GEOUNED's class:
    [copy], [get_complementary], [comp_op], [group_single] and [surfs] of BoolSeq.
    Methods that change [self] return the new [self]. *)
From Verif Require Import Prelude BoolSpec BoolSeq.

(** rb 34-50 append *)
Fixpoint rappend_loop (op : bop) (lev : Z) (l : list node) (args : list node) : node :=
  match args with
  | [] => Seq op lev l
  | Cst o lv b :: r => if eqb b (absorbing op) then Cst op 0 b else rappend_loop op lev l r
  | Lit s :: r => rappend_loop op (Z.max lev 0) (l ++ [Lit s]) r
  | Seq o lv l' :: r => rappend_loop op (Z.max lev (lv + 1)) (l ++ [Seq o lv l']) r
  end.
(** the receiver is a constant: a bool has no append *)
Fixpoint rappend_cst (op : bop) (lev : Z) (b0 : bool) (args : list node) : res node :=
  match args with
  | [] => Ok (Cst op lev b0)
  | Cst _ _ b :: r => if eqb b (absorbing op) then Ok (Cst op 0 b) else rappend_cst op lev b0 r
  | _ => Err AttributeError
  end.
Definition rappend (self : node) (args : list node) : res node :=
  match self with
  | Seq op lev l => Ok (rappend_loop op lev l args)
  | Cst op lev b => rappend_cst op lev b args
  | Lit _ => Err AttributeError
  end.

(** rb 520-533 level_update: of this sequence only *)
Definition lev_up (n : node) : node :=
  match n with
  | Lit z => Lit z
  | Cst op _ b => Cst op 0 b
  | Seq op _ l =>
      Seq op (fold_left (fun m c => match c with Lit _ => m | _ => Z.max (level_of c + 1) m end) l 0) l
  end.

(** rb 242-272 clean *)
Definition rclean_end (op : bop) (lev : Z) (r : bool + list node) : node :=
  match r with
  | inl b => Cst op 0 b
  | inr [] => Cst op 0 (neutral op)
  | inr l' => Seq op lev l'
  end.
Fixpoint rclean (n : node) : node :=
  match n with
  | Lit z => Lit z
  | Cst op lev b => Cst op lev b
  | Seq op lev l => rclean_end op lev (clean_list rclean op l)
  end.

(** rb 137-173 check: the value, and the receiver after the grouping *)
Section RCheck.
  Variable f : node -> res (option bool * node).
  Variable op : bop.
  (** [none]: a value was unknown *)
  Fixpoint rcheck_list (none : bool) (l : list node) : res (option bool * list node) :=
    match l with
    | [] => Ok (if none then None else Some (neutral op), [])
    | e :: r =>
        do (v, e') <- f e;
        match v with
        | Some b =>
            if eqb b (absorbing op) then Ok (Some b, e' :: r)
            else do (w, r') <- rcheck_list none r; Ok (w, e' :: r')
        | None => do (w, r') <- rcheck_list true r; Ok (w, e' :: r')
        end
    end.
End RCheck.
Fixpoint rcheck (fuel : nat) (n : node) : res (option bool * node) :=
  match fuel with
  | O => Fuel
  | S k =>
      match n with
      | Lit _ => Err AttributeError
      | Cst _ _ b => Ok (Some b, n)
      | Seq op lev l =>
          if lev =? 0 then
            Ok (if Nat.eqb (count_distinct l) (length (surfs n)) then None else Some (absorbing op), n)
          else
            do g <- group_single n;
            match g with
            | Seq op' lev' l' => do (v, l2) <- rcheck_list (rcheck k) op' false l'; Ok (v, Seq op' lev' l2)
            | _ => Err TypeError
            end
      end
  end.

(** rb 175-215 substitute *)
Fixpoint rsubst (var : Z) (val : sval) (n : node) : res node :=
  match n with
  | Lit _ => Err AttributeError
  | Cst _ _ _ => Ok n
  | Seq op lev l =>
      do r <- subst_list (rsubst var val) op (Z.abs var) val l;
      match r with
      | inl b => Ok (Cst op 0 b)
      | inr l' => Ok (lev_up (rclean (Seq op lev l')))
      end
  end.

(** rb 275-316 join_operators *)
Definition rmerge (op : bop) (lev : Z) (l : list node) : res node :=
  do _ <- mapM op_of l;
  let same := filter (has_op op) l in
  if Nat.ltb 1 (length same) then
    do xs <- mapM elems_of same;
    rappend (Seq op lev (filter (fun n => negb (has_op op n)) l)) [lev_up (Seq op 0 (concat xs))]
  else Ok (Seq op lev l).
Fixpoint rjoin (fuel : nat) (n : node) : res node :=
  match fuel with
  | O => Fuel
  | S k =>
      match n with
      | Lit _ => Err AttributeError
      | _ =>
          match lev_up n with
          | Seq op1 lev1 l1 =>
              if lev1 =? 0 then Ok (Seq op1 lev1 l1)
              else
                do n2 <- group_single (Seq op1 lev1 l1);
                match n2 with
                | Seq op lev l =>
                    do n3 <- rmerge op lev l;
                    do n4 <- match n3 with
                             | Seq op3 lev3 [c] =>
                                 if 0 <? lev3 then
                                   match c with
                                   | Lit _ => Err AttributeError
                                   | Cst o _ b => rjoin k (Cst o (lev3 - 1) b)
                                   | Seq o _ xs => rjoin k (Seq o (lev3 - 1) xs)
                                   end
                                 else Ok n3
                             | _ => Ok n3
                             end;
                    match n4 with
                    | Seq op4 lev4 l4 =>
                        if lev4 =? 0 then Ok n4
                        else do l5 <- mapM (rjoin k) l4; Ok (Seq op4 lev4 l5)
                    | _ => Ok n4
                    end
                | _ => Ok n2
                end
          | n1 => Ok n1
          end
      end
  end.

(** rb 411-443 evaluate(valueSet): None is "unknown".  The receiver is grouped on the
    way. *)
Fixpoint val_of (vs : vset) (x : Z) : option bool :=
  match vs with [] => None | (k, b) :: r => if k =? x then Some b else val_of r x end.
Definition lit_value (vs : vset) (e : Z) : option bool :=
  match val_of vs (Z.abs e) with
  | Some b => Some (if e <? 0 then negb b else b)
  | None => None
  end.
Section REval.
  Variable f : node -> res (option bool * node).
  Variable op : bop.
  Variable vs : vset.
  Fixpoint reval_list (none : bool) (l : list node) : res (option bool * list node) :=
    match l with
    | [] => Ok (if none then None else Some (neutral op), [])
    | e :: r =>
        do (v, e') <- match e with Lit z => Ok (lit_value vs z, e) | _ => f e end;
        match v with
        | Some b =>
            if eqb b (absorbing op) then Ok (Some b, e' :: r)
            else do (w, r') <- reval_list none r; Ok (w, e' :: r')
        | None => do (w, r') <- reval_list true r; Ok (w, e' :: r')
        end
    end.
End REval.
Fixpoint reval_f (fuel : nat) (vs : vset) (n : node) : res (option bool * node) :=
  match fuel with
  | O => Fuel
  | S k =>
      match n with
      | Lit _ => Err AttributeError
      | Cst _ _ b => Ok (Some b, n)
      | Seq _ _ _ =>
          do g <- group_single n;
          match g with
          | Seq op' lev' l' => do (v, l2) <- reval_list (reval_f k vs) op' vs false l'; Ok (v, Seq op' lev' l2)
          | _ => Err TypeError
          end
      end
  end.
Definition revaluate (vs : vset) (n : node) : res (option bool * node) := reval_f (S (height n)) vs n.

(** rb 318-372 factorize(valname, CT): whether it changed, and the receiver *)
Fixpoint rsubst_all (vs : vset) (n : node) : res node :=
  match vs with
  | [] => Ok n
  | (x, b) :: r => do n' <- rsubst x (VB b) n; rsubst_all r n'
  end.
(** rb 335-339 and alike: self with the given values, joined to a literal *)
Definition rsplit (op : bop) (lit : Z) (vs : vset) (self : node) : res (bool * node) :=
  do s <- rsubst_all vs self;
  do n <- rappend (Seq op 0 []) [Lit lit; s];
  Ok (true, n).
Definition rfactorize (ct : ctable) (x : Z) (self : node) : res (bool * node) :=
  do (ts, fs) <- value_sets ct x;
  match ts, fs with
  | None, _ => do n <- rsubst x (VB false) self; Ok (true, n)
  | Some _, None => do n <- rsubst x (VB true) self; Ok (true, n)
  | Some t, Some f =>
      do (tv, s1) <- revaluate t self;
      match tv with
      | Some false => rsplit AND (- x) f s1
      | Some true => rsplit OR x f s1
      | None =>
          do (fv, s2) <- revaluate f s1;
          match fv with
          | Some false => rsplit AND x t s2
          | Some true => rsplit OR (- x) t s2
          | None => Ok (false, s2)
          end
      end
  end.

(** rb 85-100 *)
Fixpoint rfact_loop (ct : ctable) (names newNames : list Z) (self : node) : res node :=
  match names with
  | [] => Ok self
  | x :: r =>
      if existsb (Z.eqb x) newNames then
        do (_, s) <- rfactorize ct x self;
        rfact_loop ct r (surfs s) s
      else rfact_loop ct r newNames self
  end.

(** rb 112-120: the children by operator *)
Definition is_and (n : node) : bool := has_op AND n.
(** rb 124-128 [if ANDSeq.elements] *)
Definition truthy (n : node) : bool :=
  match n with Cst _ _ b => b | Seq _ _ [] => false | _ => true end.

(** rb 131-145: loop over the reversed elements *)
Section RLoop1.
  Variable f : node -> res node.
  Variable op : bop.
  Fixpoint rsimp_list (l : list node) : res (bool + list node) :=
    match l with
    | [] => Ok (inr [])
    | e :: r =>
        do r1 <- rsimp_list r;
        match r1 with
        | inl b => Ok (inl b)
        | inr r' =>
            do e' <- f e;
            match e' with
            | Cst _ _ b => if eqb b (absorbing op) then Ok (inl b) else Ok (inr r')
            | _ => Ok (inr (e' :: r'))
            end
        end
    end.
End RLoop1.

(** rb 84-145 simplify(CT, loop); [loop0]: loop == 0.  [ord] is the order in which
    Python runs through the set of surface numbers.  [strict]: ghost switch; a strict
    run reports NeutralUpdate when a part of an intersection that was found empty is
    forgotten (rb 124-128, [if ANDSeq.elements] is false for the value False);
    strict = false is the code. *)
Fixpoint rsimplify (fuel : nat) (strict : bool) (ord : node -> list Z) (ct : ctable) (loop0 : bool) (self : node) : res node :=
  match fuel with
  | O => Fuel
  | S k =>
      match self with
      | Lit _ => Err AttributeError
      | _ =>
          match surfs self with
          | [] => Ok self
          | names =>
              do s1 <- rfact_loop ct (ord self) names self;
              do s2 <- rjoin k s1;
              match s2 with
              | Seq op lev l =>
                  if lev =? 0 then Ok s2
                  else if loop0 then
                    do _ <- mapM op_of l;
                    do a0 <- rappend (Seq op 0 []) (filter is_and l);
                    do o0 <- rappend (Seq op 0 []) (filter (fun e => negb (is_and e)) l);
                    do a <- rsimplify k strict ord ct false a0;
                    do o <- rsimplify k strict ord ct false o0;
                    if strict && bop_eqb op AND &&
                       (match a with Cst _ _ false => true | _ => false end || match o with Cst _ _ false => true | _ => false end)
                    then Err NeutralUpdate
                    else
                      do n1 <- (if truthy a then rappend (Seq op 0 []) [a] else Ok (Seq op 0 []));
                      do n2 <- (if truthy o then rappend n1 [o] else Ok n1);
                      rjoin k n2
                  else
                    do r <- rsimp_list (rsimplify k strict ord ct true) op l;
                    Ok (match r with
                        | inl b => Cst op 0 b
                        | inr [] => Cst op 0 (neutral op)
                        | inr l' => Seq op lev l'
                        end)
              | _ => Ok s2
              end
          end
      end
  end.

