(** Model of class BoolSequence,
    /repo/src/geouned/GEOUNED/utils/boolean_function.py (abbreviated "bf").
    Methods that mutate [self] return the new value of [self].
    Line numbers refer to that file. *)
From Verif Require Import Prelude BoolSpec.

(** Value that makes the operator's result certain / leaves it unchanged. *)
Definition absorbing (op : bop) : bool := match op with AND => false | OR => true end.
Definition neutral (op : bop) : bool := negb (absorbing op).
Definition bop_eqb (a b : bop) : bool :=
  match a, b with AND, AND => true | OR, OR => true | _, _ => false end.

(** bf 162-166 comp_operator *)
Definition comp_op (op : bop) : bop := match op with AND => OR | OR => AND end.

(** Field access [e.level]; ints have no such field. *)
Definition level_of (n : node) : Z :=
  match n with Lit _ => -1 | Cst _ l _ => l | Seq _ l _ => l end.

(** bf 55-57: "s in self.elements" for an int s. *)
Definition in_lits (z : Z) (l : list node) : bool :=
  existsb (fun n => match n with Lit y => y =? z | _ => false end) l.

(** list.remove(z) for an int z: drop the first equal int. *)
Fixpoint remove_lit (z : Z) (l : list node) : list node :=
  match l with
  | [] => []
  | Lit y :: r => if y =? z then r else Lit y :: remove_lit z r
  | x :: r => x :: remove_lit z r
  end.

(** Arguments of append: an int or BoolSequence ([AN]) or a bool ([AB]). *)
Inductive arg := AN (n : node) | AB (b : bool).

(** bf 52-82: loop of append over its arguments, receiver with a list. *)
Fixpoint append_loop (op : bop) (lev : Z) (l : list node) (args : list arg) : node :=
  match args with
  | [] => Seq op lev l
  | AN (Lit s) :: r =>
      if in_lits s l then append_loop op lev l r
      else if in_lits (- s) l then Cst op (-1) (absorbing op)
      else append_loop op (Z.max lev 0) (l ++ [Lit s]) r
  | AB b :: r =>
      if eqb b (neutral op) then append_loop op lev l r
      else Cst op (-1) b
  | AN (Cst _ _ b) :: r =>
      if eqb b (absorbing op) then Cst op (-1) b
      else append_loop op lev l r
  | AN (Seq o' lv l') :: r =>
      append_loop op (Z.max lev (lv + 1)) (l ++ [Seq o' lv l']) r
  end.

(** bf 84-102 assign, called with a tuple of arguments as append does
    (bf 47-50).  More than one argument: [list] called with several positional
    arguments raises TypeError.  One int or bool: no attribute [operator]. *)
Definition assign_tuple (self : node) (args : list arg) : res node :=
  match args with
  | [] => Err IndexError
  | [AN (Lit _)] => Err AttributeError
  | [AB _] => Err AttributeError
  | [AN n] => Ok n
  | _ => Err TypeError
  end.

(** bf 40-82 append *)
Definition append (self : node) (args : list arg) : res node :=
  match self with
  | Lit _ => Err AttributeError
  | Cst op lev b =>
      if eqb b (neutral op) then assign_tuple self args else Ok self
  | Seq op lev l => Ok (append_loop op lev l args)
  end.

(** bf 84-102 assign with a bool (line 87 [self.operator == "AND"] is a no-op
    comparison, so the operator is kept) or with a BoolSequence. *)
Definition assign_bool (self : node) (b : bool) : node :=
  match self with
  | Lit z => Lit z
  | Cst op _ _ => Cst op (-1) b
  | Seq op _ _ => Cst op (-1) b
  end.

(** Result of evaluate (bf 562-574): a bool or a BoolSequence. *)
Inductive bres := RB (b : bool) | RS (n : node).

Definition assign_res (self : node) (r : bres) : node :=
  match r with RB b => assign_bool self b | RS n => n end.

(** bf 133-145 copy *)
Fixpoint copy (n : node) : node :=
  match n with
  | Lit z => Lit z
  | Cst op lev b => Cst op lev b
  | Seq op lev l => Seq op lev (map copy l)
  end.

(** bf 608-630 group_single: the loop over [reversed(self.elements)] with
    removals.  [i] is one more than the next index of the reversed iterator. *)
Fixpoint gs_loop (i : nat) (l group : list node) : res (list node * list node) :=
  match i with
  | O => Ok (l, group)
  | S j =>
      match nth_error l j with
      | None => Ok (l, group)
      | Some (Lit z) => gs_loop j (remove_lit z l) (group ++ [Lit z])
      | Some (Cst _ lev _) =>
          if lev =? 0 then Err TypeError      (* len(bool) *)
          else gs_loop j l group
      | Some (Seq _ lev xs) =>
          match xs with
          | [x] => if lev =? 0 then gs_loop j (remove_at j l) (group ++ [x])
                   else gs_loop j l group
          | _ => gs_loop j l group
          end
      end
  end.

(** bf 608-630 group_single *)
Definition group_single (self : node) : res node :=
  match self with
  | Lit _ => Err AttributeError
  | Cst op lev b => Ok (Cst op lev b)
  | Seq op lev l =>
      if lev =? 0 then Ok self
      else
        do (l', group) <- gs_loop (length l) l [];
        match group with
        | [] => Ok (Seq op lev l')
        | _ => Ok (Seq op lev (Seq op 0 group :: l'))
        end
  end.

(** bf 632-642 get_surfaces_numbers; the set is a duplicate-free list. *)
Definition surfs (n : node) : list Z := nodup Z.eq_dec (map Z.abs (lits n)).

(** bf 644-655 level_update *)
Fixpoint level_update (n : node) : node :=
  match n with
  | Lit z => Lit z
  | Cst op _ b => Cst op 0 b
  | Seq op _ l =>
      let l' := map level_update l in
      Seq op (fold_left (fun m c => match c with
                                    | Lit _ => m
                                    | _ => Z.max (level_of c + 1) m
                                    end) l' 0) l'
  end.

(** Body of the loop of clean (bf 365-381) run from the last element to the
    first: [inl b] when an absorbing constant is met, else the kept elements. *)
Section CleanLoop.
  Variable f : node -> node.
  Variable op : bop.
  Fixpoint clean_list (l : list node) : bool + list node :=
    match l with
    | [] => inr []
    | e :: r =>
        match clean_list r with
        | inl b => inl b
        | inr r' =>
            match f e with
            | Cst _ _ b => if eqb b (absorbing op) then inl b else inr r'
            | e' => inr (e' :: r')
            end
        end
    end.
End CleanLoop.

(** bf 383-391: end of clean. *)
Definition clean_end (op : bop) (lev : Z) (r : bool + list node) : node :=
  match r with
  | inl b => Cst op (-1) b
  | inr [] => Cst op (-1) (neutral op)
  | inr l' => Seq op lev l'
  end.

(** bf 361-391 clean(self_level=False) *)
Fixpoint clean (n : node) : node :=
  match n with
  | Lit z => Lit z
  | Cst op lev b => Cst op lev b
  | Seq op lev l => clean_end op lev (clean_list clean op l)
  end.

(** bf 361-391 clean(self_level=True) *)
Definition clean_self (n : node) : node :=
  match n with
  | Seq op lev l => clean_end op lev (clean_list (fun e => e) op l)
  | _ => n
  end.

(** bf 266: len(set(self.elements)): distinct ints plus one per object. *)
Definition count_distinct (l : list node) : nat :=
  (length (nodup Z.eq_dec (flat_map (fun n => match n with Lit z => [z] | _ => [] end) l))
   + length (filter (fun n => match n with Lit _ => false | _ => true end) l))%nat.

(** bf 265-277: level 0 branch of check. *)
Definition check0 (op : bop) (lev : Z) (l : list node) : node :=
  if Nat.eqb (count_distinct l) (length (surfs (Seq op lev l))) then Seq op lev l
  else Cst op (-1) (absorbing op).

(** bf 281-299: loop of check over [reversed(self.elements)] with [f] the
    recursive call: [inl b] when an absorbing constant is met (the code returns
    without looking further), constants are dropped, other elements kept. *)
Section CheckLoop.
  Variable f : node -> res node.
  Variable op : bop.
  Fixpoint check_list (l : list node) : res (bool + list node) :=
    match l with
    | [] => Ok (inr [])
    | e :: r =>
        do r1 <- check_list r;
        match r1 with
        | inl b => Ok (inl b)
        | inr r' =>
            do e' <- f e;
            match e' with
            | Cst _ _ b => if eqb b (absorbing op) then Ok (inl b) else Ok (inr r')
            | _ => Ok (inr (e' :: r'))
            end
        end
    end.
End CheckLoop.

(** bf 261-310 check(level0=False).  Fuel: tree height. *)
Fixpoint check_f (fuel : nat) (n : node) : res node :=
  match fuel with
  | O => Fuel
  | S k =>
      match n with
      | Lit _ => Err AttributeError
      | Cst _ _ _ => Ok n
      | Seq op lev l =>
          if lev =? 0 then Ok (check0 op lev l)
          else
            do g <- group_single n;
            match g with
            | Seq op' lev' l' =>
                do r <- check_list (check_f k) op' l'; Ok (clean_end op' lev' r)
            | _ => Ok g
            end
      end
  end.

Fixpoint height (n : node) : nat :=
  match n with
  | Seq _ _ l => S (fold_right (fun c m => Nat.max (height c) m) O l)
  | _ => O
  end.

Definition check (n : node) : res node := check_f (S (height n)) n.

(** bf 261-310 check(level0=True): only a level 0 sequence is examined. *)
Definition check_level0 (n : node) : node :=
  match n with
  | Seq op lev l => if lev =? 0 then check0 op lev l else n
  | _ => n
  end.

(** bf 148-160 get_complementary.  Returns the complement and the (grouped)
    receiver. *)
Fixpoint compl_f (fuel : nat) (n : node) : res (node * node) :=
  match fuel with
  | O => Fuel
  | S k =>
      match n with
      | Lit _ => Err AttributeError
      | Cst _ _ _ => Err TypeError          (* iterating over a bool *)
      | Seq op lev l =>
          if lev =? 0 then
            do l' <- mapM (fun e => match e with Lit z => Ok (Lit (- z)) | _ => Err TypeError end) l;
            Ok (Seq (comp_op op) lev l', n)
          else
            do g <- group_single n;
            match g with
            | Seq op' lev' l' =>
                do ps <- mapM (compl_f k) l';
                Ok (Seq (comp_op op) lev (map fst ps), Seq op' lev' (map snd ps))
            | _ => Err TypeError
            end
      end
  end.

Definition get_complementary (n : node) : res (node * node) := compl_f (S (height n)) n.

Definition op_of (n : node) : res bop :=
  match n with Lit _ => Err AttributeError | Cst op _ _ => Ok op | Seq op _ _ => Ok op end.

(** [s.elements] used as a list (extend, slice). *)
Definition elems_of (n : node) : res (list node) :=
  match n with Lit _ => Err AttributeError | Cst _ _ _ => Err TypeError | Seq _ _ l => Ok l end.

Definition has_op (op : bop) (n : node) : bool :=
  match n with Lit _ => false | Cst o _ _ => bop_eqb o op | Seq o _ _ => bop_eqb o op end.

(** bf 403-426: merge the children that carry the operator of the parent when
    there are at least two of them. *)
Definition merge_same (op : bop) (lev : Z) (l : list node) : res node :=
  do _ <- mapM op_of l;
  let same := filter (has_op op) l in
  if Nat.ltb 1 (length same) then
    do xs <- mapM elems_of same;
    let newSeq := level_update (Seq op 0 (concat xs)) in
    append (Seq op lev (filter (fun n => negb (has_op op n)) l)) [AN newSeq]
  else Ok (Seq op lev l).

(** bf 394-442 join_operators(self_level).  Fuel: tree height. *)
Fixpoint join_f (fuel : nat) (self_level : bool) (n : node) : res node :=
  match fuel with
  | O => Fuel
  | S k =>
      match n with
      | Lit _ => Err AttributeError
      | Cst _ _ _ => Ok n
      | Seq _ _ _ =>
          let n1 := level_update (clean_self n) in
          if level_of n1 =? 0 then Ok n1
          else
            do n2 <- group_single n1;
            match n2 with
            | Seq op lev l =>
                do n3 <- merge_same op lev l;
                (* bf 428-432 *)
                do n4 <- match n3 with
                         | Seq op3 lev3 [c] =>
                             if 0 <? lev3 then
                               do o <- op_of c;
                               do xs <- elems_of c;
                               join_f k false (Seq o (lev3 - 1) xs)
                             else Ok n3
                         | _ => Ok n3
                         end;
                (* bf 434-442 *)
                if level_of n4 =? 0 then check n4
                else if self_level then Ok n4
                else match n4 with
                     | Seq op4 lev4 l4 =>
                         do l5 <- mapM (join_f k false) l4; Ok (Seq op4 lev4 l5)
                     | _ => Ok n4
                     end
            | _ => Ok n2
            end
      end
  end.

Definition join (self_level : bool) (n : node) : res node :=
  join_f (S (height n)) self_level n.

(** Value given to a variable by substitute: bool, int or None (bf 312-317). *)
Inductive sval := VB (b : bool) | VI (z : Z) | VNone.

(** bf 321-350: loop of substitute over reversed elements; [inl b]: absorbing
    literal met.  Removing the first int equal to [e] (list.remove) has the same
    net effect as dropping every such int, which is what is modelled. *)
Section SubstLoop.
  Variable f : node -> res node.
  Variable op : bop.
  Variable name : Z.
  Variable val : sval.
  Fixpoint subst_list (l : list node) : res (bool + list node) :=
    match l with
    | [] => Ok (inr [])
    | e :: r =>
        do r1 <- subst_list r;
        match r1 with
        | inl b => Ok (inl b)
        | inr r' =>
            match e with
            | Lit z =>
                if Z.abs z =? name then
                  match val with
                  | VI w => Ok (inr (Lit (if name =? z then w else - w) :: r'))
                  | VB b =>
                      let bv := if name =? z then b else negb b in
                      if eqb bv (absorbing op) then Ok (inl bv) else Ok (inr r')
                  | VNone => Ok (inr (e :: r'))
                  end
                else Ok (inr (e :: r'))
            | _ => do e' <- f e; Ok (inr (e' :: r'))
            end
        end
    end.
End SubstLoop.

(** bf 312-359 substitute *)
Fixpoint subst (var : Z) (val : sval) (n : node) : res node :=
  match val with
  | VNone => Ok n
  | _ =>
      match n with
      | Lit _ => Err AttributeError
      | Cst _ _ _ => Ok n
      | Seq op lev l =>
          do r <- subst_list (subst var val) op (Z.abs var) val l;
          match r with
          | inl b => Ok (Cst op (-1) b)
          | inr [] => Ok (Cst op (-1) (neutral op))
          | inr l' => join true (check_level0 (clean_self (Seq op lev l')))
          end
      end
  end.

(** Value sets handed to evaluate: dict, insertion ordered. *)
Definition vset := list (Z * bool).

(** bf 569-572: substitutions in dict order, early exit on a constant. *)
Fixpoint eval_loop (vs : vset) (n : node) : res bres :=
  match vs with
  | [] => Ok (match n with Cst _ _ b => RB b | _ => RS n end)
  | (x, b) :: r =>
      do n' <- subst x (VB b) n;
      match n' with
      | Cst _ _ b' => Ok (RB b')
      | _ => eval_loop r n'
      end
  end.

(** bf 562-574 evaluate: result and grouped receiver. *)
Definition evaluate (vs : vset) (n : node) : res (bres * node) :=
  match n with
  | Lit _ => Err AttributeError
  | Cst _ _ b => Ok (RB b, n)
  | Seq _ _ _ =>
      do g <- group_single n;
      do r <- eval_loop vs (copy g);
      Ok (r, g)
  end.

(** Position returned by get_sub_sequence: None for the empty list, otherwise
    the path to the base and the list of element positions. *)
Definition spos := option (list nat * list nat).

(** bf 458-462: elements that share a surface with the set, with positions. *)
Fixpoint touching (vals : list Z) (i : nat) (l : list node) : res (list (nat * node)) :=
  match l with
  | [] => Ok []
  | Lit _ :: _ => Err AttributeError
  | e :: r =>
      do rest <- touching vals (S i) r;
      if existsb (fun z => existsb (Z.eqb z) vals) (surfs e) then Ok ((i, e) :: rest) else Ok rest
  end.

(** bf 444-470 get_sub_sequence.  Elements appended to subSeq are never constant
    (they own a surface), so append just adds them. *)
Fixpoint get_sub_f (fuel : nat) (vals : list Z) (n : node) : res (spos * node) :=
  match fuel with
  | O => Fuel
  | S k =>
      match n with
      | Lit _ => Err AttributeError
      | Cst _ lev _ => if lev =? 0 then Ok (None, n) else Err TypeError
      | Seq op lev l =>
          if lev =? 0 then Ok (None, n)
          else
            do ts <- touching vals 0 l;
            do sub <- append (Seq op 0 []) (map (fun p => AN (snd p)) ts);
            match ts with
            | [(i, c)] =>
                if 0 <? level_of c then
                  do (p, s) <- get_sub_f k vals c;
                  match p with
                  | Some (path, idx) => Ok (Some (i :: path, idx), s)
                  | None => Ok (Some ([], [i]), s)   (* unreachable: level > 0 *)
                  end
                else Ok (Some ([], [i]), sub)
            | _ => Ok (Some ([], map fst ts), sub)
            end
      end
  end.

Definition get_sub_sequence (vals : list Z) (n : node) : res (spos * node) :=
  get_sub_f (S (height n)) vals n.

(** bf 113-116: delete the listed positions (indexes sorted, from the last). *)
Fixpoint del_idx (i : nat) (idx : list nat) (l : list node) : list node :=
  match l with
  | [] => []
  | x :: r =>
      if existsb (Nat.eqb i) idx then del_idx (S i) idx r
      else x :: del_idx (S i) idx r
  end.

(** bf 118-123: action of update on [base].  [strict]: ghost switch; a strict
    run reports [NeutralUpdate] when a constant that is neutral for the
    operator of [base] replaces remaining elements; [strict = false] is the
    code. *)
Definition update_base (strict : bool) (seq : node) (idx : list nat) (base : node) : res node :=
  match base with
  | Lit _ => Err AttributeError
  | Cst _ _ _ => Err TypeError
  | Seq op lev l =>
      let l' := del_idx 0 idx l in
      match seq with
      | Cst _ _ b =>
          if strict && eqb b (neutral op) && negb (Nat.eqb (length l') 0)
          then Err NeutralUpdate
          else Ok (Cst op (-1) b)
      | _ => do b1 <- append (Seq op lev l') [AN seq]; join false b1
      end
  end.

(** bf 127-131 get_element, used as an in-place access path. *)
Fixpoint upd_at (path : list nat) (f : node -> res node) (n : node) : res node :=
  match path with
  | [] => f n
  | i :: p =>
      match n with
      | Lit _ => Err AttributeError
      | Cst _ _ _ => Err TypeError
      | Seq op lev l =>
          match nth_error l i with
          | None => Err IndexError
          | Some c =>
              do c' <- upd_at p f c;
              Ok (Seq op lev (firstn i l ++ c' :: skipn (S i) l))
          end
      end
  end.

(** bf 104-125 update *)
Definition update (strict : bool) (seq : node) (path idx : list nat) (self : node) : res node :=
  do s <- upd_at path (update_base strict seq idx) self;
  Ok (clean_self s).

(** bf 496-560: the replacement built from the two cofactors; None when neither
    cofactor is a constant (factorize then leaves the sequence alone). *)
Definition shannon (x : Z) (t f : bres) : res (option node) :=
  match t, f with
  | RB false, RB true => do n <- append (Seq AND 0 []) [AN (Lit (- x))]; Ok (Some n)
  | RB false, RB false => Ok (Some (Cst AND (-1) false))
  | RB false, RS g => do n <- append (Seq AND 0 []) [AN (Lit (- x)); AN g];
                      do n' <- join true n; Ok (Some n')
  | RB true, RB true => Ok (Some (Cst OR (-1) true))
  | RB true, RB false => do n <- append (Seq OR 0 []) [AN (Lit x)]; Ok (Some n)
  | RB true, RS g => do n <- append (Seq OR 0 []) [AN (Lit x); AN g];
                     do n' <- join true n; Ok (Some n')
  | RS g, RB false => do n <- append (Seq AND 0 []) [AN (Lit x); AN g];
                      do n' <- join true n; Ok (Some n')
  | RS g, RB true => do n <- append (Seq OR 0 []) [AN (Lit (- x)); AN g];
                     do n' <- join true n; Ok (Some n')
  | RS _, RS _ => Ok None
  end.

(** bf 472-560 factorize.  [None] set: the surface cannot take that value. *)
Definition factorize (strict : bool) (x : Z) (ts fs : option vset) (self : node) : res node :=
  match ts, fs with
  | None, None => Err AttributeError        (* None.items() *)
  | None, Some f => do (r, _) <- evaluate f self; Ok (assign_res self r)
  | Some t, None => do (r, _) <- evaluate t self; Ok (assign_res self r)
  | Some t, Some f =>
      do (pos, sub) <- get_sub_sequence (map fst t ++ map fst f) self;
      let sub0 := match pos with None => self | Some _ => sub end in
      do (tr, sub1) <- evaluate t sub0;
      do (fr, _) <- evaluate f sub1;
      do new <- shannon x tr fr;
      match new with
      | None => Ok self
      | Some nseq =>
          match pos with
          | None => Ok nseq
          | Some (path, idx) => update strict nseq path idx self
          end
      end
  end.

(** bf 211-257 do_factorize *)
Definition do_factorize (x : Z) (ts fs : option vset) (self : node) : res bool :=
  if 0 <? level_of self then Ok true
  else
    match ts, fs with
    | None, None => Ok false
    | None, _ => Ok true
    | _, None => Ok true
    | Some t, Some f =>
        let vals := surfs self in
        let inter (s : vset) :=
          length (filter (fun z => existsb (fun p => fst p =? z) s) vals) in
        let nt := inter t in
        let nf := inter f in
        if Nat.eqb nt 1 && Nat.eqb nf 1 then Ok false
        else
          match self with
          | Lit _ => Err AttributeError
          | Cst _ _ _ => Err TypeError
          | Seq op _ l =>
              do value <-
                (fix find (l : list node) : res (option Z) :=
                   match l with
                   | [] => Ok None
                   | Lit z :: r => if Z.abs z =? x then Ok (Some z) else find r
                   | _ :: _ => Err TypeError
                   end) l;
              match value with
              | None => Ok false
              | Some z =>
                  if Nat.eqb nt 1 then
                    match op with
                    | AND => Ok (negb (0 <? z))
                    | OR => Ok (negb (z <? 0))
                    end
                  else if Nat.eqb nf 1 then
                    match op with
                    | AND => Ok (negb (z <? 0))
                    | OR => Ok (negb (0 <? z))
                    end
                  else Ok true
              end
          end
    end.

(** Constraint table seen from simplify: get_constraint_set (may raise). *)
Definition ctable := option (Z -> res (option vset * option vset)).

(** bf 198-202: value sets of a surface. *)
Definition value_sets (ct : ctable) (x : Z) : res (option vset * option vset) :=
  match ct with
  | None => Ok (Some [(Z.abs x, true)], Some [(Z.abs x, false)])
  | Some f => f x
  end.

(** bf 194-209: loop over the surface names. *)
Fixpoint ss_loop (strict : bool) (ct : ctable) (names newNames : list Z) (self : node) : res node :=
  match names with
  | [] => Ok self
  | x :: r =>
      if existsb (Z.eqb x) newNames then
        do (ts, fs) <- value_sets ct x;
        do go <- do_factorize x ts fs self;
        if go then
          do s' <- factorize strict x ts fs self;
          match s' with
          | Cst _ _ _ => Ok s'
          | _ => ss_loop strict ct r (surfs s') s'
          end
        else ss_loop strict ct r newNames self
      else ss_loop strict ct r newNames self
  end.

(** bf 184-209 simplify_sequence.  [ord s] is the order in which Python iterates
    over the set of surface numbers of [s] (unspecified by the language). *)
Definition simplify_sequence (strict : bool) (ord : node -> list Z) (ct : ctable)
    (self : node) : res node :=
  match ct, level_of self <? 1 with
  | None, true => Ok (clean self)
  | _, _ =>
      match surfs self with
      | [] => Ok self
      | names => ss_loop strict ct (ord self) names self
      end
  end.

(** bf 168-182 simplify.  Fuel bounds the recursion depth. *)
Fixpoint simplify_f (fuel : nat) (strict : bool) (ord : node -> list Z) (ct : ctable)
    (dep : Z) (self : node) : res node :=
  match fuel with
  | O => Fuel
  | S k =>
      match self with
      | Lit _ => Err AttributeError
      | _ =>
          do s1 <-
            (if 0 <? level_of self then
               match self with
               | Seq op lev l =>
                   do l' <- mapM (simplify_f k strict ord ct (dep + 1)) l;
                   do j <- join false (clean (Seq op lev l'));
                   Ok (level_update j)
               | _ => Err TypeError
               end
             else Ok self);
          match s1 with
          | Seq op lev l =>
              if (0 <? lev) || Nat.ltb 1 (length l) then
                do s2 <- simplify_sequence strict ord ct s1;
                if (lev <? level_of s2) && (dep <? 10)
                then simplify_f k strict ord ct (dep + 1) s2
                else Ok s2
              else Ok s1
          | _ => Ok s1
          end
      end
  end.
