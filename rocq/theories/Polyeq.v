(** Equality of terms modulo reordering of equalities, n-ary expansion and renaming of bound variables.
    Models /repo/carcara/src/ast/polyeq.rs.  Not modelled: [mod_string_concat] (lines 247-252, 311-466,
    587-617), which no caller outside the unit tests enables; the comparison of proof commands (686-728),
    only used by tests; the depth counters (only statistics). *)
From Coq Require Import List String ZArith QArith Bool Arith Lia.
From Verif Require Import Term Sem Base Utils Num.
Import ListNotations.
Local Open Scope nat_scope.

(** NaryCase and Operator::nary_case, term.rs:446-502 *)
Inductive ncase : Type := NRight | NLeft | NChain | NPair.
Definition nary_case (o : op) : option ncase :=
  match o with
  | OImplies => Some NRight
  | OAnd | OOr | OXor | OAdd | OSub | OMult | OIntDiv | ORealDiv | OStrConcat | OStrLt | OStrLe
  | OReConcat | OReUnion | OReInter | OReDiff | OBvAnd | OBvOr | OBvAdd | OBvMul | OCl | ODelete => Some NLeft
  | OEquals | OLt | OGt | OLe | OGe => Some NChain
  | ODistinct => Some NPair
  | _ => None
  end.
Definition is_left (o : op) : bool := match nary_case o with Some NLeft => true | _ => false end.
Definition is_right (o : op) : bool := match nary_case o with Some NRight => true | _ => false end.
Definition is_chain (o : op) : bool := match nary_case o with Some NChain => true | _ => false end.

(** PolyeqConfig, polyeq.rs:81-92 *)
Record pcfg : Type := { p_reorder : bool; p_alpha : bool; p_nary : bool }.
(** DeBruijnMap, polyeq.rs:730-754; the head of each list is the innermost scope *)
Record dbmap : Type := { db_a : list (list (string * nat)); db_b : list (list (string * nat)); db_cnt : list nat }.
(** the mutable fields of Polyeq, polyeq.rs:95-127; the cache is a set of pairs per scope *)
Record pst : Type := { ps_cache : list (list (term * term)); ps_db : option dbmap }.

(** polyeq.rs:757-762 *)
Definition db_new : dbmap := {| db_a := [[]]; db_b := [[]]; db_cnt := [0] |}.
Fixpoint scopes_get (l : list (list (string * nat))) (x : string) : option nat :=
  match l with
  | [] => None
  | m :: r => match im_get String.eqb m x with Some v => Some v | None => scopes_get r x end
  end.
Definition scopes_empty (l : list (list (string * nat))) : bool :=
  forallb (fun m => match m with [] => true | _ => false end) l.
(** polyeq.rs:764-766 *)
Definition db_is_empty (d : dbmap) : bool := scopes_empty (db_a d) && scopes_empty (db_b d).
(** polyeq.rs:768-773; [counter.last().unwrap()] panics on an empty stack *)
Definition db_push (d : dbmap) : outcome dbmap :=
  match db_cnt d with
  | [] => RPanic
  | c :: _ => ROk {| db_a := [] :: db_a d; db_b := [] :: db_b d; db_cnt := c :: db_cnt d |}
  end.
(** polyeq.rs:775-782; popping the last scope panics (utils.rs:126-134) *)
Definition db_pop (d : dbmap) : outcome dbmap :=
  match db_a d, db_b d with
  | _ :: ((_ :: _) as ra), _ :: ((_ :: _) as rb) => ROk {| db_a := ra; db_b := rb; db_cnt := tl (db_cnt d) |}
  | _, _ => RPanic
  end.
(** polyeq.rs:784-789 *)
Definition db_insert (d : dbmap) (x y : string) : outcome dbmap :=
  match db_a d, db_b d, db_cnt d with
  | ma :: ra, mb :: rb, c :: rc =>
      ROk {| db_a := im_insert String.eqb ma x c :: ra; db_b := im_insert String.eqb mb y c :: rb; db_cnt := S c :: rc |}
  | _, _, _ => RPanic
  end.
(** polyeq.rs:791-802 *)
Definition db_compare (d : dbmap) (x y : string) : bool :=
  match scopes_get (db_a d) x, scopes_get (db_b d) y with
  | None, None => String.eqb x y
  | Some i, Some j => Nat.eqb i j
  | _, _ => false
  end.

Definition st_new (c : pcfg) : pst :=
  {| ps_cache := [[]]; ps_db := if p_alpha c then Some db_new else None |}.
Definition renamed (st : pst) : bool := match ps_db st with Some d => negb (db_is_empty d) | None => false end.
Definition pair_eqb (p q : term * term) : bool := term_eqb (fst p) (fst q) && term_eqb (snd p) (snd q).
Definition cache_mem (st : pst) (a b : term) : bool := existsb (existsb (pair_eqb (a, b))) (ps_cache st).
Definition cache_insert (st : pst) (a b : term) : outcome pst :=
  match ps_cache st with
  | [] => RPanic
  | m :: r => ROk {| ps_cache := ((a, b) :: m) :: r; ps_db := ps_db st |}
  end.
Definition cache_push (st : pst) : pst := {| ps_cache := [] :: ps_cache st; ps_db := ps_db st |}.
Definition cache_pop (st : pst) : outcome pst :=
  match ps_cache st with
  | _ :: ((_ :: _) as r) => ROk {| ps_cache := r; ps_db := ps_db st |}
  | _ => RPanic
  end.

(** ** State-passing comparisons; [RErr] is only used for exhausted fuel *)
Definition cmp : Type := pst -> outcome (bool * pst).
Definition cret (b : bool) : cmp := fun st => ROk (b, st).
Definition cand (x y : cmp) : cmp := fun st =>
  do r <- x st ; if fst r then y (snd r) else ROk (false, snd r).
Definition cor (x y : cmp) : cmp := fun st =>
  do r <- x st ; if fst r then ROk (true, snd r) else y (snd r).
Definition cpanic : cmp := fun _ => RPanic.

(** Comparison of sorts, polyeq.rs:630-655.  Sorts go through [Rc<Term>] comparisons as well, whose cache
    cannot change the result: the comparison of two sorts is structural equality, except that it rejects
    sort variables when no shortcut by pointer equality is taken (line 652). *)
Fixpoint no_svar (s : sort) : bool :=
  match s with
  | SVar _ => false
  | SFun ss | SAtom _ ss => forallb no_svar ss
  | SArray a b => no_svar a && no_svar b
  | _ => true
  end.
Definition sort_cmp (a b : sort) : cmp := fun st =>
  ROk (sort_eqb a b && (negb (renamed st) || no_svar a), st).

Section Compare.
  Context (c : pcfg).
  Section Rec.
  (** the comparison of [&Term]s, with less fuel *)
  Context (rec : term -> term -> cmp).

  (** PolyeqComparable for Rc<Term>, polyeq.rs:469-500 *)
  Definition eq_rc (a b : term) : cmp := fun st =>
    if negb (renamed st) && term_eqb a b then ROk (true, st)
    else if cache_mem st a b then ROk (true, st)
    else do r <- rec a b st ;
         if fst r then do st' <- cache_insert (snd r) a b ; ROk (true, st') else ROk (false, snd r).

  (** [T] and Vec<T>, polyeq.rs:663-673 *)
  Fixpoint eq_zip (la lb : list term) : cmp :=
    match la, lb with
    | a :: ra, b :: rb => cand (eq_rc a b) (eq_zip ra rb)
    | _, _ => cret true
    end.
  Definition eq_list (la lb : list term) : cmp :=
    if Nat.eqb (List.length la) (List.length lb) then eq_zip la lb else cret false.

  (** compare_binder without a De Bruijn map, polyeq.rs:229-231 *)
  Fixpoint eq_sorts (la lb : list (string * sort)) : cmp :=
    match la, lb with
    | (x, s) :: ra, (y, s') :: rb =>
        cand (fun st => if String.eqb x y then sort_cmp s s' st else ROk (false, st)) (eq_sorts ra rb)
    | _, _ => cret true
    end.
  Fixpoint eq_binds (la lb : list (string * term)) : cmp :=
    match la, lb with
    | (x, v) :: ra, (y, v') :: rb =>
        cand (fun st => if String.eqb x y then eq_rc v v' st else ROk (false, st)) (eq_binds ra rb)
    | _, _ => cret true
    end.

  (** compare_binder with a De Bruijn map, polyeq.rs:198-228: the pairs are zipped, so the longer list is
      truncated *)
  Definition db_ins (x y : string) : pst -> outcome pst := fun st =>
    match ps_db st with
    | None => RPanic
    | Some d => do d' <- db_insert d x y ; ROk {| ps_cache := ps_cache st; ps_db := Some d' |}
    end.
  Definition push_all (st : pst) : outcome pst :=
    match ps_db st with
    | None => RPanic
    | Some d => do d' <- db_push d ; ROk {| ps_cache := [] :: ps_cache st; ps_db := Some d' |}
    end.
  Definition pop_all (st : pst) : outcome pst :=
    match ps_db st with
    | None => RPanic
    | Some d => do d' <- db_pop d ; do s <- cache_pop st ; ROk {| ps_cache := ps_cache s; ps_db := Some d' |}
    end.
  Fixpoint db_sorts (la lb : list (string * sort)) : cmp :=
    match la, lb with
    | (x, s) :: ra, (y, s') :: rb =>
        cand (fun st => do r <- sort_cmp s s' st ;
                        if fst r then do st' <- db_ins x y (snd r) ; ROk (true, st') else ROk r)
             (db_sorts ra rb)
    | _, _ => cret true
    end.
  Fixpoint db_binds (la lb : list (string * term)) : cmp :=
    match la, lb with
    | (x, v) :: ra, (y, v') :: rb =>
        cand (fun st => do r <- eq_rc v v' st ;
                        if fst r then do st' <- db_ins x y (snd r) ; ROk (true, st') else ROk r)
             (db_binds ra rb)
    | _, _ => cret true
    end.
  Definition in_scope (binds inner : cmp) : cmp := fun st =>
    do st1 <- push_all st ; do r <- cand binds inner st1 ; do st2 <- pop_all (snd r) ; ROk (fst r, st2).
  Definition cmp_binder (la lb : list (string * sort)) (a b : term) : cmp := fun st =>
    match ps_db st with
    | Some _ => in_scope (db_sorts la lb) (eq_rc a b) st
    | None => cand (fun st => if Nat.eqb (List.length la) (List.length lb) then eq_sorts la lb st else ROk (false, st))
                   (eq_rc a b) st
    end.
  Definition cmp_let (la lb : list (string * term)) (a b : term) : cmp := fun st =>
    match ps_db st with
    | Some _ => in_scope (db_binds la lb) (eq_rc a b) st
    | None => cand (fun st => if Nat.eqb (List.length la) (List.length lb) then eq_binds la lb st else ROk (false, st))
                   (eq_rc a b) st
    end.

  (** compare_chainable, polyeq.rs:284-300 *)
  Fixpoint cmp_chain_zip (o : op) (args ch : list term) : cmp :=
    match args, ch with
    | a :: ((b :: _) as ra), TOp o' [x; y] :: rc =>
        if op_eqb o' o then cand (cand (eq_rc a x) (eq_rc b y)) (cmp_chain_zip o ra rc) else cret false
    | _ :: _ :: _, _ :: _ => cret false
    | _, _ => cret true
    end.
  Definition cmp_chainable (o : op) (args ch : list term) : cmp :=
    if Nat.eqb (List.length args) (List.length ch + 1) then cmp_chain_zip o args ch else cret false.

  (** compare_assoc, polyeq.rs:302-346 *)
  Definition flatten_single (o : op) (tail : list term) : list term :=
    match tail with
    | [TOp o' args] => if op_eqb o' o then args else tail
    | _ => tail
    end.
  Definition split_args (right : bool) (l : list term) : option (term * list term) :=
    match l with
    | [] | [_] => None
    | x :: r => if right then Some (x, r) else Some (last l x, removelast l)
    end.
  Fixpoint cmp_assoc (n : nat) (o : op) (l r : list term) : cmp :=
    match n with
    | 0 => fun _ => RErr
    | S n =>
        match l, r with
        | [a], [b] => eq_rc a b
        | [_], _ | _, [_] => cret false
        | _, _ =>
            match split_args (is_right o) l, split_args (is_right o) r with
            | Some (hl, tl), Some (hr, tr) =>
                cand (eq_rc hl hr) (cmp_assoc n o (flatten_single o tl) (flatten_single o tr))
            | _, _ => cpanic   (* unreachable!() on an empty argument list *)
            end
        end
    end.

  (** compare_op, polyeq.rs:234-282 *)
  Definition cmp_op (n : nat) (oa : op) (la : list term) (ob : op) (lb : list term) : cmp :=
    let general := if op_eqb oa ob then eq_list la lb else cret false in
    let nary :=
      if p_nary c then
        if negb (op_eqb oa ob) then
          if is_chain oa then (if op_eqb ob OAnd then cmp_chainable oa la lb else cret false)
          else if is_chain ob then (if op_eqb oa OAnd then cmp_chainable ob lb la else cret false)
          else cret false
        else if negb (Nat.eqb (List.length la) (List.length lb)) then
          (if is_left oa || is_right oa then cmp_assoc n oa la lb else cret false)
        else general
      else general in
    match la, lb with
    | [a1; a2], [b1; b2] =>
        if p_reorder c && op_eqb oa OEquals && op_eqb ob OEquals
        then cor (cand (eq_rc a1 b1) (eq_rc a2 b2)) (cand (eq_rc a1 b2) (eq_rc a2 b1))
        else nary
    | _, _ => nary
    end.

  (** Constants, polyeq.rs:505-513 *)
  Definition const_cmp (x y : const) : bool :=
    match x, y with
    | CReal r, CInt i | CInt i, CReal r => Qis_int r && Z.eqb (Qnumer r) i
    | _, _ => const_eqb x y
    end.
  (** [Rational::from((n, d))] panics on a zero denominator *)
  Definition ratio_is (n d : Z) (q : Q) : cmp :=
    if Z.eqb d 0 then cpanic else cret (Qeq_bool (inject_Z n / inject_Z d) q).
  Definition qneg (q : Q) : bool := Z.ltb (Qnum q) 0.
  Definition qpos (q : Q) : bool := Z.ltb 0 (Qnum q).
  Definition qabs (q : Q) : Q := Z.abs (Qnum q) # Qden q.
  Definition idx2 (l : list term) : option (term * term) :=
    match l with x :: y :: _ => Some (x, y) | _ => None end.
  (** polyeq.rs:549-560 *)
  Definition real_div (r : Q) (args : list term) : cmp :=
    match idx2 args with
    | None => cpanic   (* index out of bounds *)
    | Some (TConst (CReal r1), TConst (CReal r2)) =>
        if Qis_int r1 && Qis_int r2 then ratio_is (Qnumer r1) (Qnumer r2) r else cret false
    | Some _ => cret false
    end.
  (** polyeq.rs:561-583 *)
  Definition div_real (args : list term) (r : Q) : cmp :=
    match idx2 args with
    | None => cpanic
    | Some (TConst (CReal r1), TConst (CReal r2)) =>
        if qpos r && Qis_int r1 && Qis_int r2 then ratio_is (Qnumer r1) (Qnumer r2) r else cret false
    | Some (TOp OSub [x], TConst (CInt r2)) | Some (TConst (CInt r2), TOp OSub [x]) =>
        if qneg r then match x with TConst (CInt r1) => ratio_is r1 r2 (qabs r) | _ => cret false end
        else cret false
    | Some _ => cret false
    end.
  (** polyeq.rs:584-595 *)
  Definition int_neg (i : Z) (args : list term) : cmp :=
    if Z.ltb i 0 then
      match args with
      | [TConst (CInt i2)] => cret (Z.eqb (Z.abs i) i2)
      | [TConst (CReal r2)] => cret (Z.eqb (Z.abs i) (Qnumer r2))
      | _ => cret false
      end
    else cret false.
  (** polyeq.rs:596-616 *)
  Definition real_neg (r : Q) (args : list term) : cmp :=
    if qneg r then
      match args with
      | [TOp ORealDiv sub] =>
          match idx2 sub with
          | None => cpanic
          | Some (TConst (CReal r1), TConst (CReal r2)) =>
              if Qis_int r1 && Qis_int r2 then ratio_is (Qnumer r1) (Qnumer r2) (qabs r) else cret false
          | Some _ => cret false
          end
      | [TConst (CReal r1)] => cret (Qeq_bool r1 (qabs r))
      | _ => cret false
      end
    else cret false.

  (** the singleton case [(op a)] against [a], polyeq.rs:538-547, for each order of the two terms *)
  Definition single (a other : term) : cmp :=
    match a with
    | TOp o [x] =>
        if p_nary c && is_left o
        then if term_eqb x other then cret true else rec x other
        else cret false
    | _ => cret false
    end.
  (** PolyeqComparable for Term, polyeq.rs:502-628 *)
  Definition eq_term (n : nat) (a b : term) : cmp :=
    match a, b with
    | TConst x, TConst y => cret (const_cmp x y)
    | TVar x s, TVar y s' => fun st =>
        match ps_db st with
        | Some d => if db_compare d x y then sort_cmp s s' st else ROk (false, st)
        | None => ROk (false, st)
        end
    | TApp f la, TApp g lb => cand (eq_rc f g) (eq_list la lb)
    | TPOp o oa la, TPOp o' ob lb =>
        if pop_beq o o' && list_eqb term_eqb oa ob then eq_list la lb else cret false
    | TSort s, TSort s' => sort_cmp s s'
    | TBind q la ta, TBind q' lb tb => if binder_beq q q' then cmp_binder la lb ta tb else cret false
    | TLet la ta, TLet lb tb => cmp_let la lb ta tb
    | _, _ =>
        cor (single a b) (cor (single b a)
          (match a, b with
           | TOp oa la, TOp ob lb => cmp_op n oa la ob lb
           | TConst (CReal r), TOp o args =>
               if op_eqb o ORealDiv then real_div r args
               else if op_eqb o OSub then real_neg r args else cret false
           | TOp o args, TConst (CReal r) =>
               if op_eqb o ORealDiv then div_real args r
               else if op_eqb o OSub then real_neg r args else cret false
           | TConst (CInt i), TOp o args | TOp o args, TConst (CInt i) =>
               if op_eqb o OSub then int_neg i args else cret false
           | _, _ => cret false
           end))
    end.
  End Rec.

  Fixpoint eq_term_fuel (n : nat) (a b : term) : cmp :=
    match n with
    | 0 => fun _ => RErr
    | S n => eq_term (eq_term_fuel n) n a b
    end.
End Compare.

(** size of a term, an upper bound of the recursion depth *)
Fixpoint tsize (t : term) : nat :=
  match t with
  | TConst _ | TVar _ _ | TSort _ => 1
  | TApp f args => S (tsize f + list_sum (map tsize args))
  | TOp _ args | TPOp _ _ args => S (list_sum (map tsize args))
  | TBind _ _ body => S (tsize body)
  | TLet bs body => S (list_sum (map (fun p => tsize (snd p)) bs) + tsize body)
  end.
Definition peq_fuel (a b : term) : nat := S (tsize a + tsize b).
(** Polyeq::eq on two terms with a fresh comparator *)
Definition peq (c : pcfg) (a b : term) : outcome bool :=
  do r <- eq_rc (eq_term_fuel c (peq_fuel a b)) a b (st_new c) ; ROk (fst r).
(** polyeq.rs:53-55 *)
Definition cfg_polyeq : pcfg := {| p_reorder := true; p_alpha := false; p_nary := false |}.
Definition polyeq : term -> term -> outcome bool := peq cfg_polyeq.
(** polyeq.rs:65-70 *)
Definition cfg_alpha : pcfg := {| p_reorder := true; p_alpha := true; p_nary := false |}.
Definition alpha_equiv : term -> term -> outcome bool := peq cfg_alpha.
(** the comparison of [assume] terms, checker/shared.rs:55 *)
Definition cfg_assume : pcfg := {| p_reorder := true; p_alpha := false; p_nary := true |}.
Definition assume_eq : term -> term -> outcome bool := peq cfg_assume.
(** assert_polyeq, checker/rules/mod.rs:127-132 *)
Definition assert_polyeq (a b : term) : outcome unit := do r <- polyeq a b ; rassert r.
