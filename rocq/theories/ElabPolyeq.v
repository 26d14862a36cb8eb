(** Elaboration of polyequal terms (elaborator/polyeq.rs, without alpha equivalence) and of assumptions (elaborator/mod.rs:203-249). *)
From Coq Require Import List String ZArith Bool Arith Lia.
From Verif Require Import Base Term Sem Rules Utils Checker Polyeq Elab.
Import ListNotations.
Open Scope string_scope.
Local Open Scope nat_scope.
Local Open Scope list_scope.

Section Polyeq.
  (** The cache of the elaborator (polyeq.rs:9, 36-46) only shares nodes, except that an equality which was derived before outside of the subproof is copied
      into the subproof by a reordering step (365-380).  [seen d a b]: the equality of [a] and [b] has been derived at a depth below [d]. *)
  Variable seen : nat -> term -> term -> bool.
  Section Rec.
    (** [elaborate] at a depth, with less fuel *)
    Variable rec : nat -> term -> term -> outcome enode.
    (** the premises for the arguments that differ, 230-240 and 160-172 *)
    Fixpoint diff_premises (d : nat) (l : list (term * term)) : outcome (list enode) :=
      match l with
      | [] => ROk []
      | (a, b) :: r =>
          if term_eqb a b then diff_premises d r
          else do n <- rec d a b ; do ns <- diff_premises d r ; ROk (n :: ns)
      end.
    (** build_cong, 222-251 *)
    Definition build_cong (d : nat) (a b : term) (la lb : list term) : outcome enode :=
      do ps <- diff_premises d (combine la lb) ; ROk (EStep [tEq a b] "cong" ps []).
    (** flip_equality, 253-319 *)
    Definition flip_equality (d : nat) (a al ar b bl br : term) : outcome enode :=
      if term_eqb al br && term_eqb ar bl then ROk (EStep [tEq a b] "eq_symmetric" [] [])
      else
        do cong_step <- build_cong d a (tEq br bl) [al; ar] [br; bl] ;
        add_trans [cong_step; EStep [tEq (tEq br bl) b] "eq_symmetric" [] []].
    (** create_bind_subproof, 347-381 *)
    Definition bind_body (d : nat) (a b : term) : outcome enode :=
      do inner <- rec d a b ;
      ROk (if match inner with EStep _ _ _ _ => negb (seen d a b) | _ => false end then inner else EStep [tEq a b] "reordering" [inner] []).
    (** get_assoc_premises, 434-475: the premises and the arguments; the recursion is on the n-ary arguments *)
    Fixpoint assoc_premises_right (d : nat) (o : op) (nary : list term) (binary : term) : outcome (list enode * list term) :=
      match nary with
      | [] => RPanic
      | [x] => if term_eqb x binary then ROk ([], [binary]) else do n <- rec d x binary ; ROk ([n], [binary])
      | x :: rest =>
          match op2 o binary with
          | Some (h, t) =>
              do ps <- (if term_eqb x h then ROk [] else do n <- rec d x h ; ROk [n]) ;
              do r <- assoc_premises_right d o rest t ;
              ROk (ps ++ fst r, snd r ++ [h])
          | None => RPanic
          end
      end.
    (** left associative operators: the arguments are taken from the end; [nary] is reversed here *)
    Fixpoint assoc_premises_left (d : nat) (o : op) (nary : list term) (binary : term) : outcome (list enode * list term) :=
      match nary with
      | [] => RPanic
      | [x] => if term_eqb x binary then ROk ([], [binary]) else do n <- rec d x binary ; ROk ([n], [binary])
      | x :: rest =>
          match op2 o binary with
          | Some (t, h) =>
              do ps <- (if term_eqb x h then ROk [] else do n <- rec d x h ; ROk [n]) ;
              do r <- assoc_premises_left d o rest t ;
              ROk (ps ++ fst r, snd r ++ [h])
          | None => RPanic
          end
      end.
    (** elaborate_assoc, 383-432 *)
    Definition elab_assoc (d : nat) (o : op) (nary : list term) (binary : term) : outcome enode :=
      passert (is_left o || is_right o) ;;
      do r <- (if is_right o then assoc_premises_right d o nary binary else assoc_premises_left d o (rev nary) binary) ;
      let (ps, norm) := (r : list enode * list term) in
      match ps with
      | [] => ROk (EStep [tEq (TOp o nary) binary] "nary_elim" [] [])
      | _ =>
          let normalized := TOp o (if is_right o then rev norm else norm) in
          add_trans [EStep [tEq (TOp o nary) normalized] "cong" ps []; EStep [tEq normalized binary] "nary_elim" [] []]
      end.
    (** the test of 56-64; the comparator's cache does not change the result *)
    Definition flip_case (a b : term) : outcome (option (term * term * term * term)) :=
      match op2 OEquals a, op2 OEquals b with
      | Some (al, ar), Some (bl, br) =>
          do x <- polyeq al br ;
          if x then do y <- polyeq ar bl ; ROk (if y then Some (al, ar, bl, br) else None) else ROk None
      | _, _ => ROk None
      end.
    Definition is_quant (b : binder) : bool := match b with BForall | BExists => true | _ => false end.
    Definition is_constant (t : term) : bool := match t with TConst _ => true | _ => false end.
    Definition hd_sort (vs : list (string * sort)) : list anchor := map AVar vs ++ map (fun v => AAssign v (TVar (fst v) (snd v))) vs.
    (** elaborate_impl, 48-208; the order of the cases for terms of different kinds does not matter, all of them panic *)
    Definition pelab1 (d : nat) (a b : term) : outcome enode :=
      if term_eqb a b then ROk (EStep [tEq a b] "refl" [] [])
      else
        do fl <- flip_case a b ;
        match fl with
        | Some (al, ar, bl, br) => flip_equality d a al ar b bl br
        | None =>
            match a, b with
            | TApp f la, TApp g lb => passert (term_eqb f g) ;; passert (List.length la =? List.length lb) ;; build_cong d a b la lb
            | TOp oa la, TOp ob lb =>
                if negb (op_eqb oa ob) then RPanic
                else if negb (List.length la =? List.length lb) then
                  if List.length la =? 2 then passert (2 <? List.length lb) ;; elab_assoc d oa lb a
                  else if List.length lb =? 2 then passert (2 <? List.length la) ;; elab_assoc d oa la b
                  else RPanic
                else build_cong d a b la lb
            | TBind qa va ta, TBind qb vb tb =>
                if negb (is_quant qa) || negb (is_quant qb) then RPanic
                else
                  passert (binder_beq qa qb) ;; passert (list_eqb svar_eqb va vb) ;;
                  do prev <- bind_body (S d) ta tb ;
                  ROk (ESub (hd_sort va) [tEq a b] "bind" [] [] prev)
            | TLet la ta, TLet lb tb =>
                passert (List.length la =? List.length lb) ;;
                passert (forallb (fun e => String.eqb (fst (fst e)) (fst (snd e))) (combine la lb)) ;;
                do ps <- diff_premises d (map (fun e => (snd (fst e), snd (snd e))) (combine la lb)) ;
                do prev <- bind_body (S d) ta tb ;
                ROk (ESub (map (fun p => AVar (fst p, sort_of (snd p))) la) [tEq a b] "bind_let" ps [] prev)
            | _, _ =>
                if is_constant a || is_constant b
                then do e <- polyeq a b ; if e then ROk (EStep [tEq a b] "refl" [] []) else RPanic
                else RPanic
            end
        end.
  End Rec.
  Fixpoint pelab_fuel (n d : nat) (a b : term) : outcome enode :=
    match n with 0 => RErr | S n => pelab1 (pelab_fuel n) d a b end.
  Definition pelab (d : nat) (a b : term) : outcome enode := pelab_fuel (S (tsize a + tsize b)) d a b.

  (** elaborate_assume, mod.rs:203-249; [depth] of the assumption *)
  Fixpoint find_premise (t : term) (ps : list term) : outcome term :=
    match ps with
    | [] => RPanic
    | p :: r => do e <- assume_eq t p ; if e then ROk p else find_premise t r
    end.
  Definition elab_assume (prems : list term) (d : nat) (t : term) : outcome enode :=
    do p <- find_premise t prems ;
    do eqs <- pelab d p t ;
    ROk (EStep [t] "resolution" [EPrem [p]; EStep [tNot p; t] "equiv1" [eqs] []] [p; tTrue]).
End Polyeq.

(** ** Equality up to flipping equalities, without a cache *)
Definition all2 {A B} (f : A -> B -> bool) : list A -> list B -> bool :=
  fix go l r := match l, r with x :: l, y :: r => f x y && go l r | _, _ => true end.
Fixpoint feq (a b : term) {struct a} : bool :=
  term_eqb a b ||
  match a, b with
  | TApp f la, TApp g lb => feq f g && (List.length la =? List.length lb) && all2 feq la lb
  | TOp oa la, TOp ob lb =>
      op_eqb oa ob && (List.length la =? List.length lb) && all2 feq la lb ||
      match la, lb with
      | [a1; a2], [b1; b2] => op_eqb oa OEquals && op_eqb ob OEquals && feq a1 b2 && feq a2 b1
      | _, _ => false
      end
  | TPOp o oa la, TPOp o' ob lb => pop_beq o o' && list_eqb term_eqb oa ob && (List.length la =? List.length lb) && all2 feq la lb
  | TBind q va ta, TBind q' vb tb => binder_beq q q' && list_eqb svar_eqb va vb && feq ta tb
  | TLet la ta, TLet lb tb =>
      (List.length la =? List.length lb) && all2 (fun p q => String.eqb (fst p) (fst q) && feq (snd p) (snd q)) la lb && feq ta tb
  | _, _ => false
  end.
