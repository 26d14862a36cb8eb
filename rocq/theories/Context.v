(** The context stack of the checker (carcara/src/ast/context.rs): the substitution of the open anchors. *)
From Coq Require Import List String ZArith Bool Arith Lia.
From Verif Require Import Base Term Field Sem Utils R_Simp Subst Checker.
Import ListNotations.
Local Open Scope string_scope.

(** ast/context.rs:5-16 [Context]. Here, innermost first, the open contexts of one thread. [context_vec], [stack] and
    [num_cumulative_calculated] (24-42) are represented together: with one thread the contexts whose cumulative
    substitution is there are the [num_cumulative_calculated] outermost ones. *)
Record level : Type := mkLv { lv_args : list anchor; lv_sub : option sub }.
Definition cstack : Type := list level.
(** 106-126 [push]: nothing is calculated yet; 128-147 [pop] *)
Definition ctx_push (st : cstack) (a : list anchor) : cstack := mkLv a None :: st.
Definition ctx_pop (st : cstack) : cstack := tl st.

(** 180-197: one argument of an anchor. The flag is the one of [apply], see Subst.v. [insert] fails on different sorts,
    which is unwrapped here. *)
Definition add_arg (S : sub) (a : anchor) : outcome (sub * bool) :=
  match a with
  | AVar (x, s) => ROk (sub_remove S (TVar x s), true)
  | AAssign (x, s) t =>
      do r <- sub_apply S t ;
      let '(t', S1, ok) := r in
      if sort_eqb s (sort_of t') then ROk (sub_insert S1 (TVar x s) t', ok) else RPanic
  end.
Fixpoint add_args (S : sub) (l : list anchor) : outcome (sub * bool) :=
  match l with
  | [] => ROk (S, true)
  | a :: r =>
      do x <- add_arg S a ;
      let (S1, ok1) := x in
      do y <- add_args S1 r ;
      let (S2, ok2) := y in ROk (S2, ok1 && ok2)
  end.
(** 149-204 catch_up_cumulative: the substitution of the enclosing context is cloned, with its cache *)
Definition top_sub (st : cstack) : sub :=
  match st with mkLv _ (Some sg) :: _ => sg | _ => sub_empty end.
Fixpoint catch_up (st : cstack) : outcome cstack :=
  match st with
  | [] => ROk []
  | mkLv a (Some sg) :: r => ROk (mkLv a (Some sg) :: r)
  | mkLv a None :: r =>
      do r' <- catch_up r ;
      do x <- add_args (top_sub r') a ;
      ROk (mkLv a (Some (fst x)) :: r')
  end.
(** 225-242 [apply]; the cache of the substitution is updated *)
Definition ctx_apply (st : cstack) (t : term) : outcome (term * cstack) :=
  match st with
  | [] => ROk (t, [])
  | _ =>
      do st1 <- catch_up st ;
      match st1 with
      | mkLv a (Some sg) :: r =>
          do x <- sub_apply sg t ;
          let '(t', S', _) := x in ROk (t', mkLv a (Some S') :: r)
      | _ => RPanic
      end
  end.
(** 206-223 [apply_previous]: all contexts are calculated, the last but one is used *)
Definition ctx_apply_prev (st : cstack) (t : term) : outcome (term * cstack) :=
  match st with
  | [] | [_] => ROk (t, st)
  | _ =>
      do st1 <- catch_up st ;
      match st1 with
      | lv :: mkLv a (Some sg) :: r =>
          do x <- sub_apply sg t ;
          let '(t', S', _) := x in ROk (t', lv :: mkLv a (Some S') :: r)
      | _ => RPanic
      end
  end.

(** what the checker does to its context stack: opening and closing of subproofs, and applications by the rules *)
Inductive cop : Type := OpPush (a : list anchor) | OpPop | OpApply (t : term) | OpApplyPrev (t : term).
(** the results of the applications, in order *)
Fixpoint ctx_run (st : cstack) (ops : list cop) : outcome (list term) :=
  match ops with
  | [] => ROk []
  | OpPush a :: r => ctx_run (ctx_push st a) r
  | OpPop :: r => ctx_run (ctx_pop st) r
  | OpApply t :: r =>
      do x <- ctx_apply st t ;
      let (t', st') := x in do l <- ctx_run st' r ; ROk (t' :: l)
  | OpApplyPrev t :: r =>
      do x <- ctx_apply_prev st t ;
      let (t', st') := x in do l <- ctx_run st' r ; ROk (t' :: l)
  end.
