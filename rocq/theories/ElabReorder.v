(** The last passes over a whole proof: uncrowding (mod.rs:114-124) and the removal of reordering steps (elaborator/reordering.rs), with
    mutate, mod.rs:330-430.  The proof is a tree whose leaves are assumptions. *)
From Coq Require Import List String ZArith Bool Arith Lia Permutation.
From Verif Require Import Base Term Sem Rules R_Resolution R_Extras R_ResExact Utils Checker Elab ElabRes ElabUncrowd.
Import ListNotations.
Open Scope string_scope.
Local Open Scope nat_scope.
Local Open Scope list_scope.

(** mutate_impl, 343-430: the premises first, then the step.  [changed] compares addresses, and every step is put in a new [Rc] (395-401) even
    if nothing in it changes: so all steps and subproofs are changed and only assumptions are not.  The last step of a subproof is left alone (its rule
    is none of those treated by the two passes). *)
Definition is_leaf (n : enode) : bool := match n with EPrem _ => true | _ => false end.
Section Pass.
  Variable f : clause -> string -> list enode -> list term -> bool -> outcome enode.
  Fixpoint pass (n : enode) : outcome enode :=
    match n with
    | EPrem c => ROk (EPrem c)
    | EStep c r ps args =>
        do ps' <- (fix all (l : list enode) := match l with [] => ROk [] | x :: l => do y <- pass x ; do k <- all l ; ROk (y :: k) end) ps ;
        f c r ps' args (negb (forallb is_leaf ps))
    | ESub a c r ps args prev =>
        do ps' <- (fix all (l : list enode) := match l with [] => ROk [] | x :: l => do y <- pass x ; do k <- all l ; ROk (y :: k) end) ps ;
        do prev' <- pass prev ;
        ROk (ESub a c r ps' args prev')
    end.
  Lemma pass_all (l : list enode) :
    (fix all (l : list enode) := match l with [] => ROk [] | x :: l => do y <- pass x ; do k <- all l ; ROk (y :: k) end) l = omap pass l.
  Proof. induction l as [|x l IH]; [reflexivity|]. cbn [omap]. rewrite IH. reflexivity. Qed.
  Lemma pass_step c r ps args : pass (EStep c r ps args) = (do ps' <- omap pass ps ; f c r ps' args (negb (forallb is_leaf ps))).
  Proof. cbn [pass]. rewrite pass_all. reflexivity. Qed.
  Lemma pass_sub a c r ps args prev : pass (ESub a c r ps args prev) = (do ps' <- omap pass ps ; do prev' <- pass prev ; ROk (ESub a c r ps' args prev')).
  Proof. cbn [pass]. rewrite pass_all. reflexivity. Qed.
End Pass.

(** ** uncrowding, mod.rs:114-124 *)
Definition is_res (r : string) : bool := String.eqb r "resolution" || String.eqb r "th_resolution".
Definition uncrowd_step (c : clause) (r : string) (ps : list enode) (args : list term) (_ : bool) : outcome enode :=
  match args with
  | [] => ROk (EStep c r ps args)
  | _ => if is_res r then uncrowd c ps args else ROk (EStep c r ps args)
  end.
Definition uncrowd_pass : enode -> outcome enode := pass uncrowd_step.

(** ** reordering.rs *)
(** apply_naive_resolution, 68-101 ([is_pivot] holds of one term) *)
Fixpoint trm1 (x : term) (l : list term) : option (list term) :=
  match l with
  | [] => None
  | y :: r => if term_eqb y x then Some r else match trm1 x r with Some r' => Some (y :: r') | None => None end
  end.
Definition tcur (p : term) (b : bool) : term := if b then p else tNot p.
Definition tnext (p : term) (b : bool) : term := if b then tNot p else p.
Fixpoint tnaive (cur : list term) (l : list (clause * (term * bool))) : outcome (list term) :=
  match l with
  | [] => ROk cur
  | (D, (p, b)) :: r =>
      do cur1 <- unwrap (trm1 (tcur p b) cur) ;
      do nxt <- unwrap (trm1 (tnext p b) D) ;
      tnaive (cur1 ++ nxt) r
  end.
(** recompute_resolution, 54-66; [chunk[1]] panics *)
Fixpoint term_pivots (args : list term) : outcome (list (term * bool)) :=
  match args with
  | [] => ROk []
  | [_] => RPanic
  | t :: u :: r => do l <- term_pivots r ; ROk ((t, is_true u) :: l)
  end.
Definition recompute_resolution (ps : list clause) (args : list term) : outcome clause :=
  do pv <- term_pivots args ;
  match ps with
  | p0 :: ((_ :: _) as rest) => passert (List.length pv =? List.length rest) ;; tnaive p0 (combine rest pv)
  | _ => RPanic
  end.
(** recompute_weakening, 41-46 *)
Definition recompute_weakening (c : clause) (ps : list clause) : outcome clause :=
  do p <- idx ps 0 ; passert (List.length p <=? List.length c) ;; ROk (p ++ skipn (List.length p) c).
(** recompute_contraction, 48-52 *)
Definition recompute_contraction (c : clause) (ps : list clause) : outcome clause :=
  do p <- idx ps 0 ; let d := Utils.dedup term_eqb p in passert (List.length c =? List.length d) ;; ROk d.
(** remove_reorderings, 4-29 *)
Definition reorder_step (c : clause) (r : string) (ps : list enode) (args : list term) (changed : bool) : outcome enode :=
  if String.eqb r "reordering" then idx ps 0
  else if changed then
    if String.eqb r "weakening" then do d <- recompute_weakening c (map eclause ps) ; ROk (EStep d r ps args)
    else if String.eqb r "contraction" then do d <- recompute_contraction c (map eclause ps) ; ROk (EStep d r ps args)
    else if is_res r || String.eqb r "strict_resolution" then do d <- recompute_resolution (map eclause ps) args ; ROk (EStep d r ps args)
    else ROk (EStep c r ps args)
  else ROk (EStep c r ps args).
Definition reorder_pass : enode -> outcome enode := pass reorder_step.
