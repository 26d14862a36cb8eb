(** The elaborator: nodes of an elaborated proof, acceptance by the checker in elaborated mode, and the
    elaboration of trans, eq_transitive, cong and eq_congruent steps (elaborator/transitivity.rs, congruence.rs). *)
From Coq Require Import List String ZArith Bool Arith Lia Permutation.
From Verif Require Import Base Term Sem Rules R_Taut R_Claus R_Eq R_Resolution R_Extras R_ResExact Utils Checker R_Binder R_Simp Table.
Import ListNotations.
Open Scope string_scope.
Local Open Scope nat_scope.
Local Open Scope list_scope.

(** ProofNode, ast/node.rs.  [EPrem] is a node of the proof under elaboration, of which only the clause matters; ids and depths are left out (see
    ElabIds.v for ids), sharing of nodes as well: a node is the tree below it.  [ESub]: a subproof with its anchor's arguments, the clause, rule,
    premises and arguments of its last step, and the step before it ([previous_step]). *)
Inductive enode : Type :=
| EPrem (c : clause)
| EStep (c : clause) (r : string) (ps : list enode) (args : list term)
| ESub (a : list anchor) (c : clause) (r : string) (ps : list enode) (args : list term) (prev : enode).
Definition eclause (n : enode) : clause := match n with EPrem c => c | EStep c _ _ _ => c | ESub _ c _ _ _ _ => c end.

(** What the checker does with the steps of a node in elaborated mode: every rule accepts. *)
Section Accepted.
  Variable other : bool -> string -> crule.
  Definition run (name : string) (ra : rargs) : Prop := exists f, rule_table other true name = Some f /\ f ra = ROk tt.
  Fixpoint accepted (cx : list (list anchor)) (n : enode) : Prop :=
    match n with
    | EPrem _ => True
    | EStep c r ps args =>
        run r (mkRA c (map eclause ps) args cx None []) /\
        (fix all (l : list enode) : Prop := match l with [] => True | x :: l => accepted cx x /\ all l end) ps
    | ESub a c r ps args prev =>
        run r (mkRA c (map eclause ps) args (a :: cx) (Some (eclause prev)) []) /\
        (fix all (l : list enode) : Prop := match l with [] => True | x :: l => accepted cx x /\ all l end) ps /\
        accepted (a :: cx) prev
    end.
  Lemma accepted_all cx l :
    (fix all (l : list enode) : Prop := match l with [] => True | x :: l => accepted cx x /\ all l end) l <-> Forall (accepted cx) l.
  Proof.
    induction l as [|x l IH]; [split; [constructor|auto]|]. rewrite IH. split.
    - intros [H1 H2]. constructor; auto.
    - intros H. inversion H; auto.
  Qed.
  Lemma accepted_step cx c r ps args :
    accepted cx (EStep c r ps args) <-> run r (mkRA c (map eclause ps) args cx None []) /\ Forall (accepted cx) ps.
  Proof. cbn [accepted]. rewrite accepted_all. reflexivity. Qed.
  Lemma accepted_sub cx a c r ps args prev :
    accepted cx (ESub a c r ps args prev) <->
    run r (mkRA c (map eclause ps) args (a :: cx) (Some (eclause prev)) []) /\ Forall (accepted cx) ps /\ accepted (a :: cx) prev.
  Proof. cbn [accepted]. rewrite accepted_all. reflexivity. Qed.

  (** the rules of the steps that the elaborator introduces *)
  Definition intro_rules : list (string * rule) :=
    [("trans", r_trans); ("symm", r_symm); ("eq_symmetric", r_eq_symmetric); ("eq_transitive", r_eq_transitive); ("cong", r_cong);
     ("eq_congruent", r_eq_congruent); ("equiv1", r_equiv1); ("equiv2", r_equiv2); ("weakening", r_weakening);
     ("reordering", r_reordering); ("contraction", r_contraction); ("not_not", r_not_not); ("true", r_true);
     ("resolution", r_resolution_with_args); ("th_resolution", r_resolution_with_args); ("strict_resolution", r_strict_resolution);
     ("and_intro", r_and_intro); ("nary_elim", r_nary_elim)].
  Lemma run_plain name r ra : In (name, r) intro_rules -> run name ra <-> r (ra_concl ra) (ra_prems ra) (ra_args ra) = ROk tt.
  Proof.
    intros H. assert (Ht : rule_table other true name = Some (plain r)).
    { unfold intro_rules in H. repeat (destruct H as [H|H]; [injection H as <- <-; reflexivity|]). destruct H. }
    unfold run. rewrite Ht. split.
    - intros (f & E & H'). injection E as <-. exact H'.
    - intros H'. exists (plain r). split; [reflexivity|exact H'].
  Qed.
  Lemma run_refl ra : run "refl" ra <-> r_strict_refl ra = ROk tt.
  Proof.
    unfold run. assert (Ht : rule_table other true "refl" = Some r_strict_refl) by reflexivity. rewrite Ht. split.
    - intros (f & E & H'). injection E as <-. exact H'.
    - eauto.
  Qed.
End Accepted.

(** assert! *)
Definition passert (b : bool) : outcome unit := if b then ROk tt else RPanic.

(** add_symm_step, elaborator/mod.rs:267-281 *)
Definition add_symm (n : enode) : outcome enode :=
  match eclause n with
  | [t] => match op2 OEquals t with Some (a, b) => ROk (EStep [tEq b a] "symm" [n] []) | None => RPanic end
  | _ => RPanic
  end.
(** add_trans_step, elaborator/mod.rs:283-303 *)
Definition add_trans (ns : list enode) : outcome enode :=
  do f <- idx ns 0 ; do l <- unwrap (nth_error ns (List.length ns - 1)) ;
  do t <- idx (eclause f) 0 ; do u <- idx (eclause l) 0 ;
  match op2 OEquals t, op2 OEquals u with
  | Some (a, _), Some (_, b) => ROk (EStep [tEq a b] "trans" ns [])
  | _, _ => RPanic
  end.

(** find_and_trace_chain, transitivity.rs:4-47.  The premises are paired with what is reordered along with them; [swap(i, found)] and going on with
    [i + 1..] is [swap_tail] on the premises from [i] on.  The result: the premises of the chain in order, each with the
    flag for flipping, the premises that are not needed, and whether some swap was needed. *)
Fixpoint find_eq3 (a : term) (ps : list (term * term)) : option (nat * term * bool) :=
  match ps with
  | [] => None
  | (t, u) :: r =>
      if term_eqb t a then Some (0, u, false)
      else if term_eqb u a then Some (0, t, true)
      else match find_eq3 a r with Some (i, x, f) => Some (S i, x, f) | None => None end
  end.
Section Chain.
  Context {X : Type}.
  Notation item := ((term * term) * X)%type.
  Fixpoint trace_chain (fuel : nat) (a b : term) (ps : list item) : outcome (list (item * bool) * list item * bool) :=
    if term_eqb a b then ROk ([], ps, false) else
    match find_eq3 a (map fst ps) with
    | None => RErr
    | Some (i, x, fl) =>
        match fuel, nth_error ps i with
        | S f, Some e =>
            do r <- trace_chain f x b (swap_tail i ps) ;
            ROk ((e, fl) :: fst (fst r), snd (fst r), negb (Nat.eqb i 0) || snd r)
        | _, _ => RPanic
        end
    end.
End Chain.

(** trans, transitivity.rs:49-87 *)
Definition elab_trans (c : clause) (ps : list enode) (args : list term) : outcome enode :=
  passert (Nat.eqb (List.length c) 1) ;;
  do x <- idx c 0 ; do p <- m_op2 OEquals x ;
  do qs <- omap (fun n => match eclause n with [t] => m_op2 OEquals t | _ => RPanic end) ps ;
  do r <- trace_chain (List.length ps) (fst p) (snd p) (combine qs ps) ;
  do ps' <- omap (fun e : ((term * term) * enode) * bool => if snd e then add_symm (snd (fst e)) else ROk (snd (fst e))) (fst (fst r)) ;
  ROk (EStep c "trans" ps' args).

(** flip_eq_transitive_premises, transitivity.rs:184-254: [(equiv2 step, pivot, introduced literal)] of an equality
    [(= a b)] whose negation is in the new clause *)
Definition flip_step (ab : term * term) : enode * term * term :=
  let (a, b) := ab in
  let s := EStep [tEq (tEq a b) (tEq b a)] "eq_symmetric" [] [] in
  (EStep [tEq a b; tNot (tEq b a)] "equiv2" [s] [], tEq a b, tNot (tEq b a)).
Definition swap_pair (p : term * term) : term * term := (snd p, fst p).
Definition flip_premises (lits_ : list ((term * term) * bool)) (concl : term) (step : enode) : enode :=
  let fs := map (fun e => flip_step (fst e)) (filter snd lits_) in
  EStep ((map (fun e => tNot (tEq (fst (fst e)) (snd (fst e)))) (filter (fun e => negb (snd e)) lits_) ++ [concl]) ++ map snd fs)
    "resolution" (step :: map (fun f => fst (fst f)) fs) (flat_map (fun f => [snd (fst f); tFalse]) fs).

(** eq_transitive, transitivity.rs:89-182.  [used]: the equalities of the new clause, after flipping *)
Definition elab_eq_transitive (c : clause) (args : list term) : outcome enode :=
  passert (Nat.ltb 2 (List.length c)) ;;
  do l <- unwrap (nth_error c (List.length c - 1)) ;
  do p <- m_op2 OEquals l ;
  let lits_ := firstn (List.length c - 1) c in
  do ps <- omap not_eq lits_ ;
  do r <- trace_chain (List.length ps) (fst p) (snd p) (combine ps lits_) ;
  let chain_ := fst (fst r) in
  let rest := snd (fst r) in
  if negb (snd r) && Nat.eqb (List.length rest) 0 && forallb (fun e => negb (snd e)) chain_
  then ROk (EStep c "eq_transitive" [] args)
  else
    let used := map (fun e : ((term * term) * term) * bool => (if snd e then swap_pair (fst (fst e)) else fst (fst e), snd e)) chain_ in
    let new_step := EStep (map (fun e => tNot (tEq (fst (fst e)) (snd (fst e)))) used ++ [l]) "eq_transitive" [] [] in
    let latest := if forallb (fun e => negb (snd e)) used then new_step else flip_premises used l new_step in
    let latest := match rest with [] => latest | _ => EStep (eclause latest ++ map snd rest) "weakening" [latest] [] end in
    ROk (EStep c "reordering" [latest] []).

(** ** congruence.rs *)
(** check_cong, congruence.rs:29-62, with the flags for flipping *)
Fixpoint check_cong_f (ps : list (term * term)) (fa ga : list term) : option (list bool) :=
  match fa, ga with
  | f :: fr, g :: gr =>
      match ps with
      | (t, u) :: pr =>
          if term_eqb f t && term_eqb g u then option_map (cons false) (check_cong_f pr fr gr)
          else if term_eqb f u && term_eqb g t then option_map (cons true) (check_cong_f pr fr gr)
          else if term_eqb f g then check_cong_f ps fr gr else None
      | [] => if term_eqb f g then check_cong_f ps fr gr else None
      end
  | _, _ => match ps with [] => Some [] | _ => None end
  end.
Definition is_some {A} (o : option A) : bool := match o with Some _ => true | None => false end.
(** term_args, 64-69 *)
Definition term_args (t : term) : outcome (list term) :=
  match t with TApp _ a | TOp _ a | TPOp _ _ a => ROk a | _ => RPanic end.
(** [match_term!((= a b) = p.clause()[0]).unwrap()] *)
Definition prem_pair (n : enode) : outcome (term * term) := do t <- idx (eclause n) 0 ; unwrap (op2 OEquals t).
(** flip_needed_premises, 101-132, for a step with conclusion [c], which is a single equality *)
Definition flip_needed (c : clause) (ps : list enode) (args : list term) : outcome enode :=
  do x <- idx c 0 ; do p <- unwrap (op2 OEquals x) ;
  do fa <- term_args (fst p) ; do ga <- term_args (snd p) ;
  do qs <- omap prem_pair ps ;
  match check_cong_f qs fa ga with
  | None => RPanic
  | Some fl =>
      if existsb (fun b => b) fl then
        do ps' <- omap (fun e : enode * bool => if snd e then add_symm (fst e) else ROk (fst e)) (combine ps fl) ;
        ROk (EStep c "cong" ps' args)
      else ROk (EStep c "cong" ps args)
  end.
(** elaborate_cong_between_equalities, 134-208 *)
Definition eq_symm_step (a b : term) : enode := EStep [tEq (tEq a b) (tEq b a)] "eq_symmetric" [] [].
Definition elab_cong_eqs (c : clause) (ps : list enode) (args : list term) (f1 f2 g1 g2 : term) : outcome enode :=
  passert (Nat.leb (List.length ps) 2) ;;
  if term_eqb f1 g2 && term_eqb f2 g1 then ROk (EStep c "eq_symmetric" [] args)
  else
    do qs <- omap prem_pair ps ;
    if is_some (check_cong_f qs [f1; f2] [g1; g2]) then flip_needed c ps args
    else if is_some (check_cong_f qs [f2; f1] [g1; g2]) then
      do n <- flip_needed [tEq (tEq f2 f1) (tEq g1 g2)] ps [] ;
      add_trans [eq_symm_step f1 f2; n]
    else if is_some (check_cong_f qs [f1; f2] [g2; g1]) then
      do n <- flip_needed [tEq (tEq f1 f2) (tEq g2 g1)] ps [] ;
      add_trans [n; eq_symm_step g2 g1]
    else if is_some (check_cong_f qs [f2; f1] [g2; g1]) then
      passert (Nat.eqb (List.length ps) 2) ;; flip_needed c (rev ps) args
    else RPanic.
(** cong, 71-99 *)
Definition elab_cong (c : clause) (ps : list enode) (args : list term) : outcome enode :=
  passert (Nat.eqb (List.length c) 1) ;; passert (negb (Nat.eqb (List.length ps) 0)) ;;
  do x <- idx c 0 ; do p <- m_op2 OEquals x ;
  if term_eqb (fst p) (snd p) then ROk (EStep c "refl" [] args)
  else match op2 OEquals (fst p), op2 OEquals (snd p) with
       | Some (f1, f2), Some (g1, g2) => elab_cong_eqs c ps args f1 f2 g1 g2
       | _, _ => flip_needed c ps args
       end.

(** MultiSet::remove, utils.rs:219-232, and into_iter (252-): the keys in order, each as often as its count *)
Definition ms_remove (m : list (term * nat)) (t : term) : list (term * nat) :=
  if Nat.leb (ms_get term_eqb m t) 1 then im_swap_remove term_eqb m t else im_insert term_eqb m t (ms_get term_eqb m t - 1).
Definition ms_items (m : list (term * nat)) : list term := flat_map (fun e => repeat (fst e) (snd e)) m.
(** congruence.rs:341-347 and get_weakening_clause, uncrowding.rs:201-215: [None] is the failed assertion *)
Fixpoint missing_terms (m : list (term * nat)) (cur : list term) : option (list (term * nat)) :=
  match cur with
  | [] => Some m
  | t :: r => if Nat.eqb (ms_get term_eqb m t) 0 then None else missing_terms (ms_remove m t) r
  end.
Definition weakened (cur target : list term) : outcome (list term) :=
  match missing_terms (ms_of term_eqb target) cur with
  | Some m => ROk (cur ++ ms_items m)
  | None => RPanic
  end.

(** eq_congruent, congruence.rs:210-383 *)
Definition pair_eqb (p q : term * term) : bool := term_eqb (fst p) (fst q) && term_eqb (snd p) (snd q).
Definition sym_step (ut : term * term) : enode * term :=
  let (u, t) := ut in
  (EStep [tNot (tEq u t); tEq t u] "equiv1" [EStep [tEq (tEq u t) (tEq t u)] "eq_symmetric" [] []] [], tEq t u).
Definition elab_eq_congruent (c : clause) (args : list term) : outcome enode :=
  passert (Nat.leb 2 (List.length c)) ;;
  let prem_lits := firstn (List.length c - 1) c in
  do ps <- omap (fun t => unwrap (match remove_negation t with Some x => op2 OEquals x | None => None end)) prem_lits ;
  do l <- unwrap (nth_error c (List.length c - 1)) ;
  do p <- m_op2 OEquals l ;
  do fa <- term_args (fst p) ; do ga <- term_args (snd p) ;
  match check_cong_f ps fa ga with
  | None => RPanic
  | Some fl =>
      if negb (existsb (fun b => b) fl) then ROk (EStep c "eq_congruent" [] args)
      else
        let fixed := map (fun e : (term * term) * bool => let q := if snd e then swap_pair (fst e) else fst e in tNot (tEq (fst q) (snd q))) (combine ps fl) ++ [l] in
        let contracted := Utils.dedup term_eqb fixed in
        let s1 := EStep fixed "eq_congruent" [] [] in
        let s2 := if Nat.eqb (List.length contracted) (List.length fixed) then s1 else EStep contracted "contraction" [s1] [] in
        let flips := set_of pair_eqb (map fst (filter snd (combine ps fl))) in
        let syms := map sym_step flips in
        let flags := combine c (fl ++ [false]) in
        let rc := Utils.dedup term_eqb (map fst (filter (fun e : term * bool => negb (snd e)) flags) ++ map fst (filter snd flags)) in
        let s3 := EStep rc "resolution" (s2 :: map fst syms) (flat_map (fun s : enode * term => [snd s; tFalse]) syms) in
        do s4 <- (if Nat.eqb (List.length c) (List.length rc) then ROk s3
                  else do w <- weakened rc c ; ROk (EStep w "weakening" [s3] [])) ;
        ROk (EStep c "reordering" [s4] [])
  end.
