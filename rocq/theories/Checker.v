(** The sequential proof checker: proof commands (ast/proof.rs), the proof iterator (ast/iter.rs),
    the main loop (checker/mod.rs) and the logic shared by both checkers (checker/shared.rs). *)
From Coq Require Import List String ZArith Bool Arith Lia.
From Verif Require Import Base Term Rules Polyeq.
Import ListNotations.

(** ast/proof.rs:65-73 [AnchorArg] *)
Inductive anchor : Type := AVar (v : sorted_var) | AAssign (v : sorted_var) (t : term).
(** ast/proof.rs:26-53 [ProofStep]. A premise is a pair (depth, index). *)
Record step : Type := mkStep {
  s_id : string; s_clause : clause; s_rule : string;
  s_prems : list (nat * nat); s_args : list term; s_disch : list (nat * nat) }.
(** ast/proof.rs:13-24 [ProofCommand] and 54-62 [Subproof] *)
Inductive command : Type :=
| CAssume (id : string) (t : term)
| CStep (s : step)
| CSub (cmds : list command) (args : list anchor) (context_id : nat).

Section CommandInd.
  Variable P : command -> Prop.
  Hypothesis Ha : forall id t, P (CAssume id t).
  Hypothesis Hs : forall s, P (CStep s).
  Hypothesis Hb : forall cs args k, Forall P cs -> P (CSub cs args k).
  Fixpoint command_ind' (c : command) : P c :=
    match c with
    | CAssume id t => Ha id t
    | CStep s => Hs s
    | CSub cs args k => Hb cs args k ((fix go l : Forall P l :=
        match l with [] => Forall_nil P | x :: r => Forall_cons x (command_ind' x) (go r) end) cs)
    end.
End CommandInd.

(** ast/proof.rs:109-115 [ProofCommand::clause]; [None] is the panic of [commands.last().unwrap()] *)
Fixpoint cmd_clause (c : command) : option clause :=
  match c with
  | CAssume _ t => Some [t]
  | CStep s => Some (s_clause s)
  | CSub cs _ _ => (fix lst l := match l with [] => None | [x] => cmd_clause x | _ :: r => lst r end) cs
  end.
(** ast/proof.rs:118-120 *)
Definition is_assume (c : command) : bool := match c with CAssume _ _ => true | _ => false end.

(** checker/rules/mod.rs:13-30 [RuleArgs]. The term pool, the timers and the rare rules are not part of
    the model's arguments; premises are represented by their clauses, the context by the anchor
    arguments of the open subproofs, innermost first. *)
Record rargs : Type := mkRA {
  ra_concl : clause; ra_prems : list clause; ra_args : list term;
  ra_ctx : list (list anchor); ra_prev : option clause; ra_disch : list command }.
Definition crule : Type := rargs -> outcome unit.
(** a rule which looks at nothing but conclusion, premises and arguments *)
Definition plain (r : rule) : crule := fun ra => r (ra_concl ra) (ra_prems ra) (ra_args ra).

(** checker/rules/subproof.rs:9-49 *)
Fixpoint disch_ok (ds : list command) (c : clause) : outcome unit :=
  match ds, c with
  | CAssume _ a :: ds, t :: c => do t' <- rm_neg t ; assert_polyeq a t' ;; disch_ok ds c
  | _ :: _, _ :: _ => RErr
  | _, _ => ROk tt
  end.
Definition subproof : crule := fun ra =>
  do prev <- ok_or (ra_prev ra) ;
  rassert (Nat.eqb (List.length (ra_concl ra)) (List.length (ra_disch ra) + 1)) ;;
  disch_ok (ra_disch ra) (ra_concl ra) ;;
  do phi <- (match prev with [] => ROk tFalse | [t] => ROk t | _ => RErr end) ;
  do l <- unwrap (nth_error (ra_concl ra) (List.length (ra_concl ra) - 1)) ;
  assert_polyeq l phi.

(** checker/mod.rs:52-66 *)
Record config : Type := mkCfg { elaborated : bool; ignore_unknown : bool; allowed : list string }.

(** ast/iter.rs:36-108: the iterator's stack of (next index, commands), innermost first. *)
Definition stack : Type := list (nat * list command).
(** ast/iter.rs:49-51 *)
Definition depth (s : stack) : nat := List.length s - 1.
(** ast/iter.rs:55-57 *)
Definition in_subproof (s : stack) : bool := Nat.ltb 0 (depth s).
(** ast/iter.rs:66-71 *)
Definition is_end_step (s : stack) : bool :=
  in_subproof s && match s with (i, cs) :: _ => Nat.eqb i (List.length cs) | [] => false end.
(** ast/iter.rs:75-77; out-of-range indices panic *)
Definition get_command (s : stack) (p : nat * nat) : outcome command :=
  do e <- unwrap (nth_error (rev s) (fst p)) ; unwrap (nth_error (snd e) (snd p)).
(** [Premise::new], checker/rules/mod.rs:40-48 *)
Definition get_premise (s : stack) (p : nat * nat) : outcome clause :=
  do c <- get_command s p ; unwrap (cmd_clause c).
(** ast/iter.rs:83-99 *)
Fixpoint iter_next (s : stack) : option (command * stack) :=
  match s with
  | [] => None
  | (i, cs) :: out =>
      match nth_error cs i with
      | None => match out with [] => None | _ => iter_next out end
      | Some c =>
          let s' := (S i, cs) :: out in
          Some (c, match c with CSub sub _ _ => (0, sub) :: s' | _ => s' end)
      end
  end.

(** checker/mod.rs:83-90 *)
Record cstate : Type := mkSt { st_ctx : list (list anchor); st_reached : bool; st_holey : bool }.
Definition set_holey (st : cstate) (b : bool) : cstate := mkSt (st_ctx st) (st_reached st) (st_holey st || b).
(** the initial state, checker/mod.rs:92-102 *)
Definition st0 : cstate := mkSt [] false false.

Section Checker.
  (** [get_rule_shared], checker/shared.rs:167-395; a parameter here, see Table.v for the instance. *)
  Variable table : bool -> string -> option crule.
  Variable cfg : config.
  (** the premises of the problem, in order *)
  Variable prems : list term.

  (** checker/shared.rs:54-69: the loop over the premises; a comparison may panic. *)
  Fixpoint any_polyeq (t : term) (ps : list term) : outcome bool :=
    match ps with
    | [] => ROk false
    | p :: r => do b <- assume_eq t p ; if b then ROk true else any_polyeq t r
    end.
  (** checker/shared.rs:14-83 *)
  Definition check_assume (t : term) (in_sub : bool) : outcome bool :=
    if in_sub then ROk true
    else if memb term_eqb t prems then ROk true
    else if elaborated cfg then ROk false
    else any_polyeq t prems.

  (** checker/shared.rs:144-165 *)
  Definition pair_eqb (a b : nat * nat) : bool := Nat.eqb (fst a) (fst b) && Nat.eqb (snd a) (snd b).
  Fixpoint check_discharge (i : nat) (cs : list command) (d : nat) (ds : list (nat * nat)) : outcome unit :=
    match cs with
    | [] => ROk tt
    | c :: r => if is_assume c && negb (memb pair_eqb (d, i) ds) then RErr else check_discharge (S i) r d ds
    end.

  (** checker/shared.rs:96-141; returns the value or-ed into [is_holey]. *)
  Definition step_core (s : step) (ra : rargs) (is_end : bool) (sub : option (list command)) (d : nat) : outcome bool :=
    if memb String.eqb (s_rule s) (allowed cfg) then ROk true
    else if negb (Nat.eqb (List.length (s_disch s)) 0) && negb (String.eqb (s_rule s) "subproof") then RErr
    else match table (elaborated cfg) (s_rule s) with
    | None => if ignore_unknown cfg then ROk true else RErr
    | Some r =>
        r ra ;;
        (if is_end then match sub with Some cs => check_discharge 0 cs d (s_disch s) | None => ROk tt end
         else ROk tt) ;;
        ROk (String.eqb (s_rule s) "hole" || String.eqb (s_rule s) "lia_generic")
    end.

  (** checker/mod.rs:137-146; [len() - 2] underflows for a subproof with fewer than two commands *)
  Definition previous_command (stk : stack) : outcome (option clause) :=
    if is_end_step stk then
      match stk with
      | (_, cs) :: _ =>
          if Nat.ltb (List.length cs) 2 then RPanic
          else match nth_error cs (List.length cs - 2) with
          | Some c => do cl <- unwrap (cmd_clause c) ; ROk (Some cl)
          | None => ROk None
          end
      | [] => RPanic
      end
    else ROk None.
  (** checker/mod.rs:229-258 *)
  Definition mk_rargs (stk : stack) (cx : list (list anchor)) (s : step) : outcome rargs :=
    do prev <- previous_command stk ;
    do ps <- omap (get_premise stk) (s_prems s) ;
    do ds <- omap (get_command stk) (s_disch s) ;
    ROk (mkRA (s_clause s) ps (s_args s) cx prev ds).
  (** checker/mod.rs:134-164, with check_step (218-280) *)
  Definition do_step (stk : stack) (st : cstate) (s : step) : outcome cstate :=
    do ra <- mk_rargs stk (st_ctx st) s ;
    do h <- step_core s ra (is_end_step stk)
              (if in_subproof stk then match stk with (_, cs) :: _ => Some cs | [] => None end else None) (depth stk) ;
    let cx := if is_end_step stk then tl (st_ctx st) else st_ctx st in
    ROk (mkSt cx (st_reached st || (Nat.eqb (List.length (s_clause s)) 0 && Nat.eqb (List.length cx) 0)) (st_holey st || h)).
  (** one iteration of the loop, checker/mod.rs:132-193; [stk] is the stack after [next] *)
  Definition do_command (stk : stack) (st : cstate) (c : command) : outcome cstate :=
    match c with
    | CStep s => do_step stk st s
    | CSub _ args _ => ROk (mkSt (args :: st_ctx st) (st_reached st) (st_holey st))
    | CAssume _ t => do b <- check_assume t (in_subproof stk) ; if b then ROk st else RErr
    end.

  (** checker/mod.rs:130-194 [while let Some(command) = iter.next()]. Fuel: see [check_loop_eq]. *)
  Fixpoint loop (fuel : nat) (stk : stack) (st : cstate) : outcome cstate :=
    match fuel with
    | 0 => RPanic
    | S n => match iter_next stk with
             | None => ROk st
             | Some (c, stk') => do st' <- do_command stk' st c ; loop n stk' st'
             end
    end.
  Fixpoint cmd_size (c : command) : nat :=
    match c with
    | CSub cs _ _ => S (list_sum (map cmd_size cs))
    | _ => 1
    end.
  Definition cmds_size (cs : list command) : nat := list_sum (map cmd_size cs).
  (** checker/mod.rs:121-200: [Ok(is_holey)] or an error *)
  Definition check (proof : list command) : outcome bool :=
    do st <- loop (S (cmds_size proof)) [(0, proof)] st0 ;
    if st_reached st then ROk (st_holey st) else RErr.

  (** ** The same traversal by structural recursion *)
  Fixpoint run (c : command) (stk : stack) (st : cstate) {struct c} : outcome cstate :=
    match c with
    | CSub sub _ _ =>
        do st1 <- do_command ((0, sub) :: stk) st c ;
        (fix go (l : list command) (i : nat) (st : cstate) {struct l} : outcome cstate :=
           match l with
           | [] => ROk st
           | x :: r => do st' <- run x ((S i, sub) :: stk) st ; go r (S i) st'
           end) sub 0 st1
    | _ => do_command stk st c
    end.
  Fixpoint run_list (sub : list command) (out : stack) (l : list command) (i : nat) (st : cstate) : outcome cstate :=
    match l with
    | [] => ROk st
    | x :: r => do st' <- run x ((S i, sub) :: out) st ; run_list sub out r (S i) st'
    end.
  Lemma run_sub sub args k stk st :
    run (CSub sub args k) stk st =
    run_list sub stk sub 0 (mkSt (args :: st_ctx st) (st_reached st) (st_holey st)).
  Proof.
    cbn [run do_command obind]. generalize (mkSt (args :: st_ctx st) (st_reached st) (st_holey st)). generalize 0.
    assert (H : forall l n c,
      (fix go (l : list command) (i : nat) (st : cstate) {struct l} : outcome cstate :=
           match l with
           | [] => ROk st
           | x :: r => do st' <- run x ((S i, sub) :: stk) st ; go r (S i) st'
           end) l n c = run_list sub stk l n c).
    { induction l as [|x r IH]; intros n c; [reflexivity|]. cbn [run_list].
      destruct (run x ((S n, sub) :: stk) c); cbn [obind]; auto. }
    intros n c. apply H.
  Qed.
  Lemma run_list_app sub out l1 : forall l2 i st,
    run_list sub out (l1 ++ l2) i st = do st' <- run_list sub out l1 i st ; run_list sub out l2 (i + List.length l1) st'.
  Proof.
    induction l1 as [|x r IH]; intros l2 i st; cbn [run_list app List.length obind].
    - rewrite Nat.add_0_r. reflexivity.
    - destruct (run x ((S i, sub) :: out) st); cbn [obind]; auto. rewrite IH.
      replace (i + S (List.length r)) with (S i + List.length r) by lia. reflexivity.
  Qed.

  (** The loop computes the recursive traversal. *)
  Lemma loop_list : forall c, forall sub out i st n,
    nth_error sub i = Some c ->
    loop (cmd_size c + n) ((i, sub) :: out) st =
    do st' <- run c ((S i, sub) :: out) st ; loop n ((S i, sub) :: out) st'.
  Proof.
    induction c as [id t|s|cs args k IH] using command_ind'; intros sub out i st n Hn.
    - cbn [cmd_size Nat.add loop iter_next]. rewrite Hn. reflexivity.
    - cbn [cmd_size Nat.add loop iter_next]. rewrite Hn. reflexivity.
    - rewrite run_sub. cbn [cmd_size Nat.add loop iter_next]. rewrite Hn. cbn [do_command obind].
      set (st1 := mkSt (args :: st_ctx st) (st_reached st) (st_holey st)).
      assert (H : forall l i0 st, (forall j x, nth_error l j = Some x -> nth_error cs (i0 + j) = Some x) ->
        i0 + List.length l = List.length cs -> Forall (fun c => In c cs) l ->
        loop (list_sum (map cmd_size l) + n) ((i0, cs) :: (S i, sub) :: out) st =
        do st' <- run_list cs ((S i, sub) :: out) l i0 st ; loop n ((S i, sub) :: out) st').
      { induction l as [|x r IHl]; intros i0 s0 Hl Hlen Hin; cbn [run_list obind map list_sum fold_right].
        - cbn [Nat.add]. cbn [List.length] in Hlen. destruct n as [|n]; [reflexivity|]. cbn [loop].
          replace (iter_next ((i0, cs) :: (S i, sub) :: out)) with (iter_next ((S i, sub) :: out)); [reflexivity|].
          cbn [iter_next]. replace (nth_error cs i0) with (@None command); [reflexivity|].
          symmetry. apply nth_error_None. lia.
        - inversion Hin; subst. rewrite Forall_forall in IH.
          fold (list_sum (map cmd_size r)). rewrite <- Nat.add_assoc.
          rewrite (IH x H1) by (rewrite <- (Nat.add_0_r i0); apply (Hl 0); reflexivity).
          destruct (run x ((S i0, cs) :: (S i, sub) :: out) s0); cbn [obind]; auto.
          apply IHl; auto.
          + intros j y Hj. replace (S i0 + j) with (i0 + S j) by lia. apply Hl. exact Hj.
          + cbn [List.length] in Hlen. lia. }
      apply H; auto. apply Forall_forall. auto.
  Qed.
  Lemma loop_top proof : forall l i st n,
    (forall j x, nth_error l j = Some x -> nth_error proof (i + j) = Some x) ->
    i + List.length l = List.length proof ->
    loop (list_sum (map cmd_size l) + S n) [(i, proof)] st = run_list proof [] l i st.
  Proof.
    induction l as [|x r IH]; intros i st n Hl Hlen; cbn [run_list obind map list_sum fold_right].
    - cbn [Nat.add loop iter_next List.length] in *. replace (nth_error proof i) with (@None command); [reflexivity|].
      symmetry. apply nth_error_None. lia.
    - fold (list_sum (map cmd_size r)). rewrite <- Nat.add_assoc.
      rewrite (loop_list x) by (rewrite <- (Nat.add_0_r i); apply (Hl 0); reflexivity).
      destruct (run x [(S i, proof)] st); cbn [obind]; auto.
      apply IH.
      + intros j y Hj. replace (S i + j) with (i + S j) by lia. apply Hl. exact Hj.
      + cbn [List.length] in Hlen. lia.
  Qed.
  Lemma check_eq proof :
    check proof = do st <- run_list proof [] proof 0 st0 ; if st_reached st then ROk (st_holey st) else RErr.
  Proof.
    unfold check, cmds_size. replace (S (list_sum (map cmd_size proof))) with (list_sum (map cmd_size proof) + 1) by lia.
    rewrite loop_top; auto.
  Qed.
End Checker.
