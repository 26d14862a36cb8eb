(** The structure of a proof text: how the parser assembles commands into nested subproofs and resolves the
    ids of premises (parser/mod.rs, [parse_proof] and the command parsers), and how the printer prints them
    back (ast/printer.rs). A proof text is a list of commands whose terms are already parsed. *)
From Coq Require Import List String ZArith Bool Arith Lia.
From Verif Require Import Base Term Utils Rules Checker.
Import ListNotations.

(** The commands of a proof text: assume, step, anchor and define-fun. Terms, clauses and anchor arguments
    are given already parsed (their parsing does not depend on the ids and only adds errors); attributes
    that are ignored (parser/mod.rs:1047) are dropped. *)
Inductive raw : Type :=
| RwAssume (id : string) (t : term)
| RwStep (id : string) (cl : clause) (rule : string) (prems : list string) (args : list term) (disch : list string)
| RwAnchor (end_id : string) (args : list anchor)
| RwDefine.

(** parser/mod.rs:834-835, a frame of the stack: the subproof under construction (commands, anchor arguments,
    context id), the id of the step that ends it, and whether a step has been seen. *)
Record frame : Type := mkFr {
  f_cmds : list command; f_args : list anchor; f_ctx : nat; f_end : string; f_stepped : bool }.
(** [stack] (innermost first), [state.step_ids] and [next_subproof_context_id]. The parser's symbol table has
    the same number of scopes as [step_ids] (both are pushed for an anchor, 919 and 1105, and popped
    together, 939-940), so its panic on popping the last scope is the one of [hs_pop]. *)
Record pstate : Type := mkPS { ps_frames : list frame; ps_ids : list (list (string * nat)); ps_next : nat }.
(** parser/mod.rs:834-837 *)
Definition ps0 : pstate := mkPS [mkFr [] [] 0 "" false] hs_new 0.

(** parser/mod.rs:1056-1064 *)
Definition parse_premise (ids : list (list (string * nat))) (id : string) : outcome (nat * nat) :=
  ok_or (hs_get_depth String.eqb ids id).
(** parser/mod.rs:1079: [format!("{}.{}", root_id, id)] *)
Definition absolute (root id : string) : string := (root ++ "." ++ id)%string.
(** parser/mod.rs:1072-1086 *)
Definition parse_discharge (ids : list (list (string * nat))) (root id : string) : outcome (nat * nat) :=
  match hs_get_depth String.eqb ids (absolute root id) with
  | Some p => ROk p
  | None => ok_or (hs_get_depth String.eqb ids id)
  end.

Definition push_cmd (f : frame) (c : command) : frame :=
  mkFr (f_cmds f ++ [c]) (f_args f) (f_ctx f) (f_end f) (f_stepped f).
Definition is_step (c : command) : bool := match c with CStep _ => true | _ => false end.
(** parser/mod.rs:926-961: a completed assume or step *)
Definition add_command (id : string) (c : command) (st : pstate) : outcome pstate :=
  match hs_get String.eqb (ps_ids st) id with
  | Some _ => RErr
  | None =>
      match ps_frames st with
      | [] => RPanic
      | f :: out =>
          let f' := push_cmd f c in
          if String.eqb (f_end f) id then
            do ids <- hs_pop (ps_ids st) ;
            rassert (Nat.leb 2 (List.length (f_cmds f'))) ;;
            rassert (is_step c) ;;
            match out with
            | [] => RPanic
            | g :: out' =>
                let g' := push_cmd g (CSub (f_cmds f') (f_args f') (f_ctx f')) in
                do ids' <- hs_insert String.eqb ids id (List.length (f_cmds g') - 1) ;
                ROk (mkPS (g' :: out') ids' (ps_next st))
            end
          else
            do ids' <- hs_insert String.eqb (ps_ids st) id (List.length (f_cmds f') - 1) ;
            ROk (mkPS (f' :: out) ids' (ps_next st))
      end
  end.
Definition set_stepped (f : frame) : frame := mkFr (f_cmds f) (f_args f) (f_ctx f) (f_end f) true.
(** parser/mod.rs:851-961, one command of the text *)
Definition parse_cmd (st : pstate) (r : raw) : outcome pstate :=
  match ps_frames st with
  | [] => RPanic
  | f :: out =>
      match r with
      | RwAssume id t =>
          if f_stepped f && negb (Nat.eqb (List.length (f :: out)) 1) then RErr
          else add_command id (CAssume id t) st
      | RwStep id cl rule prems args disch =>
          do ps <- omap (parse_premise (ps_ids st)) prems ;
          do ds <- omap (parse_discharge (ps_ids st) id) disch ;
          add_command id (CStep (mkStep id cl rule ps args ds)) (mkPS (set_stepped f :: out) (ps_ids st) (ps_next st))
      | RwAnchor e args =>
          ROk (mkPS (mkFr [] args (ps_next st) e false :: f :: out) (hs_push (ps_ids st)) (S (ps_next st)))
      | RwDefine => ROk st
      end
  end.
Fixpoint parse_cmds (st : pstate) (rs : list raw) : outcome pstate :=
  match rs with [] => ROk st | r :: rs => do st <- parse_cmd st r ; parse_cmds st rs end.
(** parser/mod.rs:825-982 *)
Definition parse_proof (rs : list raw) : outcome (list command) :=
  do st <- parse_cmds ps0 rs ;
  match ps_frames st with [f] => ROk (f_cmds f) | [] => RPanic | _ => RErr end.

(** ** Printing *)
(** ast/proof.rs:97-107 [ProofCommand::id]; [None] is the panic of [commands.last().unwrap()] *)
Fixpoint cmd_id (c : command) : option string :=
  match c with
  | CAssume id _ => Some id
  | CStep s => Some (s_id s)
  | CSub cs _ _ => (fix lst l := match l with [] => None | [x] => cmd_id x | _ :: r => lst r end) cs
  end.
Fixpoint mapo {A B} (f : A -> option B) (l : list A) : option (list B) :=
  match l with
  | [] => Some []
  | x :: r => match f x, mapo f r with Some y, Some ys => Some (y :: ys) | _, _ => None end
  end.
(** The command (depth, index) refers to, given for every open scope, outermost first, the commands
    *completed so far* in that scope. *)
Definition lookup (sc : list (list command)) (p : nat * nat) : option command :=
  match nth_error sc (fst p) with Some cs => nth_error cs (snd p) | None => None end.
Definition ref_name (sc : list (list command)) (p : nat * nat) : option string :=
  match lookup sc p with Some c => cmd_id c | None => None end.
(** ast/printer.rs:361-405 [write_step]. *)
Definition print_step (sc : list (list command)) (s : step) : option raw :=
  match mapo (ref_name sc) (s_prems s), mapo (ref_name sc) (s_disch s) with
  | Some ps, Some ds => Some (RwStep (s_id s) (s_clause s) (s_rule s) ps (s_args s) ds)
  | _, _ => None
  end.
(** ast/printer.rs:187-251 [write_proof]: commands in order; a subproof is an anchor followed by its
    commands. [sc] are the commands completed so far, per scope. The result is [None] if a reference does
    not denote a completed command of an open scope. *)
Fixpoint print_cmd (c : command) (sc : list (list command)) {struct c} : option (list raw) :=
  match c with
  | CAssume id t => Some [RwAssume id t]
  | CStep s => match print_step sc s with Some r => Some [r] | None => None end
  | CSub cs args _ =>
      match cmd_id c,
        (fix go (l pre : list command) {struct l} : option (list raw) :=
           match l with
           | [] => Some []
           | x :: r => match print_cmd x (sc ++ [pre])%list, go r (pre ++ [x])%list with
                       | Some a, Some b => Some (a ++ b)%list | _, _ => None end
           end) cs [] with
      | Some e, Some rs => Some (RwAnchor e args :: rs)
      | _, _ => None
      end
  end.
Fixpoint print_list (sc : list (list command)) (l pre : list command) : option (list raw) :=
  match l with
  | [] => Some []
  | x :: r => match print_cmd x (sc ++ [pre])%list, print_list sc r (pre ++ [x])%list with
              | Some a, Some b => Some (a ++ b)%list | _, _ => None end
  end.
Definition print_proof (proof : list command) : option (list raw) := print_list [] proof [].
Lemma print_sub cs args k sc : print_cmd (CSub cs args k) sc =
  match cmd_id (CSub cs args k), print_list sc cs [] with
  | Some e, Some rs => Some (RwAnchor e args :: rs)
  | _, _ => None
  end.
Proof.
  assert (H : forall l pre, (fix go (l pre : list command) {struct l} : option (list raw) :=
           match l with
           | [] => Some []
           | x :: r => match print_cmd x (sc ++ [pre])%list, go r (pre ++ [x])%list with
                       | Some a, Some b => Some (a ++ b)%list | _, _ => None end
           end) l pre = print_list sc l pre).
  { induction l as [|x r IH]; intros pre; [reflexivity|]. cbn [print_list]. rewrite IH. reflexivity. }
  cbn [print_cmd]. rewrite H. reflexivity.
Qed.

(** ** Specification *)
(** The printed text says the same as the original one: define-fun commands aside it is identical, except
    that the id of a discharged assumption may have been given relative to the id of the step. *)
Definition same_raw (a b : raw) : Prop :=
  match a, b with
  | RwStep id cl rule ps args ds, RwStep id' cl' rule' ps' args' ds' =>
      id = id' /\ cl = cl' /\ rule = rule' /\ ps = ps' /\ args = args'
      /\ Forall2 (fun d d' => d' = d \/ d' = absolute id d) ds ds'
  | _, _ => a = b
  end.
Definition is_define (r : raw) : bool := match r with RwDefine => true | _ => false end.
Definition same_text (a b : list raw) : Prop := Forall2 same_raw (filter (fun r => negb (is_define r)) a) b.
(** The commands the iterator yields, each with the iterator's stack at that moment (ast/iter.rs). *)
Inductive yields (proof : list command) : command -> stack -> Prop :=
| yields_first c stk : iter_next [(0, proof)] = Some (c, stk) -> yields proof c stk
| yields_next c stk c' stk' : yields proof c stk -> iter_next stk = Some (c', stk') -> yields proof c' stk'.
(** no id is used by two commands of which one is visible from the other: [vis] are the ids visible before *)
Fixpoint ids_fresh (c : command) (vis : list string) {struct c} : bool :=
  match c with
  | CAssume id _ => negb (memb String.eqb id vis)
  | CStep s => negb (memb String.eqb (s_id s) vis)
  | CSub cs _ _ =>
      (fix go (l : list command) (vis : list string) {struct l} : bool :=
         match l with
         | [] => true
         | x :: r => ids_fresh x vis && match cmd_id x with Some i => go r (i :: vis) | None => false end
         end) cs vis
  end.
Fixpoint ids_fresh_list (l : list command) (vis : list string) : bool :=
  match l with
  | [] => true
  | x :: r => ids_fresh x vis && match cmd_id x with Some i => ids_fresh_list r (i :: vis) | None => false end
  end.
Lemma ids_fresh_sub cs args k vis : ids_fresh (CSub cs args k) vis = ids_fresh_list cs vis.
Proof.
  cbn [ids_fresh]. revert vis. induction cs as [|x r IH]; intros vis; [reflexivity|]. cbn [ids_fresh_list].
  destruct (ids_fresh x vis), (cmd_id x); cbn; auto.
Qed.
(** the context ids of the subproofs, in the order of their anchors *)
Fixpoint ctx_ids (c : command) : list nat :=
  match c with CSub cs _ k => k :: flat_map ctx_ids cs | _ => [] end.
