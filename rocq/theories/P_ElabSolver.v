(** C47: a step that an external solver has justified stays justified when the solver's proof is inserted. *)
From Coq Require Import List String ZArith Bool Arith Lia.
From Verif Require Import Base Term Rules R_Eq Polyeq Checker CheckerSound Table Parser Nodes ElabIds ElabSolver ElabSolverSound ElabRefute GraphAccept SolverInsert.
Import ListNotations.
Local Open Scope string_scope.
Local Open Scope nat_scope.
Local Open Scope list_scope.

(** Every node of the graph of an accepted proof is accepted in the graph, for any table of rules with the subproof rule. *)
Theorem C36_accepted : forall table cfg prems proof b forest, allowed cfg = [] -> ignore_unknown cfg = false -> table (elaborated cfg) "subproof" = Some subproof ->
  forallb shape_ok proof = true -> check table cfg prems proof = ROk b -> to_nodes proof = ROk forest ->
  map (fun n => Some (pclause n)) forest = map cmd_clause proof /\ Forall (gok (table (elaborated cfg)) []) forest.
Proof.
  intros table cfg prems proof b forest H1 H2 H3 H4 H5 H6. destruct (graph_accepted table cfg prems H1 H2 H3 proof b forest H4 H5 H6) as [Hm Hg]. split.
  - clear -Hm. induction Hm as [|c n cs ns [H _] _ IH]; [reflexivity|]. cbn [map]. rewrite H, IH. reflexivity.
  - eapply Forall_impl; [|exact Hg]. intros n (_ & _ & _ & H & _). exact H.
Qed.
Print Assumptions C36_accepted.

(** ** lia_generic steps *)
(** Missing: assumptions that are not literally the negated literals, rules that depend on the context, and the acceptance of the printed proof. *)
Theorem C47_lia_partial : forall other prems sp b k root concl cx,
  forallb shape_ok sp = true -> refs_list sp [] [] = true -> check (rule_table other) cfg0 prems sp = ROk b ->
  no_context sp = true -> (forall t, In t (assumed sp) -> In t (map tNot concl)) -> NoDup (assumed sp) ->
  exists forest n, to_nodes sp = ROk forest /\ lia_insert k root (List.length cx) concl forest = ROk n /\
    pclause n = concl /\ gok (rule_table other false) cx n.
Proof. intros. eapply lia_insert_ok; eauto. Qed.
Print Assumptions C47_lia_partial.

(** ** Holes: all_simplify and rare_rewrite steps *)
Theorem C47_hole_partial : forall other prems sp b k root concl cx forest prf,
  forallb shape_ok sp = true -> refs_list sp [] [] = true -> check (rule_table other) cfg0 prems sp = ROk b ->
  no_context sp = true -> to_nodes sp = ROk forest -> solver_root forest = ROk prf ->
  map assume_term (assumptions_of 0 prf) = map (fun l => Some (tNot l)) concl ->
  exists n, hole_insert k root (List.length cx) concl forest = ROk n /\ pclause n = concl /\ gok (rule_table other false) cx n.
Proof. intros. eapply hole_insert_ok; eauto. Qed.
Print Assumptions C47_hole_partial.

(** ** The elaborator does not panic on an accepted solver proof *)
Theorem C47_no_panic : forall other prems sp b k root d concl,
  forallb shape_ok sp = true -> refs_list sp [] [] = true -> check (rule_table other) cfg0 prems sp = ROk b ->
  exists forest n m, to_nodes sp = ROk forest /\ lia_insert k root d concl forest = ROk n /\ hole_insert k root d concl forest = ROk m.
Proof. intros. eapply insert_no_panic; eauto. Qed.
Print Assumptions C47_no_panic.

(** ** Examples *)
Definition no_rule : bool -> string -> crule := fun _ _ _ => RErr.
Definition tab := rule_table no_rule.
Definition st_ (id : string) (cl : clause) (r : string) (ps : list (nat * nat)) : command := CStep (mkStep id cl r ps [] []).
(** the clause [p] or [not p]; the solver's proof has a subproof and a premise of an outer scope *)
Definition ex_concl : clause := [vB "p"; n_ "p"].
Definition ex_sp : list command :=
  [CAssume "h1" (n_ "p"); CAssume "h2" (tNot (n_ "p"));
   CSub [CAssume "h3" (vB "q"); st_ "s1" [] "resolution" [(0, 0); (0, 1)]; CStep (mkStep "s2" [n_ "q"; tFalse] "subproof" [] [] [(1, 0)])] [] 0;
   st_ "s3" [] "resolution" [(0, 0); (0, 1)]].
Example C47_example : forallb shape_ok ex_sp = true /\ refs_list ex_sp [] [] = true /\ check tab cfg0 (map tNot ex_concl) ex_sp = ROk false /\ no_context ex_sp = true /\
  (forall t, In t (assumed ex_sp) -> In t (map tNot ex_concl)) /\ NoDup (assumed ex_sp).
Proof.
  split; [vm_compute; reflexivity|]. split; [vm_compute; reflexivity|]. split; [vm_compute; reflexivity|]. split; [vm_compute; reflexivity|]. split.
  - intros t H. exact H.
  - cbn. constructor; [intros [H|[]]; discriminate|]. constructor; [intros []|constructor].
Qed.
(** a refutation of [asms] whose step [t1] has the conclusion [concl], by the given rule *)
Definition whole (rule : string) (concl : clause) (asms : list term) : list command :=
  map (fun p => CAssume (append "h" (dec (fst p))) (snd p)) (combine (seq 0 (List.length asms)) asms) ++
  [st_ "t1" concl rule []; st_ "t2" [] "resolution" (map (fun i => (0, i)) (seq 0 (S (List.length asms))))].
Definition ex_proof (rule : string) : list command := whole rule ex_concl [vB "p"; n_ "p"].
Definition reread (l : list command) : outcome (list command) := match print_proof l with Some rs => parse_proof rs | None => RPanic end.
Definition readable (l : list command) : bool := match reread l with ROk _ => true | _ => false end.
(** the hole pass (elaborator/mod.rs) replaces steps by [all_simplify] and [rare_rewrite]; the checker only accepts [all_simplify] if it is among the allowed
    rules (checker/mod.rs) *)
Definition cfg1 : config := mkCfg false false ["all_simplify"].
(** after the elaboration there is no hole; the elaborated proof can be printed, read and accepted *)
Example C47_example_whole :
  check tab cfg1 [vB "p"; n_ "p"] (ex_proof "lia_generic") = ROk true /\ check tab cfg1 [vB "p"; n_ "p"] (ex_proof "all_simplify") = ROk true /\
  (exists out, elaborate lia_insert ex_sp (ex_proof "lia_generic") 2 "t1" ex_concl = ROk out /\ check tab cfg1 [vB "p"; n_ "p"] out = ROk false /\ readable out = true) /\
  (exists out, elaborate hole_insert ex_sp (ex_proof "all_simplify") 2 "t1" ex_concl = ROk out /\ check tab cfg1 [vB "p"; n_ "p"] out = ROk false /\ readable out = true).
Proof.
  split; [vm_compute; reflexivity|]. split; [vm_compute; reflexivity|]. split.
  - destruct (elaborate lia_insert ex_sp (ex_proof "lia_generic") 2 "t1" ex_concl) as [out| |] eqn:E; [|vm_compute in E; discriminate|vm_compute in E; discriminate].
    exists out. split; [reflexivity|]. vm_compute in E. injection E as <-. split; vm_compute; reflexivity.
  - destruct (elaborate hole_insert ex_sp (ex_proof "all_simplify") 2 "t1" ex_concl) as [out| |] eqn:E; [|vm_compute in E; discriminate|vm_compute in E; discriminate].
    exists out. split; [reflexivity|]. vm_compute in E. injection E as <-. split; vm_compute; reflexivity.
Qed.

(** ** Refutations: the original proof and the solver's proof are accepted, the elaborated proof is rejected *)
Definition insertion_rejected (ins : nat -> string -> nat -> clause -> list pnode -> outcome pnode) (rule : string) (cfg : config) (concl : clause) (sp : list command) : Prop :=
  exists asms out, check tab cfg (map tNot concl) sp = ROk false /\
    check tab cfg1 asms (whole rule concl asms) = ROk true /\
    elaborate ins sp (whole rule concl asms) (List.length asms) "t1" concl = ROk out /\ check tab cfg1 asms out = RErr.
Ltac rejected asms :=
  match goal with |- insertion_rejected ?ins ?rule ?cfg ?concl ?sp =>
    exists asms;
    destruct (elaborate ins sp (whole rule concl asms) (List.length asms) "t1" concl) as [out| |] eqn:E; [|vm_compute in E; discriminate|vm_compute in E; discriminate];
    exists out; split; [vm_compute; reflexivity|]; split; [vm_compute; reflexivity|]; split; [exact eq_refl|]; vm_compute in E; injection E as <-; vm_compute; reflexivity
  end.
(** hole: a literal that the solver does not need has no assumption *)
Definition rf_sp : list command := [CAssume "h1" (n_ "p"); CAssume "h2" (tNot (n_ "p")); st_ "s1" [] "resolution" [(0, 0); (0, 1)]].
Theorem C47_hole_unused_refuted : exists concl sp, insertion_rejected hole_insert "all_simplify" cfg0 concl sp.
Proof. exists [vB "p"; n_ "p"; vB "q"], rf_sp. rejected [n_ "q"; vB "p"; n_ "p"]. Qed.
Print Assumptions C47_hole_unused_refuted.
(** hole: the assumptions are found in the order of the solver's steps *)
Definition rf_order : list command := [CAssume "h1" (n_ "p"); CAssume "h2" (tNot (n_ "p")); st_ "s1" [] "resolution" [(0, 1); (0, 0)]].
Theorem C47_hole_order_refuted : exists concl sp, insertion_rejected hole_insert "all_simplify" cfg0 concl sp.
Proof. exists ex_concl, rf_order. rejected [vB "p"; n_ "p"]. Qed.
Print Assumptions C47_hole_order_refuted.
(** lia_generic: the solver assumes a literal with a flipped equality, which the checker accepts *)
Definition rf_flip : list command := [CAssume "h1" (tNot (eqv_ "b" "a")); CAssume "h2" (tNot (tNot (eqv_ "b" "a"))); st_ "s1" [] "resolution" [(0, 0); (0, 1)]].
Theorem C47_lia_flipped_refuted : exists concl sp, insertion_rejected lia_insert "lia_generic" cfg0 concl sp.
Proof. exists [eqv_ "a" "b"; ne "a" "b"], rf_flip. rejected [eqv_ "a" "b"; ne "a" "b"]. Qed.
Print Assumptions C47_lia_flipped_refuted.
(** lia_generic: the solver assumes a literal twice *)
Definition rf_twice : list command :=
  [CAssume "h1" (n_ "p"); CAssume "h2" (n_ "p"); CAssume "h3" (tNot (n_ "p")); st_ "s1" [n_ "p"] "contraction" [(0, 0)]; st_ "s2" [] "resolution" [(0, 3); (0, 1); (0, 2)]].
Theorem C47_lia_twice_refuted : exists concl sp, insertion_rejected lia_insert "lia_generic" cfg0 concl sp.
Proof. exists ex_concl, rf_twice. rejected [vB "p"; n_ "p"]. Qed.
Print Assumptions C47_lia_twice_refuted.
(** lia_generic: the solver's proof is checked without the rules that the checker does not know *)
Definition rf_unknown : list command := [CAssume "h1" (n_ "p"); CAssume "h2" (tNot (n_ "p")); st_ "s1" [] "solver_rule" [(0, 0); (0, 1)]].
Theorem C47_lia_unknown_refuted : exists concl sp asms out,
  check tab (mkCfg false true []) (map tNot concl) sp = ROk true /\ check tab cfg1 asms (whole "lia_generic" concl asms) = ROk true /\
  elaborate lia_insert sp (whole "lia_generic" concl asms) (List.length asms) "t1" concl = ROk out /\ check tab cfg1 asms out = RErr.
Proof.
  exists ex_concl, rf_unknown, [vB "p"; n_ "p"].
  destruct (elaborate lia_insert rf_unknown (whole "lia_generic" ex_concl [vB "p"; n_ "p"]) (List.length [vB "p"; n_ "p"]) "t1" ex_concl) as [out| |] eqn:E; [|vm_compute in E; discriminate|vm_compute in E; discriminate].
  exists out. split; [vm_compute; reflexivity|]. split; [vm_compute; reflexivity|]. split; [reflexivity|]. vm_compute in E. injection E as <-. vm_compute. reflexivity.
Qed.
Print Assumptions C47_lia_unknown_refuted.
(** hole: the ids of the inserted steps are the prefix [t1] and the solver's ids, the subproof is called [t1.t1]: with a solver step [t1] the elaborated proof
    is accepted, but it cannot be read after printing. *)
Definition rf_ids : list command := [CAssume "h1" (n_ "p"); CAssume "h2" (tNot (n_ "p")); st_ "t1" [] "resolution" [(0, 0); (0, 1)]].
Theorem C46_hole_ids_refuted : exists concl sp asms out,
  check tab cfg0 (map tNot concl) sp = ROk false /\ check tab cfg1 asms (whole "all_simplify" concl asms) = ROk true /\
  elaborate hole_insert sp (whole "all_simplify" concl asms) (List.length asms) "t1" concl = ROk out /\ check tab cfg1 asms out = ROk false /\
  reread (whole "all_simplify" concl asms) = ROk (whole "all_simplify" concl asms) /\ reread sp = ROk sp /\ reread out = RErr.
Proof.
  exists ex_concl, rf_ids, [vB "p"; n_ "p"].
  destruct (elaborate hole_insert rf_ids (whole "all_simplify" ex_concl [vB "p"; n_ "p"]) (List.length [vB "p"; n_ "p"]) "t1" ex_concl) as [out| |] eqn:E; [|vm_compute in E; discriminate|vm_compute in E; discriminate].
  exists out. split; [vm_compute; reflexivity|]. split; [vm_compute; reflexivity|]. split; [reflexivity|]. vm_compute in E. injection E as <-. repeat split; vm_compute; reflexivity.
Qed.
Print Assumptions C46_hole_ids_refuted.
