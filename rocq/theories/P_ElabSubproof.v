(** C34 and C46 for subproof steps: the last term of the closing step is equal to the previous step's term up to flipped equalities; the elaborator derives it. *)
From Coq Require Import List String ZArith Bool Arith Lia.
From Verif Require Import Base Term Rules R_Eq Polyeq Checker CheckerSound Table Parser Elab ElabPolyeqSound Nodes ElabIds ElabSolver ElabRefute SolverInsert ElabSubproof P_ElabSolver.
Import ListNotations.
Local Open Scope string_scope.
Local Open Scope nat_scope.
Local Open Scope list_scope.

(** An accepted subproof stays accepted, its closing step keeps its id, conclusion and discharged assumptions; now the term of the step before it is literally
    the last term of its conclusion.
    Missing: terms outside of the fragment (see C34_polyeq_partial), and subproofs whose command before the closing step is not a step (refuted below). *)
Theorem C34_subproof_partial : forall other seen k0 k cx a id cl ps args ds prev sargs out extra b,
  let l := PStep a id (S (List.length cx)) cl "subproof" ps args ds prev in
  sub_fits k0 l -> gok (rule_table other true) cx (PSub b l sargs out extra) ->
  exists a' prev', let n := PSub b (PStep a' id (S (List.length cx)) cl "subproof" ps args ds prev') sargs out extra in
    elab_subproof_node seen k (PSub b l sargs out extra) = ROk n /\ gok (rule_table other true) cx n /\ literal_end prev' cl.
Proof. exact elab_subproof_node_ok. Qed.
Print Assumptions C34_subproof_partial.

(** ** Whole proofs *)
Definition un : nat -> term -> term -> bool := fun _ _ _ => false.
(** the elaboration of the subproof with address [a] at depth 0 *)
Fixpoint find_node (a : nat) (l : list pnode) : option pnode :=
  match l with [] => None | n :: r => if Nat.eqb (paddr n) a then Some n else find_node a r end.
Definition elaborate_sub (proof : list command) (a : nat) : outcome (list command) :=
  do f <- to_nodes proof ; do n <- unwrap (find_node a f) ;
  do n' <- elab_subproof_node un 200 n ;
  to_list 1000 (map (replace_node a n') f).
Definition cfge : config := mkCfg true false [].
Definition sb_prems : list term := [eqv_ "a" "b"; ne "b" "a"].
(** a subproof of [(not (= a b)), (= b a)] with the given inner commands, and a refutation with it *)
Definition sb_proof (inner : list command) : list command :=
  [CAssume "h1" (eqv_ "a" "b"); CAssume "h2" (ne "b" "a");
   CSub (CAssume "t1.h1" (eqv_ "a" "b") :: inner ++ [CStep (mkStep "t1" [ne "a" "b"; eqv_ "b" "a"] "subproof" [] [] [(1, 0)])]) [] 0;
   CStep (mkStep "t2" [] "resolution" [(0, 2); (0, 0); (0, 1)] [eqv_ "a" "b"; tFalse; eqv_ "b" "a"; tTrue] [])].
Definition sb_inner (id : string) : list command := [st_ id [eqv_ "a" "b"] "reordering" [(1, 0)]].
Definition sb_addr : nat := 5.

Ltac elaborated_to out := match goal with |- context [elaborate_sub ?p ?a = ROk _] =>
  destruct (elaborate_sub p a) as [out| |] eqn:E; [|vm_compute in E; discriminate|vm_compute in E; discriminate]; exists out; vm_compute in E; injection E as <- end.
(** the elaborated proof is accepted in elaborated mode, can be printed and read, and its closing step repeats the previous term literally *)
Example C34_subproof_example : exists out,
  elaborate_sub (sb_proof (sb_inner "t1.s")) sb_addr = ROk out /\ check tab cfge sb_prems (sb_proof (sb_inner "t1.s")) = ROk false /\
  check tab cfge sb_prems out = ROk false /\ readable out = true /\ out <> sb_proof (sb_inner "t1.s").
Proof. elaborated_to out. repeat split; try (vm_compute; reflexivity). discriminate. Qed.
(** the hypotheses of the theorem hold in this example *)
Definition sb_node : option pnode := match to_nodes (sb_proof (sb_inner "t1.s")) with ROk f => find_node sb_addr f | _ => None end.
Example C34_subproof_fits : match sb_node with
  | Some (PSub b (PStep a id d cl r ps args ds prev) sargs out extra) =>
      r = "subproof" /\ d = 1 /\ sub_fits false (PStep a id d cl r ps args ds prev) /\ gok (rule_table no_rule true) [] (PSub b (PStep a id d cl r ps args ds prev) sargs out extra)
  | _ => False end.
Proof.
  destruct sb_node as [n|] eqn:E; vm_compute in E; [injection E as <-|discriminate]. split; [reflexivity|]. split; [reflexivity|]. split; [split; [reflexivity|]; intros p l [= <-] [= <-]; split; vm_compute; reflexivity|].
  cbn [gok map fold_right pdepth flat_map Datatypes.app]. split; [|split; [split; [exact Logic.I|split; [split; [eexists; split; [reflexivity|vm_compute; reflexivity]|cbn; tauto]|exact Logic.I]]|]].
  - split; [eexists; split; [reflexivity|vm_compute; reflexivity]|]. split; [right; reflexivity|]. split; [exact Logic.I|]. split; [eexists; split; [reflexivity|vm_compute; reflexivity]|]. split; [left; reflexivity|]. cbn. tauto.
  - intros x Hx Ha. vm_compute in Hx. repeat (destruct Hx as [<-|Hx]; [cbn in Ha |- *; try discriminate; tauto|]). destruct Hx.
Qed.

(** ** Refutations *)
(** The elaborator panics on an accepted proof if the command before the closing step is an assumption, or a subproof. *)
Theorem C34_subproof_assume_panic_refuted : exists prems before id t closing after,
  let proof := before ++ CSub [CAssume id t; closing] [] 0 :: after in
  check tab cfg0 prems proof = ROk false /\ reread proof = ROk proof /\ elaborate_sub proof 4 = RPanic.
Proof.
  exists sb_prems, (firstn 2 (sb_proof [])), "t1.h1", (eqv_ "a" "b"), (CStep (mkStep "t1" [ne "a" "b"; eqv_ "b" "a"] "subproof" [] [] [(1, 0)])), (skipn 3 (sb_proof [])).
  repeat split; vm_compute; reflexivity.
Qed.
Print Assumptions C34_subproof_assume_panic_refuted.
Theorem C34_subproof_nested_panic_refuted : exists prems before asm inner closing after,
  let proof := before ++ CSub [asm; CSub inner [] 1; closing] [] 0 :: after in
  check tab cfg0 prems proof = ROk false /\ reread proof = ROk proof /\ elaborate_sub proof 7 = RPanic.
Proof.
  exists [n_ "p"; vB "p"], [CAssume "h1" (n_ "p"); CAssume "h2" (vB "p")], (CAssume "t1.h1" (tNot (n_ "p"))),
    [st_ "t1.t1.t1" [] "resolution" [(1, 0); (0, 0)]; st_ "t1.t1" [tFalse] "subproof" []],
    (CStep (mkStep "t1" [tNot (tNot (n_ "p")); tFalse] "subproof" [] [] [(1, 0)])), [st_ "t2" [] "resolution" [(0, 0); (0, 1)]].
  repeat split; vm_compute; reflexivity.
Qed.
Print Assumptions C34_subproof_nested_panic_refuted.
(** If the subproof called [t1] has a step called [t1.t1], then the elaborated proof has two steps of this name: it is accepted, but cannot be read after
    printing. *)
Theorem C46_subproof_ids_refuted : exists prems proof out,
  check tab cfge prems proof = ROk false /\ reread proof = ROk proof /\
  elaborate_sub proof sb_addr = ROk out /\ check tab cfge prems out = ROk false /\ reread out = RErr.
Proof.
  exists sb_prems, (sb_proof (sb_inner "t1.t1")). elaborated_to out. repeat split; vm_compute; reflexivity.
Qed.
Print Assumptions C46_subproof_ids_refuted.
