(** Property C36: from a proof to its node graph and back. *)
From Coq Require Import List String ZArith Bool Arith Lia.
From Verif Require Import Base Term Rules Checker CheckerSound Parser ParserSound Nodes P_Parser.
Import ListNotations.
Local Open Scope list_scope.

(** For every proof the parser returns, the conversion to a graph does not panic, the conversion back terminates
    without panic, and yields the same commands in the same order with the same references; only the context ids
    of the subproofs, which no printed proof contains, are reset. *)
Theorem C36_round_trip : forall rs proof, parse_proof rs = ROk proof ->
  exists forest fuel0, to_nodes proof = ROk forest /\
  forall fuel out, (fuel0 <= fuel -> to_list fuel forest = ROk (map zero_ctx proof)) /\
                   (to_list fuel forest = ROk out -> out = map zero_ctx proof).
Proof.
  intros rs proof H. destruct (nodes_round_trip proof (parse_shape _ _ H) (parse_refs _ _ H)) as [forest [H1 [_ [fuel0 H2]]]].
  exists forest, fuel0. split; [exact H1|]. intros fuel out. split.
  - intros Hf. replace fuel with (fuel0 + (fuel - fuel0)) by lia. apply H2.
  - intros Ho. specialize (H2 0). unfold to_list in *. eapply tl_run_det; eauto.
Qed.
Print Assumptions C36_round_trip.

(** In the result every premise precedes its use, the root commands have the same conclusions, and the printed text
    is that of the original proof. *)
Theorem C36_result : forall rs proof, parse_proof rs = ROk proof ->
  refs_list (map zero_ctx proof) [] [] = true /\ map cmd_clause (map zero_ctx proof) = map cmd_clause proof /\
  print_proof (map zero_ctx proof) = print_proof proof.
Proof.
  intros rs proof H. split; [|split; [|apply print_zero]].
  - destruct (parse_print rs proof H) as [out [Ho _]]. rewrite <- print_zero in Ho. unfold print_proof in Ho. eapply print_refs_list; eauto.
    apply Forall_forall. intros c _. apply print_refs_cmd.
  - rewrite map_map. apply map_ext. intros c. induction c as [id t|s|cs args id IH] using command_ind'; [reflexivity|reflexivity|].
    cbn [zero_ctx cmd_clause]. induction IH as [|c cs Hc Hcs IHcs]; [reflexivity|]. cbn [map]. destruct cs as [|c' cs]; [exact Hc|]. exact IHcs.
Qed.
Print Assumptions C36_result.

(** The same for any proof whose subproofs have two commands or more, end with a step, and whose references denote
    completed commands. *)
Theorem C36_any_proof : forall proof, forallb shape_ok proof = true -> refs_list proof [] [] = true ->
  exists forest, to_nodes proof = ROk forest /\ exists fuel, forall m, to_list (fuel + m) forest = ROk (map zero_ctx proof).
Proof. intros proof H1 H2. destruct (nodes_round_trip proof H1 H2) as [f [E [_ R]]]. eauto. Qed.
Print Assumptions C36_any_proof.

(** Non-vacuity: the text of P_Parser.v, with nested subproofs, premises from outer scopes and a discharge; the
    graph of the outer subproof has the outbound premise h1. *)
Example C36_witness : exists proof forest, parse_proof ex_text = ROk proof /\ to_nodes proof = ROk forest /\
  List.length forest = 3 /\ to_list 100 forest = ROk (map zero_ctx proof) /\
  match nth_error forest 1 with Some (PSub _ _ _ [PAssume _ id 0 _] _) => id = "h1"%string | _ => False end /\
  map zero_ctx proof <> proof.
Proof.
  eexists. eexists. split; [vm_compute; reflexivity|]. split; [vm_compute; reflexivity|]. split; [reflexivity|].
  split; [vm_compute; reflexivity|]. split; [vm_compute; reflexivity|]. vm_compute. discriminate.
Qed.
