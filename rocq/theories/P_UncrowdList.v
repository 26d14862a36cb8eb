(** C34: the list of commands that is made after the uncrowding pass over a proof is accepted in elaborated mode. *)
From Coq Require Import List String ZArith Bool Arith Lia Permutation.
From Verif Require Import Base Term Rules R_Resolution R_Extras R_ResExact R_Eq Utils Polyeq Checker CheckerSound CheckerRefute Table Parser Elab ElabFlip ElabIds ElabRefute ElabRes ElabUncrowd ElabUncrowdSound ElabReorder ElabReorderSound Nodes ElabSolver ElabSolverSound ElabLocal ElabOver GraphAccept SolverInsert GraphCheck GraphTree GraphWf GraphDone GraphReplace GraphInsert GraphPass P_ElabSolver P_ElabUncrowd P_LocalList.
Import ListNotations.
Local Open Scope string_scope.
Local Open Scope nat_scope.
Local Open Scope list_scope.

(** ** Uncrowding *)
(** the resolution steps with pivots are uncrowded (see C34_uncrowd_partial for the conditions) *)
Inductive uncrowd_fits (other : bool -> string -> crule) (cx : list (list anchor)) (c : clause) (ps : list clause) (args : list term) : string -> Prop :=
| UF_resolution r : is_res r = true -> args <> [] -> r_resolution_with_args c ps args = ROk tt -> no_return (res_steps ps args) -> first_once ps args -> uncrowd_fits other cx c ps args r
| UF_other r : is_res r = false \/ args = [] -> run other r (mkRA c ps args cx None []) -> uncrowd_fits other cx c ps args r.
Definition uncrowd_node (c : clause) (r : string) (ps : list enode) (args : list term) : outcome enode := uncrowd_step c r ps args false.
Theorem C34_uncrowd_list_partial : forall other prems proof el b forest nid K,
  forallb shape_ok proof = true -> check (rule_table other) (mkCfg el false []) prems proof = ROk b -> to_nodes proof = ROk forest ->
  Forall (node_fits other prems (uncrowd_fits other) is_res []) forest -> (forall x, fnode forest x -> paddr x < K) ->
  exists forest' out b' k, omap (pass uncrowd_node nid K) forest = ROk forest' /\ (forall fuel, to_list (k + fuel) forest' = ROk out) /\
    check (rule_table other) cfg_elab prems out = ROk b' /\ (~ In "hole" (flat_map cmd_rules proof) -> ~ In "lia_generic" (flat_map cmd_rules proof) -> b' = false).
Proof.
  intros other prems proof el b forest nid K. apply pass_accepted. intros cx c ps args r Hf.
  assert (Em : map eclause (map EPrem ps) = ps) by (rewrite map_map; cbn [eclause]; apply map_id).
  inversion Hf as [r' H1 H2 H3 H4 H5|r' H1 H2]; subst r'; unfold uncrowd_node, uncrowd_step.
  - destruct args as [|t args]; [congruence|]. rewrite H1. rewrite <- Em in H3, H4, H5.
    destruct (uncrowd_keeps (fun n => accepted other cx n /\ over (new_rule r) (map EPrem ps) n)) with (5 := H3) (7 := H4) (8 := H5) as (n & E1 & E2 & [E3 E4] & rr & qs & a & E5 & E6).
    + intros c' qs a HF HR _. split; [apply accepted_step; split; [apply (run_plain other "resolution" r_resolution_with_args); [cbn; tauto|exact HR]|]|apply Over_step; [right; cbn; tauto|]].
      * eapply Forall_impl; [|exact HF]. intros n Hn. apply Hn.
      * intros e He. rewrite Forall_forall in HF. apply (HF e He).
    + intros n [Hn Hn']. split; [apply accepted_step; split; [apply (run_plain other "contraction" r_contraction); [cbn; tauto|apply contraction_ok]|constructor; auto]|apply Over_step; [right; cbn; tauto|intros e [<-|[]]; exact Hn']].
    + intros n w [Hn Hn']. split; [apply accepted_step; split; [apply (run_plain other "weakening" r_weakening); [cbn; tauto|apply weakening_ok]|constructor; auto]|apply Over_step; [right; cbn; tauto|intros e [<-|[]]; exact Hn']].
    + intros n c' [Hn Hn'] HP. split; [apply accepted_step; split; [apply (run_plain other "reordering" r_reordering); [cbn; tauto|apply reordering_ok; exact HP]|constructor; auto]|apply Over_step; [right; cbn; tauto|intros e [<-|[]]; exact Hn']].
    + apply Forall_forall. intros n Hn. split; [|apply Over_prem; exact Hn]. apply in_map_iff in Hn. destruct Hn as (q & <- & _). exact I.
    + exists n. split; [exact E1|]. split; [exact E2|]. split; [exact E3|]. rewrite E5 in E4 |- *. inversion E4 as [? Hin|? ? ? ? Hr Hes]; subst; [apply in_map_iff in Hin; destruct Hin as (? & ? & _); discriminate|].
      apply root_mk; assumption.
  - exists (EStep c r (map EPrem ps) args). split; [destruct args; [reflexivity|]; destruct H1 as [->|H1]; [reflexivity|discriminate]|]. split; [reflexivity|]. split.
    + apply accepted_step. rewrite Em. split; [exact H2|]. apply Forall_forall. intros n Hn. apply in_map_iff in Hn. destruct Hn as (q & <- & _). exact I.
    + apply root_mk; [left; reflexivity|]. intros e He. apply Over_prem. exact He.
Qed.
Print Assumptions C34_uncrowd_list_partial.

(** ** An example: the chain of C34_uncrowd_partial's example, in a subproof; its premises are made of disjunctions that are asserted *)
Definition ul_or (c : clause) : term := match c with [t] => t | _ => TOp OOr c end.
Definition ul_prems : list term := map ul_or uc_prems ++ [n_ "w"; vB "q"].
Definition ul_assumes : list command := map (fun p => CAssume (fst p) (snd p)) (combine ["h0"; "h1"; "h2"; "h3"; "h4"; "h5"; "h6"; "h7"; "h8"; "h9"] ul_prems).
Definition ul_proof : list command :=
  ul_assumes ++
  [CStep (mkStep "o0" (nth 0 uc_prems []) "or" [(0, 0)] [] []); CStep (mkStep "o1" (nth 1 uc_prems []) "or" [(0, 1)] [] []); CStep (mkStep "o2" (nth 2 uc_prems []) "or" [(0, 2)] [] []);
   CStep (mkStep "o4" (nth 4 uc_prems []) "or" [(0, 4)] [] []); CStep (mkStep "o5" (nth 5 uc_prems []) "or" [(0, 5)] [] []); CStep (mkStep "o6" (nth 6 uc_prems []) "or" [(0, 6)] [] []);
   CSub [CAssume "s0" (vB "q"); CStep (mkStep "s1" [vB "w"] "resolution" [(0, 10); (0, 11); (0, 12); (0, 3); (0, 13); (0, 14); (0, 15); (0, 7)] uc_args []); CStep (mkStep "s2" [tNot (vB "q"); vB "w"] "subproof" [] [] [(1, 0)])] [] 0;
   CStep (mkStep "e" [] "resolution" [(0, 16); (0, 9); (0, 8)] [vB "q"; tFalse; vB "w"; tTrue] [])].
Example C34_uncrowd_list_example : exists forest,
  forallb shape_ok ul_proof = true /\ check tab cfg_elab ul_prems ul_proof = ROk false /\ to_nodes ul_proof = ROk forest /\
  Forall (node_fits no_rule ul_prems (uncrowd_fits no_rule) is_res []) forest /\ (forall x, fnode forest x -> paddr x < 40) /\
  exists out, (do f <- omap (pass uncrowd_node (fun _ _ => "n") 40) forest ; to_list 100 f) = ROk out /\
    map s_rule (proof_steps out) = ["or"; "or"; "or"; "or"; "or"; "or"; "resolution"; "contraction"; "resolution"; "contraction"; "resolution"; "contraction"; "resolution"; "subproof"; "resolution"].
Proof.
  destruct (to_nodes ul_proof) as [forest| |] eqn:E; [|vm_compute in E; discriminate|vm_compute in E; discriminate]. exists forest.
  split; [vm_compute; reflexivity|]. split; [vm_compute; reflexivity|]. split; [reflexivity|]. vm_compute in E. injection E as <-. split; [|split].
  - repeat apply Forall_cons; try apply Forall_nil.
    all: try (intros _; apply (memb_In term_eqb term_eqb_eq); vm_compute; reflexivity).
    all: try (cbn [node_fits]; apply UF_other; [left; reflexivity|]; eexists; split; [reflexivity|]; vm_compute; reflexivity).
    + cbn [node_fits]. split; [|split; [intros H; discriminate|split; [|exact I]]].
      * split; [reflexivity|]. eexists. split; [reflexivity|]. vm_compute. reflexivity.
      * destruct uc_fits as (H1 & H2 & H3). apply UF_resolution; [reflexivity|discriminate|exact H1|exact H2|exact H3].
    + cbn [node_fits]. apply UF_resolution; [reflexivity|discriminate|vm_compute; reflexivity| |vm_compute; lia].
      cbn -[In]. repeat split; intros F HE HI; cbn in HE; repeat (destruct HE as [<-|HE]; [revert HI; cbn; intuition discriminate|]); destruct HE.
  - intros x Hx. vm_compute in Hx. repeat (destruct Hx as [<-|Hx]; [vm_compute; lia|]). destruct Hx.
  - eexists. split; vm_compute; reflexivity.
Qed.
