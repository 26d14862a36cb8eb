(** C34: the list of commands that is made after the local elaboration pass over a proof is accepted in elaborated mode. *)
From Coq Require Import List String ZArith Bool Arith Lia.
From Verif Require Import Base Term Rules R_Eq Polyeq Checker CheckerSound CheckerRefute Table Parser Elab ElabIds ElabRefute ElabSolver ElabSolverSound ElabLocal ElabOver Nodes GraphAccept SolverInsert GraphCheck GraphTree GraphWf GraphDone GraphReplace GraphInsert GraphPass P_ElabSolver.
Import ListNotations.
Local Open Scope string_scope.
Local Open Scope nat_scope.
Local Open Scope list_scope.

(** elaborated mode; unknown rules are errors *)
Definition cfg_elab : config := mkCfg true false [].

Section Fits.
  Variables (other : bool -> string -> crule) (prems : list term).
  (** [fit cx c ps args r]: the pass works for such steps in the context [cx]; [touched]: the rules of the steps that it elaborates *)
  Variables (fit : list (list anchor) -> clause -> list clause -> list term -> string -> Prop) (touched : string -> bool).
  (** The nodes for which a pass works: the assumptions are literally among the assertions, the steps are as [fit] says, the closing steps of subproofs
      have rules that are not elaborated and accept them in elaborated mode. *)
  Fixpoint node_fits (cx : list (list anchor)) (n : pnode) : Prop :=
    match n with
    | PAssume _ _ _ t => cx = [] -> In t prems
    | PStep _ _ _ cl r ps args _ None => fit cx cl (map pclause ps) args r
    | PStep _ _ _ cl r ps args ds (Some p) => touched r = false /\ run other r (mkRA cl (map pclause ps) args cx (Some (pclause p)) (map as_command ds))
    | PSub _ l args _ extra => node_fits (args :: cx) l /\ (fix all (k : list pnode) : Prop := match k with [] => True | x :: k => node_fits (args :: cx) x /\ all k end) extra
    end.
  Lemma fits_each cx l : (fix all (k : list pnode) : Prop := match k with [] => True | x :: k => node_fits cx x /\ all k end) l -> forall x, In x l -> node_fits cx x.
  Proof. induction l as [|y l IH]; intros H x Hx; [destruct Hx|]. destruct H as [H1 H2]. destruct Hx as [<-|Hx]; auto. Qed.
  Section Forest.
    Variable forest : list pnode.
    Hypothesis Hso : soks [] [] forest.
    Hypothesis Hnd : NoDup (map paddr (flat_map tree forest)).
    Lemma fits_tree n : forall path, placed forest path n -> node_fits (cxof (fanchor forest) path) n -> forall x, In x (tree n) -> node_fits (cxof (fanchor forest) (fhome forest (paddr x))) x.
    Proof.
      induction n as [a id d t|a id d cl r ps args ds prev _ _ _|a l args out extra Hl _ He] using pnode_ind'; intros path Hp Hg x Hx; destruct (placed_self forest Hnd _ _ Hp) as [Gn En].
      - destruct Hx as [<-|[]]. rewrite En. exact Hg.
      - destruct Hx as [<-|[]]. rewrite En. exact Hg.
      - destruct Hx as [<-|Hx]; [rewrite En; exact Hg|]. cbn [node_fits] in Hg. destruct Hg as [G1 G2]. pose proof (fits_each _ _ G2) as G3.
        assert (Ec : args :: cxof (fanchor forest) path = cxof (fanchor forest) (path ++ [a])) by (unfold cxof; rewrite map_app, rev_app_distr; cbn; rewrite (fanchor_sub forest Hnd _ _ _ _ _ Gn); reflexivity). rewrite Ec in G1, G3.
        apply in_app_iff in Hx. destruct Hx as [Hx|Hx].
        + apply (Hl (path ++ [a])); auto. eapply placed_kid; [exact Hp|left; reflexivity].
        + apply in_flat_map in Hx. destruct Hx as (y & Hy & Hx). rewrite Forall_forall in He. apply (He y Hy (path ++ [a])); auto. eapply placed_kid; [exact Hp|right; exact Hy].
    Qed.
    Lemma fits_at x : Forall (node_fits []) forest -> fnode forest x -> node_fits (cxof (fanchor forest) (fhome forest (paddr x))) x.
    Proof.
      intros HF Hx. apply in_flat_map in Hx. destruct Hx as (y & Hy & Hx). apply (fits_tree y []); auto.
      - split; intros w Hw; apply in_flat_map; eauto.
      - rewrite Forall_forall in HF. apply HF. exact Hy.
    Qed.
  End Forest.
End Fits.
(** the rules of the steps of a proof, and of those that the pass adds *)
Definition pass_rules (proof : list command) : list string := flat_map cmd_rules proof ++ "refl" :: map fst intro_rules.
Definition known (other : bool -> string -> crule) (L : list string) (r : string) : Prop := In r L /\ rule_table other true r <> None.
Lemma over_good other (Q : string -> Prop) L cx ps n : (forall r, Q r -> In r L) -> over Q (map EPrem ps) n -> accepted other cx n -> egood (rule_table other) cfg_elab (known other L) cx ps n.
Proof.
  intros HQ. induction 1 as [n Hn|c r es args Hr Hes IH]; intros Ha.
  - apply in_map_iff in Hn. destruct Hn as (c & <- & Hc). exact Hc.
  - apply accepted_step in Ha. destruct Ha as [H1 H2]. cbn [egood]. split; [split; [split; [apply HQ; exact Hr|destruct H1 as (f & -> & _); discriminate]|exact H1]|]. rewrite Forall_forall in H2. clear Hes H1 Hr. revert IH H2. induction es as [|e es IHe]; intros IH H2; [exact I|].
    split; [apply IH; [left; reflexivity|apply H2; left; reflexivity]|]. apply IHe; intros z Hz; [apply IH|apply H2]; right; exact Hz.
Qed.


Section Pass_list.
  Variables (other : bool -> string -> crule) (fit : list (list anchor) -> clause -> list clause -> list term -> string -> Prop) (touched : string -> bool).
  Variable estep : clause -> string -> list enode -> list term -> outcome enode.
  Hypothesis Hfit : forall cx c ps args r, fit cx c ps args r -> exists e, estep c r (map EPrem ps) args = ROk e /\ eclause e = c /\ accepted other cx e /\ over_root (new_rule r) (map EPrem ps) e.
  Theorem pass_accepted prems proof el b forest nid K :
    forallb shape_ok proof = true -> check (rule_table other) (mkCfg el false []) prems proof = ROk b -> to_nodes proof = ROk forest ->
    Forall (node_fits other prems fit touched []) forest -> (forall x, fnode forest x -> paddr x < K) ->
    exists forest' out b' k, omap (pass estep nid K) forest = ROk forest' /\ (forall fuel, to_list (k + fuel) forest' = ROk out) /\
      check (rule_table other) cfg_elab prems out = ROk b' /\ (~ In "hole" (flat_map cmd_rules proof) -> ~ In "lia_generic" (flat_map cmd_rules proof) -> b' = false).
  Proof.
    intros Hsh Hch Hn HF HK.
    assert (Hsub : rule_table other el "subproof" = Some subproof) by (destruct el; reflexivity).
    pose proof (proof_graph (rule_table other) (mkCfg el false []) prems 0 proof b forest (fun _ => True) eq_refl eq_refl Hsub Hsh Hch Hn (fun _ _ _ _ _ _ _ _ _ _ => I) K HK) as [GW GT GR _ GP _ _ _].
    destruct (nodes_sok 0 proof forest Hn Hsh) as (Hso & k' & _ & Hnd & _).
    assert (HR : forall a id d cl r ps args ds prev, fnode forest (PStep a id d cl r ps args ds prev) -> In r (flat_map cmd_rules proof)).
    { intros a id d cl r ps args ds prev H. apply in_flat_map in H. destruct H as (y & Hy & H). apply (nodes_rules_from (fun r => In r (flat_map cmd_rules proof)) 0 proof forest Hn ltac:(auto) y Hy). eapply tree_rules; exact H. }
    assert (HL : forall r0 r, In r0 (flat_map cmd_rules proof) -> new_rule r0 r -> In r (pass_rules proof)) by (intros r0 r H [->|H']; apply in_app_iff; auto).
    destruct (pass_list (rule_table other) (mkCfg el false []) cfg_elab prems (fun _ => True) (known other (pass_rules proof)) forest estep nid K Hso Hnd GW HK) as (forest' & fuel & out & b' & A & B & C & D); auto.
    - intros x c Hx Hc. apply (GP x c Hx Hc).
    - intros a id d t H Hh. pose proof (fits_at other prems fit touched forest Hnd _ HF H) as Hf. cbn [node_fits paddr] in Hf. rewrite Hh in Hf. unfold check_assume. rewrite (proj2 (memb_In term_eqb term_eqb_eq t prems)); [reflexivity|]. apply Hf. reflexivity.
    - intros a id d cl r ps args H. pose proof (fits_at other prems fit touched forest Hnd _ HF H) as Hf. cbn [node_fits paddr] in Hf.
      destruct (Hfit _ _ _ _ _ Hf) as (e & E1 & E2 & E3 & Ho). rewrite map_map in E1. exists e. split; [exact E1|]. split; [exact E2|]. split; [destruct Ho as (? & ? & ? & ? & -> & _); reflexivity|].
      apply (over_good other (new_rule r)); [intros r' Hr'; eapply HL; [eapply HR; exact H|exact Hr']| |exact E3]. apply root_over. exact Ho.
    - intros a id d cl r ps args ds p H. pose proof (fits_at other prems fit touched forest Hnd _ HF H) as Hf. cbn [node_fits paddr] in Hf. destruct Hf as [_ Hf]. split; [|exact Hf]. split; [apply (HL r); [eapply HR; exact H|left; reflexivity]|]. destruct Hf as (f & -> & _). discriminate.
    - exists forest', out, b', fuel. split; [exact A|]. split; [intros f; apply tl_more; exact B|]. split; [exact C|]. intros H1 H2. destruct b'; [|reflexivity]. exfalso.
      pose proof (holey_exact _ _ _ _ _ C) as [X _]. destruct (X eq_refl) as (s & Hs & Hs'). destruct (D s Hs) as [Hin Hk]. unfold pass_rules in Hin. apply in_app_iff in Hin.
      destruct Hs' as [[]|[E|[E|E]]]; [exact (Hk E)| |]; rewrite E in Hin; (destruct Hin as [Hin|Hin]; [auto|cbn in Hin; repeat (destruct Hin as [Hin|Hin]; [discriminate|]); exact Hin]).
  Qed.
End Pass_list.

(** ** The local pass *)
Definition local_pass := pass elab_step.
(** An accepted proof is turned into a graph, the pass is run over it (the new nodes have addresses from [K] on and the ids [nid]), and the result is turned into
    a list: nothing panics (fuel only bounds the number of iterations), and the list is accepted in elaborated mode; it has no holes, if the proof has none.
    Missing: the steps that [step_fits] excludes, among them those for which the pass makes steps that are rejected (the refutations of C34). *)
Theorem C34_local_list_partial : forall other prems proof b forest nid K,
  forallb shape_ok proof = true -> check (rule_table other) cfg0 prems proof = ROk b -> to_nodes proof = ROk forest ->
  Forall (node_fits other prems (step_fits other) is_local []) forest -> (forall x, fnode forest x -> paddr x < K) ->
  exists forest' out b' k, omap (local_pass nid K) forest = ROk forest' /\ (forall fuel, to_list (k + fuel) forest' = ROk out) /\
    check (rule_table other) cfg_elab prems out = ROk b' /\ (~ In "hole" (flat_map cmd_rules proof) -> ~ In "lia_generic" (flat_map cmd_rules proof) -> b' = false).
Proof.
  intros other prems proof b forest nid K. apply pass_accepted with (el := false). intros cx c ps args r Hf.
  destruct (elab_step_ok other cx c (map EPrem ps) args r) as (e & E1 & E2 & E3).
  - rewrite map_map. cbn [eclause]. rewrite map_id. exact Hf.
  - apply Forall_forall. intros n Hn'. apply in_map_iff in Hn'. destruct Hn' as (q & <- & _). exact I.
  - exists e. split; [exact E1|]. split; [exact E2|]. split; [exact E3|]. exact (elab_step_over _ _ _ _ _ E1).
Qed.
Print Assumptions C34_local_list_partial.

(** ** An example: a chain of equalities in a subproof, with flipped premises *)
Definition ll_eq (a b : string) : term := eqv_ a b.
Definition ll_prems : list term := [ll_eq "b" "a"; ll_eq "b" "c"; tNot (ll_eq "a" "c"); vB "q"].
Definition ll_proof : list command :=
  [CAssume "h0" (ll_eq "b" "a"); CAssume "h1" (ll_eq "b" "c"); CAssume "h2" (tNot (ll_eq "a" "c")); CAssume "h3" (vB "q");
   CSub [CAssume "h4" (vB "q"); CStep (mkStep "t1" [ll_eq "a" "c"] "trans" [(0, 0); (0, 1)] [] []); CStep (mkStep "t2" [tNot (vB "q"); ll_eq "a" "c"] "subproof" [] [] [(1, 0)])] [] 0;
   CStep (mkStep "t3" [] "resolution" [(0, 4); (0, 3); (0, 2)] [vB "q"; tFalse; ll_eq "a" "c"; tTrue] [])].
Example C34_local_list_example : exists forest,
  forallb shape_ok ll_proof = true /\ check tab cfg0 ll_prems ll_proof = ROk false /\ to_nodes ll_proof = ROk forest /\
  Forall (node_fits no_rule ll_prems (step_fits no_rule) is_local []) forest /\ (forall x, fnode forest x -> paddr x < 20) /\
  exists out, (do f <- omap (local_pass (fun _ _ => "n") 20) forest ; to_list 50 f) = ROk out /\ map s_rule (proof_steps out) = ["symm"; "trans"; "subproof"; "resolution"].
Proof.
  destruct (to_nodes ll_proof) as [forest| |] eqn:E; [|vm_compute in E; discriminate|vm_compute in E; discriminate]. exists forest.
  split; [vm_compute; reflexivity|]. split; [vm_compute; reflexivity|]. split; [reflexivity|]. vm_compute in E. injection E as <-. split; [|split].
  - repeat apply Forall_cons; [intros _|intros _|intros _|intros _| | |constructor]; try (cbn; tauto).
    + cbn [node_fits]. split; [|split; [intros H; discriminate|split; [|exact I]]].
      * split; [reflexivity|]. eexists. split; [reflexivity|]. vm_compute. reflexivity.
      * apply Fit_trans. vm_compute. reflexivity.
    + cbn [node_fits]. apply Fit_pivots; [cbn; tauto|discriminate|]. vm_compute. reflexivity.
  - intros x Hx. vm_compute in Hx. repeat (destruct Hx as [<-|Hx]; [vm_compute; lia|]). destruct Hx.
  - eexists. split; vm_compute; reflexivity.
Qed.
