(** C47: the list of commands that is made after a step has been replaced by a solver's proof is accepted. *)
From Coq Require Import List String ZArith Bool Arith Lia.
From Verif Require Import Base Term Rules R_Eq Polyeq Checker CheckerSound CheckerRefute Table Parser Nodes ElabIds ElabSolver ElabSolverSound ElabRefute GraphAccept SolverInsert GraphCheck GraphTree GraphWf GraphDone GraphReplace GraphInsert GraphOwn SolverList P_ElabSolver.
Import ListNotations.
Local Open Scope string_scope.
Local Open Scope nat_scope.
Local Open Scope list_scope.

(** the rules of the steps that remain, and those of the solver's proof *)
Definition remaining_rules (a : nat) (forest : list pnode) (sp : list command) : list string := other_rules a forest ++ flat_map cmd_rules sp.
(** a list is made of the graph [forest] (without a panic, for enough fuel; fuel only bounds the number of iterations), and it is accepted; it has no holes,
    unless the steps that remain or the solver's proof have *)
Definition accepted_list (table : bool -> string -> option crule) (prems : list term) (rules : list string) (forest : list pnode) : Prop :=
  exists out b k, (forall fuel, to_list (k + fuel) forest = ROk out) /\
    check table cfg0 prems out = ROk b /\ (~ In "hole" rules -> ~ In "lia_generic" rules -> b = false).

Lemma list_accepted other prems sp forest a n : list_ok other prems sp forest a n -> accepted_list (rule_table other) prems (remaining_rules a forest sp) (map (replace_node a n) forest).
Proof.
  intros [(k & out & Ho) H]. destruct (H k out Ho) as [[b Hb] Hr]. exists out, b, k. split; [intros fuel; apply tl_more; exact Ho|]. split; [exact Hb|]. intros H1 H2. destruct b; [|reflexivity]. exfalso.
  pose proof (holey_exact _ _ _ _ _ Hb) as [X _]. destruct (X eq_refl) as (s & Hs & Hs'). destruct (Hr s Hs) as [Hin Hk]. cbn [elaborated allowed cfg0] in Hs'.
  assert (Hn : In (s_rule s) (remaining_rules a forest sp) \/ In (s_rule s) inserted_rules) by (unfold remaining_rules; rewrite in_app_iff; tauto).
  destruct Hs' as [[]|[E|[E|E]]]; [exact (Hk E)| |]; rewrite E in Hn; (destruct Hn as [Hn|Hn]; [auto|cbn in Hn; repeat (destruct Hn as [Hn|Hn]; [discriminate|]); exact Hn]).
Qed.

(** The step [a] of an accepted proof is replaced by an accepted solver's proof, whose nodes have other addresses (from [lo] below [k0]; the inserted nodes from [k0]). *)
Theorem C47_lia_list_partial : forall other prems premsS proof sp b bs forest sforest lo k0 a oid d concl orule ops oargs ods root,
  forallb shape_ok proof = true -> check (rule_table other) cfg0 prems proof = ROk b -> to_nodes proof = ROk forest ->
  forallb shape_ok sp = true -> check (rule_table other) cfg0 premsS sp = ROk bs -> nodes_from lo sp = ROk sforest ->
  no_context sp = true -> forallb (own_discharge 0) sp = true -> (forall t, In t (assumed sp) -> In t (map tNot concl)) -> NoDup (assumed sp) ->
  (forall x, fnode forest x -> paddr x < lo) -> lo <= k0 /\ (forall x, fnode sforest x -> paddr x < k0) ->
  fnode forest (PStep a oid d concl orule ops oargs ods None) ->
  exists n, lia_insert k0 root d concl sforest = ROk n /\ pclause n = concl /\ accepted_list (rule_table other) prems (remaining_rules a forest sp) (map (replace_node a n) forest).
Proof.
  intros. edestruct (lia_list other prems premsS proof sp b bs forest sforest lo k0) as (n & A & B & C); eauto. exists n. split; [exact A|]. split; [exact B|]. apply list_accepted. exact C.
Qed.
Print Assumptions C47_lia_list_partial.
Theorem C47_hole_list_partial : forall other prems premsS proof sp b bs forest sforest lo k0 a oid d concl orule ops oargs ods root prf,
  forallb shape_ok proof = true -> check (rule_table other) cfg0 prems proof = ROk b -> to_nodes proof = ROk forest ->
  forallb shape_ok sp = true -> check (rule_table other) cfg0 premsS sp = ROk bs -> nodes_from lo sp = ROk sforest ->
  no_context sp = true -> forallb (own_discharge 0) sp = true ->
  solver_root sforest = ROk prf -> map assume_term (assumptions_of 0 prf) = map (fun l => Some (tNot l)) concl ->
  (forall x, fnode forest x -> paddr x < lo) -> lo <= k0 /\ (forall x, fnode sforest x -> paddr x < k0) ->
  fnode forest (PStep a oid d concl orule ops oargs ods None) ->
  exists n, hole_insert k0 root d concl sforest = ROk n /\ pclause n = concl /\ accepted_list (rule_table other) prems (remaining_rules a forest sp) (map (replace_node a n) forest).
Proof.
  intros. edestruct (hole_list other prems premsS proof sp b bs forest sforest lo k0) as (n & A & B & C); eauto. exists n. split; [exact A|]. split; [exact B|]. apply list_accepted. exact C.
Qed.
Print Assumptions C47_hole_list_partial.

(** ** Examples *)
(** the replaced step is in a subproof with a context *)
Definition ex_deep (rule : string) : list command :=
  [CAssume "h0" (vB "p"); CAssume "h1" (n_ "p"); CSub [CAssume "h2" (vB "q"); st_ "t1" ex_concl rule []; st_ "t2" [] "resolution" [(0, 0); (0, 1); (1, 1)]; CStep (mkStep "t3" [n_ "q"; tFalse] "subproof" [] [] [(1, 0)])] [] 0;
   st_ "t4" [] "resolution" [(0, 0); (0, 1)]].
Definition addresses_below (k : nat) (forest : list pnode) : bool := forallb (fun n => forallb (fun x => Nat.ltb (paddr x) k) (tree n)) forest.
Lemma below_ok k forest : addresses_below k forest = true -> forall x, fnode forest x -> paddr x < k.
Proof. intros H x Hx. apply in_flat_map in Hx. destruct Hx as (n & Hn & Hx). unfold addresses_below in H. rewrite forallb_forall in H. specialize (H n Hn). rewrite forallb_forall in H. apply Nat.ltb_lt, H. exact Hx. Qed.
Example C47_list_example : exists forest sforest oid ops oargs ods,
  forallb shape_ok (ex_deep "lia_generic") = true /\ check tab cfg0 [vB "p"; n_ "p"] (ex_deep "lia_generic") = ROk true /\ to_nodes (ex_deep "lia_generic") = ROk forest /\
  forallb shape_ok ex_sp = true /\ check tab cfg0 (map tNot ex_concl) ex_sp = ROk false /\ nodes_from 100 ex_sp = ROk sforest /\
  no_context ex_sp = true /\ forallb (own_discharge 0) ex_sp = true /\
  (forall x, fnode forest x -> paddr x < 100) /\ 100 <= 200 /\ (forall x, fnode sforest x -> paddr x < 200) /\
  fnode forest (PStep 3 oid 1 ex_concl "lia_generic" ops oargs ods None) /\
  exists prf, solver_root sforest = ROk prf /\ map assume_term (assumptions_of 0 prf) = map (fun l => Some (tNot l)) ex_concl.
Proof.
  destruct (to_nodes (ex_deep "lia_generic")) as [forest| |] eqn:E; [|vm_compute in E; discriminate|vm_compute in E; discriminate].
  destruct (nodes_from 100 ex_sp) as [sforest| |] eqn:E'; [|vm_compute in E'; discriminate|vm_compute in E'; discriminate].
  exists forest, sforest, "t1", [], [], []. split; [vm_compute; reflexivity|]. split; [vm_compute; reflexivity|]. split; [reflexivity|]. split; [vm_compute; reflexivity|]. split; [vm_compute; reflexivity|]. split; [reflexivity|].
  split; [vm_compute; reflexivity|]. split; [vm_compute; reflexivity|]. vm_compute in E, E'. injection E as <-. injection E' as <-.
  split; [apply below_ok; vm_compute; reflexivity|]. split; [lia|]. split; [apply below_ok; vm_compute; reflexivity|]. split; [vm_compute; tauto|].
  eexists. split; [vm_compute; reflexivity|]. vm_compute. reflexivity.
Qed.

(** ** A refutation *)
(** a subproof of the solver's proof, on which no other step depends, discharges an assumption of the solver: it is not found among the assumptions, so the
    inserted subproof does not discharge it *)
Definition rf_outer : list command :=
  [CAssume "h0" (tNot (vB "r")); CAssume "h1" (n_ "p"); CAssume "h2" (tNot (n_ "p"));
   CSub [CAssume "h3" (n_ "p");
         CSub [CAssume "h4" (vB "q"); st_ "s0" [tEq (vB "q") (vB "q")] "refl" []; CStep (mkStep "s1" [n_ "q"; tNot (tNot (vB "r")); tEq (vB "q") (vB "q")] "subproof" [] [] [(2, 0); (0, 0)])] [] 0;
         st_ "s2" [] "resolution" [(1, 0); (0, 2)]; CStep (mkStep "s3" [tNot (n_ "p"); tFalse] "subproof" [] [] [(1, 0)])] [] 0;
   st_ "s4" [tNot tFalse] "false" []; st_ "s5" [] "resolution" [(0, 3); (0, 1); (0, 4)]].
Theorem C47_lia_outer_refuted : exists concl sp, insertion_rejected lia_insert "lia_generic" cfg0 concl sp.
Proof. exists [vB "p"; n_ "p"; vB "r"], rf_outer. rejected [tNot (vB "r"); vB "p"; n_ "p"]. Qed.
Print Assumptions C47_lia_outer_refuted.
