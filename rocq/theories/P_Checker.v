(** C01-C05: the sequential proof checker. [other] stands for the rules not modelled in Table.v. *)
From Coq Require Import List String ZArith QArith Bool.
From Verif Require Import Base Term Field Sem Sorting Rules Polyeq Std Checker CheckerSound CheckerSem Table CheckerRefute.
Import ListNotations.
Open Scope string_scope.

(** C01 fails: for the default configuration there are assertions that every interpretation can satisfy, and
    a well-formed, well-sorted proof of them that is reported valid without holes. Three independent
    witnesses (and two below): the greedy resolution rule, the linear arithmetic rule (also under the elaborated
    option), and the comparison of [assume] terms with the assertions. *)
Theorem C01_soundness_refuted : forall other,
  exists prems proof,
    check (rule_table other) cfg_default prems proof = ROk false /\
    forallb bool_term prems = true /\ forallb shape_ok proof = true /\ forallb cmd_wt proof = true /\
    forall I : interp, exists E : env I, env_ok E /\ forall p, In p prems -> holds E p = true.
Proof. exact soundness_refuted_resolution. Qed.
Print Assumptions C01_soundness_refuted.
Theorem C01_elaborated_soundness_refuted : forall other,
  exists prems proof,
    check (rule_table other) cfg_elaborated prems proof = ROk false /\
    forallb bool_term prems = true /\ forallb shape_ok proof = true /\ forallb cmd_wt proof = true /\
    forall I : interp, exists E : env I, env_ok E /\ forall p, In p prems -> holds E p = true.
Proof. exact soundness_refuted_la. Qed.
Print Assumptions C01_elaborated_soundness_refuted.
Theorem C01_assume_soundness_refuted : forall other,
  exists prems proof,
    check (rule_table other) cfg_default prems proof = ROk false /\
    forallb bool_term prems = true /\ forallb shape_ok proof = true /\ forallb cmd_wt proof = true /\
    forall I : interp, exists E : env I, env_ok E /\ forall p, In p prems -> holds E p = true.
Proof. exact soundness_refuted_assume. Qed.
Print Assumptions C01_assume_soundness_refuted.

(** Two more, in both modes: a subproof may be closed by any rule, so [refl] exports an equality about the anchor's variable as if it
    were about the global one; and the let rule. *)
Theorem C01_end_step_refuted : forall other cfg, cfg = cfg_default \/ cfg = cfg_elaborated ->
  exists prems proof,
    check (rule_table other) cfg prems proof = ROk false /\
    forallb bool_term prems = true /\ forallb shape_ok proof = true /\ forallb cmd_wt proof = true /\
    forall I : interp, exists E : env I, env_ok E /\ forall p, In p prems -> holds E p = true.
Proof. exact soundness_refuted_end. Qed.
Print Assumptions C01_end_step_refuted.
Theorem C01_let_refuted : forall other cfg, cfg = cfg_default \/ cfg = cfg_elaborated ->
  exists prems proof,
    check (rule_table other) cfg prems proof = ROk false /\
    forallb bool_term prems = true /\ forallb shape_ok proof = true /\ forallb cmd_wt proof = true /\
    forall I : interp, exists E : env I, env_ok E /\ forall p, In p prems -> holds E p = true.
Proof. exact soundness_refuted_let. Qed.
Print Assumptions C01_let_refuted.

(** The part of C01 that holds: a proof accepted without holes refutes its assertions, provided that
    - it has the shape and the sorts the parser enforces ([shape_ok], [cmd_wt]);
    - [wf_proof]: premises are earlier visible commands, premises from outer scopes do not mention
      variables rebound since, and each step satisfies the side condition of its rule ([rule_side]; false
      for the rules that are not modelled);
    - outermost assumptions are standard terms or the elaborated option is set.
    Missing: exactly the proofs excluded by these conditions. *)
Theorem C01_check_sound_partial : forall other cfg prems proof,
  check (rule_table other) cfg prems proof = ROk false ->
  forallb shape_ok proof = true -> forallb cmd_wt proof = true ->
  wf_proof (rule_side (elaborated cfg)) proof = true -> assumes_ok cfg prems proof = true ->
  forall (I : interp) (E : env I), env_ok E -> ~ (forall p, In p prems -> holds E p = true).
Proof. exact check_table_sound. Qed.
Print Assumptions C01_check_sound_partial.

(** The same for an arbitrary rule table: the checker's own logic (traversal, premise lookup,
    contexts, assumptions, discharging, verdict) adds no unsoundness to that of the rules. *)
Theorem C01_check_sound_relative_partial : forall table cfg prems side proof,
  table_sound table cfg side ->
  check table cfg prems proof = ROk false ->
  forallb shape_ok proof = true -> forallb cmd_wt proof = true -> wf_proof side proof = true ->
  assumes_ok cfg prems proof = true ->
  forall (I : interp) (E : env I), env_ok E -> ~ (forall p, In p prems -> holds E p = true).
Proof. exact check_sound. Qed.
Print Assumptions C01_check_sound_relative_partial.

(** C02: the verdict says "holey" exactly if some step of the proof, at any depth, was accepted
    because its rule is allowed by name, unknown, or a hole; and if it says "valid", every step was
    accepted by the function of its rule. *)
Theorem C02_holey_exact : forall table cfg prems proof b,
  check table cfg prems proof = ROk b ->
  (b = true <-> exists s, In s (proof_steps proof) /\
     (In (s_rule s) (allowed cfg) \/ table (elaborated cfg) (s_rule s) = None \/
      s_rule s = "hole" \/ s_rule s = "lia_generic")).
Proof. exact holey_exact. Qed.
Print Assumptions C02_holey_exact.
Theorem C02_valid_means_checked : forall table cfg prems proof,
  check table cfg prems proof = ROk false ->
  forall s, In s (proof_steps proof) ->
  exists r ra, table (elaborated cfg) (s_rule s) = Some r /\ r ra = ROk tt /\
    ra_concl ra = s_clause s /\ ra_args ra = s_args s.
Proof. exact check_accepted. Qed.
Print Assumptions C02_valid_means_checked.

(** C03: success needs an outermost command concluding the empty clause (for a subproof: its closing
    step); and if all commands are accepted, this alone decides between success and error. *)
Theorem C03_empty_clause_needed : forall table cfg prems proof b,
  check table cfg prems proof = ROk b -> forallb shape_ok proof = true ->
  exists c, In c proof /\ cmd_clause c = Some [].
Proof. exact check_reaches. Qed.
Print Assumptions C03_empty_clause_needed.
Theorem C03_verdict_exact : forall table cfg prems proof st,
  run_list table cfg prems proof [] proof 0 st0 = ROk st -> forallb shape_ok proof = true ->
  check table cfg prems proof =
    if existsb concl_empty proof then ROk (existsb (unchecked table cfg) (proof_steps proof)) else RErr.
Proof. exact check_verdict. Qed.
Print Assumptions C03_verdict_exact.
(** The loop over the explicit stack is the recursive traversal of the proof, and it always ends. *)
Theorem C03_loop_is_traversal : forall table cfg prems proof,
  check table cfg prems proof =
  (do st <- run_list table cfg prems proof [] proof 0 st0 ; if st_reached st then ROk (st_holey st) else RErr).
Proof. exact check_eq. Qed.
Print Assumptions C03_loop_is_traversal.

(** C04: each outermost assumption of an accepted proof is an assertion, or (not elaborated) is
    reported equal to one by the comparison; under the elaborated option it is an assertion. *)
Theorem C04_elaborated_assume_exact : forall table cfg prems proof b,
  check table cfg prems proof = ROk b -> elaborated cfg = true ->
  forall id t, In (CAssume id t) proof -> In t prems.
Proof. exact assume_exact. Qed.
Print Assumptions C04_elaborated_assume_exact.
(** C04 fails in general: an accepted proof assumes a formula that no assertion entails. *)
Theorem C04_assume_refuted : forall other,
  exists prems proof id t,
    check (rule_table other) cfg_default prems proof = ROk false /\ In (CAssume id t) proof /\
    forallb bool_term prems = true /\ bool_term t = true /\
    forall I : interp, exists E : env I, env_ok E /\ (forall p, In p prems -> holds E p = true) /\ holds E t = false.
Proof. exact assume_not_entailed. Qed.
Print Assumptions C04_assume_refuted.
(** It holds for standard terms. *)
Theorem C04_assume_entailed_partial : forall table cfg prems proof b,
  check table cfg prems proof = ROk b ->
  forallb cmd_wt proof = true -> assumes_ok cfg prems proof = true ->
  forall id t, In (CAssume id t) proof ->
  exists p, In p prems /\ forall (I : interp) (E : env I), env_ok E -> holds E t = holds E p.
Proof. exact assume_entailed. Qed.
Print Assumptions C04_assume_entailed_partial.

(** C05: a subproof closed by a checked step lists every local assumption as discharged, and only
    the rule "subproof" can close a subproof with assumptions. *)
Theorem C05_all_assumptions_discharged : forall table cfg prems sub args k i cs out st st',
  run table cfg prems (CSub sub args k) ((i, cs) :: out) st = ROk st' ->
  shape_ok (CSub sub args k) = true ->
  existsb (unchecked table cfg) (cmd_steps (CSub sub args k)) = false ->
  exists s, last sub (CAssume "" tTrue) = CStep s /\
  forall j id t, nth_error sub j = Some (CAssume id t) ->
    s_rule s = "subproof" /\ In (S (List.length out), j) (s_disch s).
Proof. exact run_discharges. Qed.
Print Assumptions C05_all_assumptions_discharged.
(** The clause exported by the discharging rule holds outside, if inside the last command holds under
    the discharged assumptions. Missing: subproofs whose conclusion mentions variables of the anchor,
    and comparisons of terms outside the standard fragment. *)
Theorem C05_discharge_sound_partial : forall ra a cx prev,
  subproof ra = ROk tt -> subproof_side ra = true -> ra_wt ra = true ->
  ra_ctx ra = a :: cx -> ra_prev ra = Some prev ->
  forall (I : interp) (E : env I), in_ctx cx E ->
  (forall E', ext a E E' -> (forall id t, In (CAssume id t) (ra_disch ra) -> holds E' t = true) ->
     (forall p, In p (ra_prems ra) -> clause_holds E' p) /\ clause_holds E' prev) ->
  clause_holds E (ra_concl ra).
Proof. exact subproof_end. Qed.
Print Assumptions C05_discharge_sound_partial.

(** A proof with a subproof that meets all hypotheses: from p, (=> p q), (not q). *)
Definition pv := TVar "p" SBool.
Definition qv := TVar "q" SBool.
Definition ex_prems : list term := [pv; TOp OImplies [pv; qv]; tNot qv].
Definition ex_proof : list command :=
  [ CAssume "h1" pv; CAssume "h2" (TOp OImplies [pv; qv]); CAssume "h3" (tNot qv);
    CSub [ CAssume "t4.h" pv;
           CStep (mkStep "t4.t1" [tNot pv; qv] "implies" [(0, 1)%nat] [] []);
           CStep (mkStep "t4.t2" [qv] "resolution" [(1, 1); (1, 0)]%nat [] []);
           CStep (mkStep "t4" [tNot pv; qv] "subproof" [] [] [(1, 0)%nat]) ] [] 0;
    CStep (mkStep "t5" [] "resolution" [(0, 3); (0, 0); (0, 2)]%nat [] []) ].
Definition no_other : bool -> string -> crule := fun _ _ _ => RErr.
Example C01_partial_witness :
  check (rule_table no_other) cfg_default ex_prems ex_proof = ROk false /\
  forallb shape_ok ex_proof = true /\ forallb cmd_wt ex_proof = true /\
  wf_proof (rule_side false) ex_proof = true /\ assumes_ok cfg_default ex_prems ex_proof = true.
Proof. vm_compute. repeat split. Qed.
(** replacing the last step by a hole makes it holey; dropping it makes it an error *)
Example C02_witness :
  check (rule_table no_other) cfg_default ex_prems
    (firstn 4 ex_proof ++ [CStep (mkStep "t5" [] "hole" [] [] [])]) = ROk true.
Proof. vm_compute. reflexivity. Qed.
Example C03_witness : check (rule_table no_other) cfg_default ex_prems (firstn 4 ex_proof) = RErr.
Proof. vm_compute. reflexivity. Qed.
(** not discharging the assumption is an error *)
Example C05_witness :
  check (rule_table no_other) cfg_default ex_prems
    [ CSub [ CAssume "t4.h" pv; CStep (mkStep "t4.t1" [pv; tNot pv] "hole" [] [] []);
             CStep (mkStep "t4.t2" [pv] "hole" [] [] []);
             CStep (mkStep "t4" [pv] "subproof" [] [] []) ] [] 0;
      CStep (mkStep "t5" [] "hole" [] [] []) ] = RErr.
Proof. vm_compute. reflexivity. Qed.
(** a proof with a bind subproof: (forall x. x > a) and the negation of its renamed variant *)
Definition qa (n : string) : term := TBind BForall [(n, SInt)] (TOp OGt [TVar n SInt; TVar "a" SInt]).
Definition ex_bind : list command :=
  [ CAssume "h1" (qa "x"); CAssume "h2" (tNot (qa "y"));
    CSub [ CStep (mkStep "t1.t1" [tEq (TOp OGt [TVar "x" SInt; TVar "a" SInt]) (TOp OGt [TVar "y" SInt; TVar "a" SInt])] "refl" [] [] []);
           CStep (mkStep "t1" [tEq (qa "x") (qa "y")] "bind" [] [] []) ] [AVar ("y", SInt); AAssign ("x", SInt) (TVar "y" SInt)] 0;
    CStep (mkStep "t2" [tNot (qa "x"); qa "y"] "equiv1" [(0, 2)%nat] [] []);
    CStep (mkStep "t3" [] "resolution" [(0, 3); (0, 0); (0, 1)]%nat [qa "x"; tFalse; qa "y"; tTrue] []) ].
Example C01_partial_witness_bind : forall el,
  let cfg := mkCfg el false [] in let prems := [qa "x"; tNot (qa "y")] in
  check (rule_table no_other) cfg prems ex_bind = ROk false /\
  forallb shape_ok ex_bind = true /\ forallb cmd_wt ex_bind = true /\
  wf_proof (rule_side el) ex_bind = true /\ assumes_ok cfg prems ex_bind = true.
Proof. intros [|]; vm_compute; repeat split. Qed.
