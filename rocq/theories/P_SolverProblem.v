(** C60: the problems that are written for external solvers say that the clause of the step is false. *)
From Coq Require Import List Bool NArith ZArith QArith Arith String.
From Verif Require Import Base Term Sem Sorting Refute Rules Checker CheckerSound Table Lexer TermIO TermIOSound Parser ParserSound P_Parser P_TermIO ProofIO ProofIOSound P_ProofIO WellSorted P_WellSorted ProblemIO ProblemIOSound P_ProblemPrint P_ProblemMeaning
  Nodes ElabSolver ElabSolverSound ElabRefute GraphAccept SolverInsert P_ElabSolver SolverProblem.
Import ListNotations.
Local Open Scope string_scope.
Local Open Scope nat_scope.
Local Open Scope list_scope.

Lemma negated_meaning c (I : interp) (E : env I) : forallb nat_indices c = true ->
  (forall t, In t (fold_left add_prem (map plain (map tNot (dedup c))) []) -> holds E t = true) <-> ~ clause_holds E c.
Proof.
  intros Hn. rewrite forallb_forall in Hn. assert (Hp : forall t, In t c -> holds E (plain (tNot t)) = negb (holds E t)).
  { intros t Ht. change (plain (tNot t)) with (tNot (plain t)). rewrite holds_not. f_equal. unfold holds. rewrite (plain_eval t (Hn t Ht)). reflexivity. }
  split.
  - intros H [t [Ht Hh]]. specialize (H (plain (tNot t))). rewrite Hp, Hh in H by exact Ht. discriminate H. apply add_In. right. apply in_map, in_map. apply dedup_In. exact Ht.
  - intros H t Ht. apply add_In in Ht. destruct Ht as [[]|Ht]. apply in_map_iff in Ht. destruct Ht as (u & <- & Hu). apply in_map_iff in Hu. destruct Hu as (v & <- & Hv). pose proof (proj1 (dedup_In _ _) Hv) as Hv'. rewrite Hp by exact Hv'.
    destruct (holds E v) eqn:Eh; [|reflexivity]. destruct H. exists v. auto.
Qed.
(** The text is written, it can be read, declares what the problem declares, and its assertions hold exactly if the clause does not. So it is unsatisfiable exactly if the clause is
    valid. Without sharing (hole.rs, and lib.rs with [--no-print-with-sharing]); [rclause]: names, sorts and terms can be read. *)
Definition negates (p : prelude) (c : clause) (cf : pcfg) (ap : bool) (txt : text) : Prop :=
  exists s, read_problem_text cf ap txt = ROk s /\ pb_pre s = mkPr (Some (logic_of p)) (pr_sorts p) (pr_funs p) /\
    forall (I : interp) (E : env I), (forall t, In t (pb_prems s) -> holds E t = true) <-> ~ clause_holds E c.
Theorem C60_file_partial : forall cf ap p c, rclause cf p c = true -> forallb at_free c = true -> forallb nat_indices c = true ->
  exists txt, lia_file no_share p c = ROk txt /\ negates p c cf ap txt.
Proof.
  intros cf ap p c H1 H2 H3. destruct (lia_file_read cf ap p c H1 H2) as [txt [Ht Hr]]. exists txt. split; [exact Ht|]. eexists. split; [exact Hr|]. split; [reflexivity|]. intros I E. apply negated_meaning. exact H3.
Qed.
Print Assumptions C60_file_partial.
Theorem C60_solver_partial : forall cf ap p c, rclause cf p c = true -> forallb at_free c = true -> forallb nat_indices c = true ->
  exists txt, solver_problem no_share p c = ROk txt /\ negates p c cf ap txt.
Proof.
  intros cf ap p c H1 H2 H3. destruct (solver_problem_read cf ap p c H1 H2) as [txt [Ht Hr]]. exists txt. split; [exact Ht|]. eexists. split; [exact Hr|]. split; [reflexivity|]. intros I E. apply negated_meaning. exact H3.
Qed.
Print Assumptions C60_solver_partial.
(** Exactly the steps with rule lia_generic outside of subproofs get a file, in order. *)
Theorem C60_files_partial : forall cf ap p proof, (forall s, In (CStep s) proof -> s_rule s = "lia_generic" -> rclause cf p (s_clause s) = true /\ forallb at_free (s_clause s) = true /\ forallb nat_indices (s_clause s) = true) ->
  exists files, lia_files no_share p proof = ROk files /\
    map fst files = map s_id (flat_map (fun c => match c with CStep s => if String.eqb (s_rule s) "lia_generic" then [s] else [] | _ => [] end) proof) /\
    (forall id txt, In (id, txt) files -> exists s, In (CStep s) proof /\ s_rule s = "lia_generic" /\ s_id s = id /\ negates p (s_clause s) cf ap txt).
Proof.
  intros cf ap p proof H. unfold lia_files. set (l := flat_map _ proof).
  assert (Hl : forall s, In s l -> In (CStep s) proof /\ s_rule s = "lia_generic").
  { intros s Hs. apply in_flat_map in Hs. destruct Hs as (c & Hc & Hs). destruct c as [|s'|]; try destruct Hs. destruct (String.eqb (s_rule s') "lia_generic") eqn:E; [|destruct Hs]. destruct Hs as [<-|[]]. apply String.eqb_eq in E. auto. }
  clearbody l. induction l as [|s l IH]; [exists []; cbn; split; [reflexivity|]; split; [reflexivity|]; intros ? ? []|].
  destruct IH as (files & Hf & Hm & Hn); [intros; apply Hl; right; assumption|]. destruct (Hl s (or_introl eq_refl)) as [Hs Hr]. destruct (H s Hs Hr) as (A & B & C). destruct (C60_file_partial cf ap p _ A B C) as (txt & Ht & Hneg).
  exists ((s_id s, txt) :: files). cbn [omap]. rewrite Ht. cbn [obind]. rewrite Hf. cbn [obind]. split; [reflexivity|]. split; [cbn [map fst]; rewrite Hm; reflexivity|].
  intros id t [E|Hin]; [|auto]. injection E as <- <-. exists s. auto.
Qed.
Print Assumptions C60_files_partial.
(** ** With the solver's proof (C47) *)
(** The text that is given to the solver, and what is read from its answer: if the answer is read and accepted for this problem, and its assumptions are literally assertions of the
    problem, the proof is inserted and accepted. (lia_generic.rs prints with sharing: this holds if no term is shared.) *)
Theorem C47_lia_text_partial : forall other p concl k root cx, rclause solver_cf p concl = true -> forallb at_free concl = true -> forallb natural concl = true ->
  exists problem, solver_problem no_share p concl = ROk problem /\
  forall answer prems sp b, read_instance solver_cf false false problem answer = ROk (prems, sp) -> check (rule_table other) cfg0 prems sp = ROk b ->
    no_context sp = true -> (forall t, In t (assumed sp) -> In t prems) -> NoDup (assumed sp) ->
    exists forest n, to_nodes sp = ROk forest /\ lia_insert k root (List.length cx) concl forest = ROk n /\ pclause n = concl /\ gok (rule_table other false) cx n.
Proof.
  intros other p concl k root cx H1 H2 H3. destruct (solver_problem_read solver_cf false p concl H1 H2) as [txt [Ht Hr]]. exists txt. split; [exact Ht|]. intros answer prems sp b Hi Hc Hn Ha Hd.
  unfold read_instance in Hi. rewrite Hr in Hi. cbn [obind] in Hi. apply obind_ok in Hi. destruct Hi as [q [Hq Hi]]. injection Hi as <- <-. destruct (text_raws _ _ _ _ _ _ _ Hq) as [rs Hp].
  eapply C47_lia_partial; eauto; [exact (parse_shape _ _ Hp)|exact (parse_refs _ _ Hp)|]. intros t Hit. specialize (Ha t Hit). cbn [printed_state pb_prems] in Ha. apply add_In in Ha. destruct Ha as [[]|Ha].
  apply in_map_iff in Ha. destruct Ha as (u & <- & Hu). apply in_map_iff in Hu. destruct Hu as (v & <- & Hv). pose proof (proj1 (dedup_In _ _) Hv) as Hv'. apply in_map_iff. exists v. split; [|exact Hv'].
  change (plain (tNot v)) with (tNot (plain v)). rewrite plain_natural; [reflexivity|]. rewrite forallb_forall in H3. auto.
Qed.
Print Assumptions C47_lia_text_partial.

(** ** Examples and refutations *)
Definition sx (x : string) : term := TVar x SInt.
Definition s_pre : prelude := mkPr (Some "QF_LIA") [] [("x", SInt)].
Definition s_clause1 : clause := [TOp OLt [sx "x"; TConst (CInt (-3))]; TOp OLt [sx "x"; TConst (CInt (-3))]; TOp OLe [TConst (CInt (-3)); sx "x"]].
Definition s_text : text := chars "(set-option :produce-proofs true)
(set-logic QF_LIA)
(declare-fun x () Int)
(assert (not (< x (- 3))))
(assert (not (<= (- 3) x)))
(check-sat)
(get-proof)
(exit)
".
Example C60_ex : rclause solver_cf s_pre s_clause1 = true /\ forallb at_free s_clause1 = true /\ forallb nat_indices s_clause1 = true /\ solver_problem no_share s_pre s_clause1 = ROk s_text.
Proof. repeat (split; [vm_compute; reflexivity|]). vm_compute. reflexivity. Qed.
(** The logic for holes *)
Example C60_hole_ex : pr_logic (hole_prelude s_pre) = Some "QF_LIRA" /\ hole_prelude (mkPr (Some "ALL") [] []) = mkPr (Some "ALL") [] [] /\ pr_funs (hole_prelude s_pre) = pr_funs s_pre.
Proof. repeat split. Qed.
(** An answer that meets the hypotheses of [C47_lia_text_partial], and the result *)
Definition n_clause : clause := [TOp OLt [sx "x"; TConst (CInt 3)]; tNot (TOp OLt [sx "x"; TConst (CInt 3)])].
Definition n_text : text := Eval vm_compute in match solver_problem no_share s_pre n_clause with ROk t => t | _ => [] end.
Definition n_answer : text := chars "(assume h1 (not (< x 3))) (assume h2 (not (not (< x 3)))) (step s1 (cl) :rule resolution :premises (h1 h2))".
Definition n_sp : list command := Eval vm_compute in match read_instance solver_cf false false n_text n_answer with ROk (_, p) => p | _ => [] end.
Definition n_prems : list term := map tNot n_clause.
Example C47_lia_text_ex : rclause solver_cf s_pre n_clause = true /\ forallb at_free n_clause = true /\ forallb natural n_clause = true /\ solver_problem no_share s_pre n_clause = ROk n_text /\
  read_instance solver_cf false false n_text n_answer = ROk (n_prems, n_sp) /\ check (rule_table no_rule) cfg0 n_prems n_sp = ROk false /\ no_context n_sp = true /\ assumed n_sp = n_prems /\ List.length n_sp = 3.
Proof. repeat (split; [vm_compute; reflexivity|]). vm_compute. reflexivity. Qed.
(** Two steps of a proof get a file, the step inside of the subproof and the step of another rule do not. *)
Definition f_step (id rule : string) (c : clause) : command := CStep (mkStep id c rule [] [] []).
Definition f_proof : list command := [f_step "t1" "lia_generic" n_clause; f_step "t2" "hole" n_clause; CSub [f_step "t3.t1" "lia_generic" n_clause; f_step "t3" "subproof" n_clause] [] 0; f_step "t4" "lia_generic" s_clause1].
Example C60_files_ex : match lia_files no_share s_pre f_proof with ROk l => map fst l | _ => [] end = ["t1"; "t4"] /\
  forall s, In (CStep s) f_proof -> s_rule s = "lia_generic" -> rclause solver_cf s_pre (s_clause s) = true /\ forallb at_free (s_clause s) = true /\ forallb nat_indices (s_clause s) = true.
Proof.
  split; [vm_compute; reflexivity|]. intros s Hs Hr. cbn [f_proof In] in Hs. destruct Hs as [E|[E|[E|[E|[]]]]]; try discriminate E; injection E as <-; try discriminate Hr; repeat (split; [vm_compute; reflexivity|]); vm_compute; reflexivity.
Qed.
(** With sharing the names of shared terms start with [p_] without a check for the names of the problem: here the term [(and a b)] is called [p_0], and so is a function of the
    problem. The clause can be false, but what is read cannot be true. *)
Definition c_pre : prelude := mkPr (Some "QF_UF") [] [("a", SBool); ("b", SBool); ("p_0", SBool)].
Definition c_and : term := TOp OAnd [TVar "a" SBool; TVar "b" SBool].
Definition c_clause : clause := [tNot c_and; TVar "p_0" SBool].
Definition c_text : text := chars "(set-logic QF_UF)
(declare-fun a () Bool)
(declare-fun b () Bool)
(declare-fun p_0 () Bool)
(assert (not (not (! (and a b) :named p_0))))
(assert (not p_0))
(check-sat)
(exit)
".
Theorem C60_sharing_refuted :
  lia_file (fun t => term_eqb t c_and) c_pre c_clause = ROk c_text /\
  (forall I : interp, exists E : env I, env_ok E /\ ~ clause_holds E c_clause) /\
  exists s, read_problem_text solver_cf false c_text = ROk s /\ forall (I : interp) (E : env I), ~ (forall t, In t (pb_prems s) -> holds E t = true).
Proof.
  split; [vm_compute; reflexivity|]. split.
  - intros I. destruct (env_with (I := I) "a" SBool (VB true) eq_refl) as [E [HE Ha]].
    exists (upd (upd E "b" SBool (VB true)) "p_0" SBool (VB false)). split.
    + intros x s. unfold upd. destruct (String.eqb x "p_0" && sort_eqb s SBool) eqn:E1; [apply andb_true_iff in E1; destruct E1 as [_ E1]; apply sort_eqb_eq in E1; subst s; reflexivity|].
      destruct (String.eqb x "b" && sort_eqb s SBool) eqn:E2; [apply andb_true_iff in E2; destruct E2 as [_ E2]; apply sort_eqb_eq in E2; subst s; reflexivity|]. apply HE.
    + intros [t [Ht Hh]]. unfold c_clause in Ht. cbn [In] in Ht. destruct Ht as [<-|[<-|[]]]; [|discriminate Hh].
      unfold holds, c_and, tNot in Hh. cbn [eval map eval_op] in Hh. change (upd (upd E "b" SBool (VB true)) "p_0" SBool (VB false) "a" SBool) with (E "a" SBool) in Hh. rewrite Ha in Hh. discriminate Hh.
  - match goal with |- exists _, ?r = _ /\ _ => destruct r as [s| |] eqn:Er; vm_compute in Er; try discriminate end. injection Er as <-. eexists. split; [reflexivity|]. intros I E H. cbn [pb_prems] in H.
    pose proof (H _ (or_introl eq_refl)) as A. pose proof (H _ (or_intror (or_introl eq_refl))) as B. unfold holds in A, B. cbn [eval map eval_op truth] in A, B. rewrite negb_involutive in A. rewrite A in B. discriminate B.
Qed.
Print Assumptions C60_sharing_refuted.
(** Functions that the problem defines without a declaration are not declared for the solver (definitions that are not applied). *)
Theorem C60_definitions_refuted : exists s txt, read_problem_text solver_cf false (chars "(set-logic QF_LIA) (define-fun c () Int 3) (assert (< c 0))") = ROk s /\
  (exists t, In t (pb_prems s) /\ lia_file no_share (pb_pre s) [t] = ROk txt) /\ read_problem_text solver_cf false txt = RErr.
Proof.
  match goal with |- exists _ _, ?r = _ /\ _ => destruct r as [s| |] eqn:Er; vm_compute in Er; try discriminate end. injection Er as <-.
  match goal with |- context [ROk ?s = ROk _] => exists s; let t := eval vm_compute in (lia_file no_share (pb_pre s) [TOp OLt [TVar "c" SInt; TConst (CInt 0)]]) in match t with ROk ?x => exists x end end.
  split; [reflexivity|]. split; [|vm_compute; reflexivity]. exists (TOp OLt [TVar "c" SInt; TConst (CInt 0)]). split; [vm_compute; tauto|vm_compute; reflexivity].
Qed.
Print Assumptions C60_definitions_refuted.
(** Negative constants (C47): the solver sees [(- 3)] instead of [-3]. Its proof is accepted for the problem that it is given, but the proof with it inserted is rejected. *)
Definition k_clause : clause := [TOp OLt [sx "x"; TConst (CInt (-3))]; tNot (TOp OLt [sx "x"; TConst (CInt (-3))])].
Definition k_text : text := Eval vm_compute in match solver_problem no_share s_pre k_clause with ROk t => t | _ => [] end.
Definition k_answer : text := chars "(assume h1 (not (< x (- 3)))) (assume h2 (not (not (< x (- 3))))) (step s1 (cl) :rule resolution :premises (h1 h2))".
Definition k_asms : list term := k_clause.
Definition k_sp : list command := Eval vm_compute in match read_instance solver_cf false false k_text k_answer with ROk (_, p) => p | _ => [] end.
Definition k_prems : list term := Eval vm_compute in match read_instance solver_cf false false k_text k_answer with ROk (p, _) => p | _ => [] end.
Definition k_out : list command := Eval vm_compute in match elaborate lia_insert k_sp (whole "lia_generic" k_clause k_asms) 2 "t1" k_clause with ROk l => l | _ => [] end.
Theorem C47_lia_constants_refuted :
  check tab cfg1 k_asms (whole "lia_generic" k_clause k_asms) = ROk true /\ solver_problem no_share s_pre k_clause = ROk k_text /\
  read_instance solver_cf false false k_text k_answer = ROk (k_prems, k_sp) /\ check tab cfg0 k_prems k_sp = ROk false /\
  elaborate lia_insert k_sp (whole "lia_generic" k_clause k_asms) 2 "t1" k_clause = ROk k_out /\ check tab cfg1 k_asms k_out = RErr.
Proof. repeat (split; [vm_compute; reflexivity|]). vm_compute. reflexivity. Qed.
Print Assumptions C47_lia_constants_refuted.
