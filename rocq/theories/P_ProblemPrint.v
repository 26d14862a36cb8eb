(** C55: the problem that is written for a slice is read with the same declarations and assertions. *)
From Coq Require Import List Bool NArith ZArith QArith Arith String.
From Verif Require Import Base Term Sem Sorting Utils Rules Checker CheckerSem CheckerSound Table Lexer TermIO TermIOSound Parser P_ElabSolver P_TermIO ProofIO ProofIOSound ProblemIO ProblemIOSound.
Import ListNotations.
Local Open Scope string_scope.
Local Open Scope list_scope.

(** Every problem whose names, sorts and terms can be read is printed, and what is printed is read with the same logic, sorts, functions and assertions. The assertions are read
    once each and in order, with negative and fractional constants as applications ([plain]). *)
Theorem C55_partial : forall cf ap p asserts, rproblem cf p asserts = true ->
  exists txt s, print_problem p asserts = ROk txt /\ read_problem_text cf ap txt = ROk s /\
    pb_pre s = mkPr (Some (logic_of p)) (pr_sorts p) (pr_funs p) /\ pb_vars s = rev (pr_funs p) /\ pb_defs s = [] /\
    pb_prems s = fold_left add_prem (map plain asserts) [].
Proof. intros cf ap p asserts H. destruct (problem_round cf ap p asserts H) as [txt [H1 H2]]. exists txt, (printed_state p asserts). repeat (split; [assumption || reflexivity|]). reflexivity. Qed.
Print Assumptions C55_partial.
(** no constant is negative or a fraction *)
Fixpoint natural (t : term) : bool :=
  match t with
  | TConst (CInt z) => Z.leb 0 z
  | TConst (CReal q) => Z.leb 0 (Qnum (Qred q)) && Pos.eqb (Qden (Qred q)) 1
  | TConst _ | TVar _ _ | TSort _ => true
  | TApp f args => natural f && forallb natural args
  | TOp _ args => forallb natural args
  | TBind _ _ b => natural b
  | TLet bs b => forallb (fun v => natural (snd v)) bs && natural b
  | TPOp _ l args => forallb natural l && forallb natural args
  end.
Lemma plain_natural t : natural t = true -> plain t = t.
Proof.
  assert (Hm : forall l, Forall (fun t => natural t = true -> plain t = t) l -> forallb natural l = true -> map plain l = l).
  { induction 1 as [|a l Ha _ IH]; cbn; [reflexivity|]. intros H. apply andb_true_iff in H. destruct H. rewrite Ha, IH by assumption. reflexivity. }
  induction t using term_ind'; cbn [natural plain]; intros HN; try reflexivity.
  - destruct c; cbn [plain_const]; try reflexivity.
    + replace (Z.ltb z 0) with false; [reflexivity|]. symmetry. apply Z.ltb_ge. apply Z.leb_le. exact HN.
    + apply andb_true_iff in HN. destruct HN as [H1 H2]. rewrite H2. replace (Z.ltb (Qnum (Qred q)) 0) with false; [reflexivity|]. symmetry. apply Z.ltb_ge. apply Z.leb_le. exact H1.
  - apply andb_true_iff in HN. destruct HN. rewrite IHt, Hm by assumption. reflexivity.
  - rewrite Hm by assumption. reflexivity.
  - rewrite IHt by assumption. reflexivity.
  - apply andb_true_iff in HN. destruct HN as [H1 H2]. rewrite IHt by assumption. f_equal.
    revert H1. match goal with H : Forall _ bs |- _ => induction H as [|v bs Hv _ IH] end; cbn; [reflexivity|]. intros H1. apply andb_true_iff in H1. destruct H1. rewrite Hv, IH by assumption. destruct v; reflexivity.
  - apply andb_true_iff in HN. destruct HN. rewrite !Hm by assumption. reflexivity.
Qed.
Lemma add_all l : forall acc, NoDup (acc ++ l) -> fold_left add_prem l acc = acc ++ l.
Proof.
  induction l as [|t l IH]; intros acc H; cbn [fold_left]; [rewrite app_nil_r; reflexivity|]. unfold add_prem at 2.
  destruct (memb term_eqb t acc) eqn:E; [|rewrite IH; rewrite <- app_assoc; [reflexivity|exact H]].
  apply (memb_In term_eqb term_eqb_eq) in E. apply NoDup_remove_2 in H. destruct H. apply in_or_app. left. exact E.
Qed.
(** If the constants are natural numbers and no assertion is repeated, the assertions are exactly the same. *)
Theorem C55_same_partial : forall cf ap p asserts, rproblem cf p asserts = true -> forallb natural asserts = true -> NoDup asserts ->
  exists txt s, print_problem p asserts = ROk txt /\ read_problem_text cf ap txt = ROk s /\ pb_prems s = asserts.
Proof.
  intros cf ap p asserts H Hn Hd. destruct (problem_round cf ap p asserts H) as [txt [H1 H2]]. exists txt, (printed_state p asserts). split; [exact H1|]. split; [exact H2|].
  cbn [printed_state pb_prems]. replace (map plain asserts) with asserts; [apply (add_all asserts []); exact Hd|].
  clear - Hn. induction asserts as [|a l IH]; [reflexivity|]. cbn in *. apply andb_true_iff in Hn. destruct Hn. rewrite plain_natural by assumption. rewrite <- IH by assumption. reflexivity.
Qed.
Print Assumptions C55_same_partial.
Lemma add_In l : forall acc t, In t (fold_left add_prem l acc) <-> In t acc \/ In t l.
Proof.
  induction l as [|a l IH]; intros acc t; cbn [fold_left In]; [tauto|]. rewrite IH. unfold add_prem. destruct (memb term_eqb a acc) eqn:E.
  - apply (memb_In term_eqb term_eqb_eq) in E. split; [tauto|]. intros [H|[H|H]]; [tauto|subst; tauto|tauto].
  - rewrite in_app_iff. cbn. tauto.
Qed.
(** C54, for scripts that consist of declarations and assertions, in the form in which they are printed: the premises are exactly the assertions. Such a script has no [push],
    [pop], [reset], [check-sat-assuming] or [exit], so all of its assertions are in force. For the others see [C54_in_force_refuted]. *)
Theorem C54_partial : forall cf ap p asserts, rproblem cf p asserts = true -> forallb natural asserts = true ->
  exists txt s, print_problem p asserts = ROk txt /\ read_problem_text cf ap txt = ROk s /\ forall t, In t (pb_prems s) <-> In t asserts.
Proof.
  intros cf ap p asserts H Hn. destruct (problem_round cf ap p asserts H) as [txt [H1 H2]]. exists txt, (printed_state p asserts). split; [exact H1|]. split; [exact H2|].
  intros t. cbn [printed_state pb_prems]. rewrite add_In. replace (map plain asserts) with asserts; [cbn; tauto|].
  clear - Hn. induction asserts as [|a l IH]; [reflexivity|]. cbn in *. apply andb_true_iff in Hn. destruct Hn. rewrite plain_natural by assumption. rewrite <- IH by assumption. reflexivity.
Qed.
Print Assumptions C54_partial.
(** a problem with declared sorts, functions, names that are quoted, binders and constants *)
Definition pp_text : text := chars
"(set-logic ALL)
(declare-sort U 0) (declare-sort Pair 2)
(declare-fun |a b| (U (Pair U Int)) Bool)
(declare-fun u () U)
(declare-fun q () (Pair U Int))
(declare-fun x () Real)
(assert (! (|a b| u q) :named n1))
(assert (forall ((y Real) (z (_ BitVec 4))) (or n1 (< y (+ x 2.0)) (= z #b0101))))
(assert (< x (- 3.5)))".
Definition pp_state : pbstate := Eval vm_compute in match read_problem_text cf0 true pp_text with ROk s => s | _ => pb0 end.
Example C55_ex : read_problem_text cf0 true pp_text = ROk pp_state /\ rproblem cf0 (pb_pre pp_state) (pb_prems pp_state) = true /\
  forallb natural (firstn 2 (pb_prems pp_state)) = true /\ List.length (pb_prems pp_state) = 3%nat.
Proof. repeat split; vm_compute; reflexivity. Qed.

(** A problem with a fraction, in a logic that is not only about reals. The problem and the proof are accepted, also as an elaborated proof, but the texts that are written for them are not: the fraction of the
    problem is read as a division, and that of the proof as a constant. *)
Definition fr_problem : text := chars "(declare-const x Real) (assert (< x 0.5)) (assert (not (< x 0.5))) (check-sat)".
Definition fr_proof : text := chars "(assume h1 (< x 0.5)) (assume h2 (not (< x 0.5))) (step t1 (cl) :rule resolution :premises (h1 h2) :args ((< x 0.5) true))".
Definition fr_state : pbstate := Eval vm_compute in match read_problem_text cf0 true fr_problem with ROk s => s | _ => pb0 end.
Definition fr_cmds : list command := Eval vm_compute in match read_instance cf0 true false fr_problem fr_proof with ROk (_, p) => p | _ => [] end.
Definition fr_text : text := Eval vm_compute in match print_problem (pb_pre fr_state) (pb_prems fr_state) with ROk t => t | _ => [] end.
Definition fr_ptext : text := Eval vm_compute in match print_proof_text no_share fr_cmds with ROk t => t | _ => [] end.
Definition fr_prems : list term := Eval vm_compute in match read_instance cf0 true false fr_text fr_ptext with ROk (q, _) => q | _ => [] end.
Theorem C55_fractions_refuted :
  read_problem_text cf0 true fr_problem = ROk fr_state /\ read_instance cf0 true false fr_problem fr_proof = ROk (pb_prems fr_state, fr_cmds) /\
  check (rule_table no_rule) (mkCfg true false []) (pb_prems fr_state) fr_cmds = ROk false /\
  print_problem (pb_pre fr_state) (pb_prems fr_state) = ROk fr_text /\ print_proof_text no_share fr_cmds = ROk fr_ptext /\
  read_instance cf0 true false fr_text fr_ptext = ROk (fr_prems, fr_cmds) /\ fr_prems <> pb_prems fr_state /\
  check (rule_table no_rule) (mkCfg true false []) fr_prems fr_cmds = RErr.
Proof. repeat (split; [first [discriminate|vm_compute; reflexivity]|]). vm_compute. reflexivity. Qed.
Print Assumptions C55_fractions_refuted.
(** Functions that are defined by [define-fun-rec], or by [define-fun] if definitions are not applied, are not declared in the problem that is written. *)
Theorem C55_definitions_refuted : Forall (fun src => exists s txt, read_problem_text cf0 false (chars src) = ROk s /\ print_problem (pb_pre s) (pb_prems s) = ROk txt /\
    read_problem_text cf0 false txt = RErr)
  ["(define-fun-rec g ((n Int)) Int (ite (< n 1) 0 (g (- n 1)))) (assert (< (g 2) 0))"; "(define-fun c () Int 3) (assert (< c 0))"].
Proof.
  repeat constructor; match goal with |- exists _ _, read_problem_text ?a ?b ?c = _ /\ _ => let r := eval vm_compute in (read_problem_text a b c) in
    match r with ROk ?s => exists s; let t := eval vm_compute in (print_problem (pb_pre s) (pb_prems s)) in match t with ROk ?t => exists t end end end;
    (split; [vm_compute; reflexivity|]; split; vm_compute; reflexivity).
Qed.
Print Assumptions C55_definitions_refuted.
