(** Reading a problem: sorts of what is read (C53), soundness from the two texts (C01), and which assertions count (C54). *)
From Coq Require Import List Bool NArith ZArith Arith String.
From Verif Require Import Base Term Sem Sorting Utils Rules Checker CheckerSem CheckerSound Table Lexer TermIO Parser ParserSound P_Parser P_ElabSolver P_TermIO ProofIO ProofIOSound P_ProofIO WellSorted P_WellSorted ProblemIO ProblemWt.
Import ListNotations.
Local Open Scope string_scope.
Local Open Scope list_scope.

(** ** C53 *)
(** The bodies of the definitions of a problem are well sorted, and so are its premises if it has no [define-funs-rec] command. *)
Theorem C53_problem_defs : forall cf ap txt s, read_problem_text cf ap txt = ROk s -> defs_wt (pb_defs s).
Proof. exact read_problem_defs. Qed.
Print Assumptions C53_problem_defs.
Theorem C56_premises_partial : forall cf ap txt s, read_problem_text cf ap txt = ROk s -> no_funs_rec cf ap txt = true -> forallb wt (pb_prems s) = true.
Proof. exact read_problem_prems. Qed.
Print Assumptions C56_premises_partial.
Definition pb_text : text := chars
"(set-logic QF_UFLRA)
(set-info :status unsat)
(declare-sort U 0)
(define-sort Arr (X) (Array Int X))
(declare-fun f (U (Arr Bool)) Real)
(declare-const u U)
(declare-const a (Array Int Bool))
(define-fun half ((x Real)) Real (/ x 2))
(define-fun-rec g ((n Real)) Real (ite (< n 0) 1 (g (- n 1))))
(assert (! (< (half (f u a)) 1/3) :named small))
(assert (not small))
(check-sat-assuming ((> (g 3) 0)))
(exit)".
Definition pb_state1 : pbstate := Eval vm_compute in match read_problem_text cf0 true pb_text with ROk s => s | _ => pb0 end.
Definition pb_state2 : pbstate := Eval vm_compute in match read_problem_text cf0 false pb_text with ROk s => s | _ => pb0 end.
Example C56_premises_ex :
  (read_problem_text cf0 true pb_text = ROk pb_state1 /\ no_funs_rec cf0 true pb_text = true /\ List.length (pb_prems pb_state1) = 4%nat /\ List.length (pb_defs pb_state1) = 2%nat) /\
  (read_problem_text cf0 false pb_text = ROk pb_state2 /\ no_funs_rec cf0 false pb_text = true /\ List.length (pb_prems pb_state2) = 5%nat /\ List.length (pb_defs pb_state2) = 1%nat).
Proof. split; (split; [vm_compute; reflexivity|]; split; [vm_compute; reflexivity|]; split; reflexivity). Qed.
(** Two functions with one name in [define-funs-rec]: the equation of the first one applies the symbol of the second one, and is not well sorted. *)
Theorem C56_funs_rec_refuted : exists s, read_problem_text cf0 true (chars "(define-funs-rec ((f ((x Int)) Int) (f ((b Bool)) Int)) (x 1))") = ROk s /\ forallb wt (pb_prems s) = false.
Proof. match goal with |- exists _, ?r = _ /\ _ => destruct r as [p| |] eqn:E; vm_compute in E; try discriminate end. injection E as <-. eexists. split; [reflexivity|]. vm_compute. reflexivity. Qed.
Print Assumptions C56_funs_rec_refuted.
(** [assert] and [check-sat-assuming] take terms that are not Boolean. *)
Theorem C56_assert_refuted : exists s, read_problem_text cf0 true (chars "(assert 1) (check-sat-assuming (""two""))") = ROk s /\ forallb (fun t => sort_eqb (sort_of t) SBool) (pb_prems s) = false.
Proof. match goal with |- exists _, ?r = _ /\ _ => destruct r as [p| |] eqn:E; vm_compute in E; try discriminate end. injection E as <-. eexists. split; [reflexivity|]. vm_compute. reflexivity. Qed.
Print Assumptions C56_assert_refuted.
(** A parameter of a sort definition with the name of an earlier definition is that definition, not the argument. *)
Theorem C43_sort_parameter_refuted : exists s, read_problem_text cf0 true (chars "(define-sort A () Int) (define-sort B (A) (Array A A)) (declare-const x (B Real))") = ROk s /\
  assoc "x" (pb_vars s) = Some (SArray SInt SInt).
Proof. match goal with |- exists _, ?r = _ /\ _ => destruct r as [p| |] eqn:E; vm_compute in E; try discriminate end. injection E as <-. eexists. split; reflexivity. Qed.
Print Assumptions C43_sort_parameter_refuted.
(** other parameters are replaced *)
Example C43_sort_parameter_ex : exists s, read_problem_text cf0 true (chars "(declare-sort L 1) (define-sort A () Int) (define-sort B (X Y) (Array X (L Y))) (declare-const x (B Real A))") = ROk s /\
  assoc "x" (pb_vars s) = Some (SArray SReal (SAtom "L" [SInt])).
Proof. match goal with |- exists _, ?r = _ /\ _ => destruct r as [p| |] eqn:E; vm_compute in E; try discriminate end. injection E as <-. eexists. split; reflexivity. Qed.

(** ** C01 *)
(** If the texts of a problem and of a proof are read, and the proof is accepted for the premises of the problem, then these have no model. No assumption is made about the
    declarations, the definitions, the shape of the proof or the sorts of its terms. What remains are the side conditions of the rules and of crossing anchors, and the
    assumptions that are matched modulo reordering. *)
Theorem C01_instance_partial : forall other cfg cf ap holes problem ptxt prems proof,
  read_instance cf ap holes problem ptxt = ROk (prems, proof) ->
  check (rule_table other) cfg prems proof = ROk false ->
  loose_proof (rule_side (elaborated cfg)) proof = true -> assumes_ok cfg prems proof = true ->
  forall (I : interp) (E : env I), env_ok E -> ~ (forall p, In p prems -> holds E p = true).
Proof.
  intros other cfg cf ap holes problem ptxt prems proof H Hc Hl Ha. unfold read_instance in H. apply obind_ok in H. destruct H as [s [Hs H]]. apply obind_ok in H. destruct H as [p [Hp H]]. injection H as <- <-.
  exact (C01_text_partial other cfg (pb_prems s) _ holes _ _ _ ptxt p (read_problem_defs _ _ _ _ Hs) Hp Hc Hl Ha).
Qed.
Print Assumptions C01_instance_partial.
Definition in_problem : text := chars "(set-logic QF_UF) (declare-const p Bool) (define-fun np () Bool (not p)) (assert p) (assert np) (check-sat) (exit)".
Definition in_proof : text := chars "(assume h1 p) (assume h2 np) (step t1 (cl (= p p)) :rule refl) (step t2 (cl) :rule resolution :premises (h1 h2) :args (p true))".
Example C01_instance_ex : exists prems proof, read_instance cf0 true false in_problem in_proof = ROk (prems, proof) /\
  check (rule_table no_rule) (mkCfg false false []) prems proof = ROk false /\
  loose_proof (rule_side false) proof = true /\ assumes_ok (mkCfg false false []) prems proof = true.
Proof.
  match goal with |- exists _ _, ?r = _ /\ _ => destruct r as [[q p]| |] eqn:E; vm_compute in E; try discriminate end. injection E as <- <-. eexists. eexists. split; [reflexivity|]. split; [vm_compute; reflexivity|]. split; vm_compute; reflexivity.
Qed.

(** ** C54: the assertions that count *)
(** A specification of scripts: commands with the assertions they make, their text, and the assertions that are in force when the last check is made. [SAssuming] holds for one
    check only, and nothing happens after [SExit]. *)
Inductive scmd : Type := SDeclare (x : string) | SAssert (src : string) (t : term) | SAssuming (src : string) (t : term) | SPush | SPop | SReset | SCheck | SExit.
Definition render1 (c : scmd) : string :=
  match c with
  | SDeclare x => "(declare-const " ++ x ++ " Bool) "
  | SAssert s _ => "(assert " ++ s ++ ") " | SAssuming s _ => "(check-sat-assuming (" ++ s ++ ")) "
  | SPush => "(push 1) " | SPop => "(pop 1) " | SReset => "(reset-assertions) " | SCheck => "(check-sat) " | SExit => "(exit) "
  end%string.
Definition render (l : list scmd) : text := chars (String.concat "" (map render1 l)).
(** [st]: the levels of assertions, the innermost first; [last]: what was in force at the last check *)
Fixpoint in_force (st : list (list term)) (last : list term) (l : list scmd) : list term :=
  match l with
  | [] => last
  | SDeclare _ :: r => in_force st last r
  | SAssert _ t :: r => in_force (match st with a :: o => (a ++ [t]) :: o | [] => [[t]] end) last r
  | SAssuming _ t :: r => in_force st (List.concat st ++ [t]) r
  | SPush :: r => in_force ([] :: st) last r
  | SPop :: r => in_force (tl st) last r
  | SReset :: r => in_force [[]] last r
  | SCheck :: r => in_force st (List.concat st) r
  | SExit :: r => last
  end.
(** the terms of the script are those of its text *)
Definition faithful (c : scmd) : Prop := match c with SAssert s t | SAssuming s t => read_term cf0 [] [("p", SBool)] [] (chars s) = ROk (t, []) | _ => True end.
Definition vp : term := TVar "p" SBool.
Definition ap_ : scmd := SAssert "p" vp.
Definition an_ : scmd := SAssert "(not p)" (tNot vp).
Definition force_scripts : list (list scmd) :=
  [ [SDeclare "p"; SPush; an_; SPop; ap_; SCheck];
    [SDeclare "p"; an_; SReset; SDeclare "p"; ap_; SCheck];
    [SDeclare "p"; ap_; SCheck; SExit; an_];
    [SDeclare "p"; ap_; SAssuming "(not p)" (tNot vp); SCheck] ].
Definition force_proof : text := chars "(assume h1 p) (assume h2 (not p)) (step t1 (cl) :rule resolution :premises (h1 h2) :args (p true))".
(** Assertions that are popped, reset, made after the end or assumed for an earlier check are premises: proofs from them are accepted, although what is in force is satisfiable. *)
Theorem C54_in_force_refuted : Forall (fun script => Forall faithful script /\ exists prems proof,
    read_instance cf0 true false (render script) force_proof = ROk (prems, proof) /\
    check (rule_table no_rule) (mkCfg false false []) prems proof = ROk false /\
    forall I : interp, exists E : env I, env_ok E /\ forall t, In t (in_force [[]] [] script) -> holds E t = true) force_scripts.
Proof.
  assert (Hm : forall I : interp, exists E : env I, env_ok E /\ forall t, In t [vp] -> holds E t = true).
  { intros I. destruct (Refute.env_with (I := I) "p" SBool (VB true) eq_refl) as [E [H1 H2]]. exists E. split; [exact H1|]. intros t [<-|[]]. unfold holds. cbn. rewrite H2. reflexivity. }
  unfold force_scripts. repeat constructor;
    match goal with |- exists _ _, read_instance ?a ?b ?c ?d ?e = _ /\ _ => let r := eval vm_compute in (read_instance a b c d e) in match r with ROk (?q, ?p) => exists q, p end end;
    (split; [vm_compute; reflexivity|]; split; [vm_compute; reflexivity|exact Hm]).
Qed.
Print Assumptions C54_in_force_refuted.
