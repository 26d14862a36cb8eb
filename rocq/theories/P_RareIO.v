(** Reading a file of RARE rules (C64), and soundness from the texts of a problem, a proof and a file of rules (C01). *)
From Coq Require Import List Bool NArith ZArith Arith String Ascii.
From Verif Require Import Base Term Field Sem Sorting Utils Rules Refute Checker CheckerSem CheckerSound CheckerRefute Table Subst SubstSound SubstClean SubstRefute R_Rare RareSound FullTable
  Lexer TermIO Parser ParserSound P_Parser P_TermIO ProofIO ProofIOSound P_ProofIO WellSorted P_WellSorted ProblemIO ProblemWt RareIO DefsApart P_Rare TermIOPanic ProofIOPanic ProblemPanic RarePanic.
Import ListNotations.
Local Open Scope string_scope.
Local Open Scope list_scope.

(** ** C01 *)
(** If the texts of a problem, a proof and a file of rules are read, the rules that are read are valid, and the proof is accepted with them, then the premises of the problem have no
    model. What remains are the side conditions of the rules and of crossing anchors, and the assumptions that are matched modulo reordering. *)
Theorem C01_rules_text_partial : forall show cfg cf ap holes problem ptxt rtxt prems proof rules,
  read_instance_rules cf ap holes problem ptxt rtxt = ROk (prems, proof, rules) ->
  (forall name r, rare_find rules name = Some r -> rare_valid r) ->
  check (full_table show rules) cfg prems proof = ROk false ->
  loose_proof (full_side show rules (elaborated cfg)) proof = true -> assumes_ok cfg prems proof = true ->
  forall (I : interp) (E : env I), env_ok E -> ~ (forall p, In p prems -> holds E p = true).
Proof.
  intros show cfg cf ap holes problem ptxt rtxt prems proof rules H Hr Hc Hl Ha. apply read_instance_rules_fst in H. unfold read_instance in H. apply obind_ok in H. destruct H as [s [Hs H]].
  apply obind_ok in H. destruct H as [p [Hp H]]. injection H as <- <-. pose proof (read_proof_wt _ _ _ _ _ _ _ (read_problem_defs _ _ _ _ Hs) Hp) as Hw.
  destruct (text_raws _ _ _ _ _ _ _ Hp) as [rs Hrs]. destruct (parse_print rs p Hrs) as [out [Ho _]].
  apply (C01_check_sound_full_partial show rules cfg (pb_prems s) p Hr Hc (parse_shape _ _ Hrs)); auto; [|exact (loose_wf _ p out Ho Hl)].
  rewrite forallb_forall in *. intros c Hin. apply all_cmd_wt. auto.
Qed.
Print Assumptions C01_rules_text_partial.

(** ** C64 *)
(** The terms of the rules are well sorted, whatever the problem and the proof define. *)
Theorem C64_sorts_partial : forall cf ap holes problem ptxt rtxt prems proof rules, read_instance_rules cf ap holes problem ptxt rtxt = ROk (prems, proof, rules) ->
  forall name r, rare_find rules name = Some r -> forallb wt (rr_concl r :: rr_prems r) = true.
Proof.
  intros cf ap holes problem ptxt rtxt prems proof rules H name r Hf. unfold read_instance_rules in H. apply obind_ok in H. destruct H as [s [Hs H]].
  apply obind_ok in H. destruct H as [[p D] [Hp H]]. apply obind_ok in H. destruct H as [rs [Hr H]]. injection H as _ _ <-.
  assert (Hi : exists n, In (n, r) rs). { clear - Hf. induction rs as [|[n q] rs IH]; [discriminate|]. cbn [rare_find] in Hf. destruct (list_eqb N.eqb name n); [injection Hf as <-; exists n; left; reflexivity|].
    destruct (IH Hf) as [n' H]. exists n'. right. exact H. }
  destruct Hi as [n Hi]. eapply read_rules_wt; [|exact Hr|exact Hi]. cbn [r_defs snd]. eapply read_proof_defs_wt; [|exact Hp]. eapply read_problem_defs; eauto.
Qed.
Print Assumptions C64_sorts_partial.

(** If no symbol of the file of rules is defined in the problem or in the proof, then the rules are what the file says with the sorts and symbols of the problem and no definitions. *)
Theorem C64_apart_partial : forall cf ap holes problem ptxt rtxt prems proof rules, read_instance_rules cf ap holes problem ptxt rtxt = ROk (prems, proof, rules) ->
  exists s D ts, read_problem_text cf ap problem = ROk s /\ read_proof_defs (int_cfg cf) holes (pb_sorts s) (pb_vars s) (pb_defs s) ptxt = ROk (proof, D) /\ lex_all rtxt = ROk ts /\
    ((forall w, In (KSym w) ts -> assoc (string_of w) D = None) -> read_rules_text (int_cfg cf) (mkRst (pb_sorts s) (pb_vars s) []) rtxt = ROk rules).
Proof.
  intros cf ap holes problem ptxt rtxt prems proof rules H. unfold read_instance_rules in H. apply obind_ok in H. destruct H as [s [Hs H]].
  apply obind_ok in H. destruct H as [[p D] [Hp H]]. apply obind_ok in H. destruct H as [rs [Hr H]]. injection H as _ <- <-. cbn [snd] in Hr. exists s, D.
  destruct (lex_all rtxt) as [ts| |] eqn:El; try (unfold read_rules_text in Hr; rewrite El in Hr; discriminate). exists ts. split; [exact Hs|]. split; [exact Hp|]. split; [reflexivity|]. intros Ha.
  rewrite <- (rules_apart (int_cfg cf) (mkRst (pb_sorts s) (pb_vars s) []) D rtxt ts El Ha). exact Hr.
Qed.
Print Assumptions C64_apart_partial.

(** A file with a plain rule, and one with lists of a polymorphic sort. *)
Definition no_state : rst := mkRst [] [] [].
Definition two_rules_text : text := chars
"; rules
(declare-rare-rule and-absorb ((x Bool) (y Bool)) :premises ((= x true)) :args (x y) :conclusion (= (and x y) y))
(declare-rare-rule eq-refl ((@T0 Type) (t @T0)) :args (t) :conclusion (= t t))
(declare-rare-rule or-dup ((xs Bool :list) (y Bool)) :args (xs y) :conclusion (= (or xs y y) (or xs y)))".
Definition eq_refl_rule : rare_rule := mkRare [("@T0", (SType, false)); ("t", (SVar "@T0", false))] ["t"] [] (eq2 (TVar "t" (SVar "@T0")) (TVar "t" (SVar "@T0"))).
Definition or_dup_rule : rare_rule :=
  mkRare [("xs", (SBool, true)); ("y", (SBool, false))] ["xs"; "y"] [] (eq2 (TOp OOr [vb "xs"; vb "y"; vb "y"]) (TOp OOr [vb "xs"; vb "y"])).
Example C64_ex : read_rules_text cf0 no_state two_rules_text = ROk [(chars "and-absorb", and_absorb); (chars "eq-refl", eq_refl_rule); (chars "or-dup", or_dup_rule)].
Proof. vm_compute. reflexivity. Qed.
(** errors: no conclusion, an unknown attribute of a rule or of a parameter, an undeclared symbol *)
Example C64_error_ex : Forall (fun s => read_rules_text cf0 no_state (chars s) = RErr)
  ["(declare-rare-rule r ((x Bool)) :args (x))"; "(declare-rare-rule r ((x Bool)) :args (x) :match x)";
   "(declare-rare-rule r ((x Bool :null)) :args (x) :conclusion x)"; "(declare-rare-rule r ((x Bool)) :args (x) :conclusion (= x z))";
   "(declare-rare-rule r ((x Bool)) :args (x) :conclusion (= x"; "(declare-rare-rule r ((x Bool)) :args (x) :conclusion (= x 1))"].
Proof. repeat constructor; vm_compute; reflexivity. Qed.
(** attributes in any order, and attributes that are not there *)
Example C64_order_ex : read_rules_text cf0 no_state (chars "(declare-rare-rule r () :conclusion (= true true))") = ROk [(chars "r", mkRare [] [] [] (eq2 tTrue tTrue))] /\
  read_rules_text cf0 no_state (chars "(declare-rare-rule and-absorb ((x Bool) (y Bool)) :conclusion (= (and x y) y) :args (x y) :premises ((= x true)))") = ROk [(chars "and-absorb", and_absorb)].
Proof. split; vm_compute; reflexivity. Qed.

(** A problem that is refuted with a rule of a file. *)
Definition rt_problem : text := chars "(declare-const p Bool) (declare-const q Bool) (assert (= p true)) (assert (not (= (and p q) q)))".
Definition rt_proof : text := chars
"(assume h1 (= p true)) (assume h2 (not (= (and p q) q)))
(step t1 (cl (= (and p q) q)) :rule rare_rewrite :premises (h1) :args (""and-absorb"" p q))
(step t2 (cl) :rule resolution :premises (t1 h2) :args ((= (and p q) q) true))".
Definition rt_rules : text := chars "(declare-rare-rule and-absorb ((x Bool) (y Bool)) :premises ((= x true)) :args (x y) :conclusion (= (and x y) y))".
Definition rt_read : list term * list command * rare_rules :=
  Eval vm_compute in match read_instance_rules cf0 true false rt_problem rt_proof rt_rules with ROk x => x | _ => ([], [], []) end.
Example C01_rules_text_ex : forall show, let '(prems, proof, rules) := rt_read in
  read_instance_rules cf0 true false rt_problem rt_proof rt_rules = ROk (prems, proof, rules) /\ (forall name r, rare_find rules name = Some r -> rare_valid r) /\
  check (full_table show rules) cfg_default prems proof = ROk false /\ loose_proof (full_side show rules false) proof = true /\ assumes_ok cfg_default prems proof = true.
Proof.
  intros show. unfold rt_read. split; [vm_compute; reflexivity|]. split.
  { intros name r'. cbn [rare_find]. destruct (list_eqb _ _ _); [|discriminate]. intros H. injection H as <-. exact and_absorb_valid. }
  split; [vm_compute; reflexivity|]. split; vm_compute; reflexivity.
Qed.

(** the definition of the problem and the name of the proof do not occur in the rules *)
Definition ap_problem : text := chars "(declare-const p Bool) (declare-const q Bool) (define-fun both () Bool (and p q)) (assert (= p true)) (assert (not (= both q)))".
Definition ap_proof : text := chars
"(assume h1 (= p true)) (assume h2 (not (= both q)))
(step t1 (cl (! (= (and p q) q) :named @l)) :rule rare_rewrite :premises (h1) :args (""and-absorb"" p q))
(step t2 (cl) :rule resolution :premises (t1 h2) :args (@l true))".
Definition ap_read : list term * list command * rare_rules :=
  Eval vm_compute in match read_instance_rules cf0 true false ap_problem ap_proof rt_rules with ROk x => x | _ => ([], [], []) end.
Definition ap_defs : defs := Eval vm_compute in match read_problem_text cf0 true ap_problem with
  | ROk s => match read_proof_defs (int_cfg cf0) false (pb_sorts s) (pb_vars s) (pb_defs s) ap_proof with ROk (_, D) => D | _ => [] end | _ => [] end.
Example C64_apart_ex : read_instance_rules cf0 true false ap_problem ap_proof rt_rules = ROk ap_read /\ map fst ap_defs = ["@l"; "both"] /\ snd ap_read = [(chars "and-absorb", and_absorb)] /\
  match lex_all rt_rules with ROk ts => forallb (fun k => match k with KSym w => match assoc (string_of w) ap_defs with None => true | _ => false end | _ => true end) ts | _ => false end = true.
Proof. split; [vm_compute; reflexivity|]. split; [reflexivity|]. split; vm_compute; reflexivity. Qed.

(** *** What does not hold *)
(** The definitions of a proof hold in the file of rules, also for its parameters: the proof changes the rules. Here the rule says that no truth value is equal to all truth values. The
    proof names a bound variable like the parameter, and the rule that is used says that not all truth values are equal to themselves. The proof of false is accepted for an assertion that
    holds in all models. *)
Definition nd_rules : text := chars "(declare-rare-rule not-all ((x Bool)) :args (x) :conclusion (= (forall ((y Bool)) (= y x)) false))".
Definition nd_problem : text := chars "(assert (forall ((y Bool)) (= y y)))".
Definition nd_proof : text := chars
"(assume h1 (forall ((y Bool)) (= y (! y :named x))))
(step t1 (cl (= (forall ((y Bool)) (= y y)) false)) :rule rare_rewrite :args (""not-all"" true))
(step t2 (cl (not (forall ((y Bool)) (= y y))) false) :rule equiv1 :premises (t1))
(step t3 (cl (not false)) :rule false)
(step t4 (cl) :rule resolution :premises (h1 t2 t3) :args ((forall ((y Bool)) (= y y)) true false true))".
Definition not_all : rare_rule := mkRare [("x", (SBool, false))] ["x"] [] (eq2 (TBind BForall [("y", SBool)] (eq2 (vb "y") (vb "x"))) tFalse).
Lemma not_all_valid : rare_valid not_all.
Proof.
  apply mono_valid; [reflexivity|intros t [<-|[]]; reflexivity|]. intros I E HE _. eexists. split; [left; reflexivity|].
  pose proof (HE "x" SBool) as Hx. apply dom_bool in Hx. destruct Hx as [b Hx].
  assert (Hf : iall I SBool (fun v => truth (eval (eq2 (vb "y") (vb "x")) (upd E "y" SBool v))) = false).
  { destruct (iall I SBool _) eqn:Ea; [|reflexivity]. rewrite (iall_spec I) in Ea. specialize (Ea (VB (negb b)) eq_refl). cbn in Ea. rewrite Hx in Ea. destruct b; discriminate Ea. }
  unfold holds. cbn [not_all rr_concl eq2 eval map eval_bind eval_all]. cbn [eq2 eval map] in Hf. rewrite Hf. reflexivity.
Qed.
Definition nd_read : list term * list command * rare_rules :=
  Eval vm_compute in match read_instance_rules cf0 true false nd_problem nd_proof nd_rules with ROk x => x | _ => ([], [], []) end.
Theorem C64_proof_defines_refuted : forall show cfg, cfg = cfg_default \/ cfg = cfg_elaborated -> exists problem ptxt rtxt rules0 prems proof rules,
  read_rules_text cf0 no_state rtxt = ROk rules0 /\ (forall name r, rare_find rules0 name = Some r -> rare_valid r) /\
  read_instance_rules cf0 true false problem ptxt rtxt = ROk (prems, proof, rules) /\ check (full_table show rules) cfg prems proof = ROk false /\
  forall (I : interp) (E : env I), env_ok E -> forall p, In p prems -> holds E p = true.
Proof.
  intros show cfg Hc. exists nd_problem, nd_proof, nd_rules, [(chars "not-all", not_all)], (fst (fst nd_read)), (snd (fst nd_read)), (snd nd_read).
  split; [vm_compute; reflexivity|]. split.
  { intros name r'. cbn [rare_find]. destruct (list_eqb _ _ _); [|discriminate]. intros H. injection H as <-. exact not_all_valid. }
  split; [vm_compute; reflexivity|]. split; [destruct Hc as [-> | ->]; vm_compute; reflexivity|].
  intros I E HE p [<-|[]]. unfold holds. cbn [eval eval_bind eval_all truth]. apply (iall_spec I). intros v Hv. cbn [eval map eval_op truth chain]. rewrite andb_true_r. apply veqb_eq. reflexivity.
Qed.
Print Assumptions C64_proof_defines_refuted.
(** Parameters are never forgotten: a rule may use those of the rules before it. Such a variable is not replaced. *)
Theorem C64_scope_refuted : exists r1 r2 rules, read_rules_text cf0 no_state r2 = RErr /\ read_rules_text cf0 no_state (r1 ++ r2) = ROk rules /\
  rare_find rules (chars "b") = Some (mkRare [] [] [] (eq2 (vb "x") tTrue)).
Proof.
  exists (chars "(declare-rare-rule a ((x Bool)) :args (x) :conclusion (= x x)) "), (chars "(declare-rare-rule b () :conclusion (= x true))").
  match goal with |- exists _, _ /\ ?r = _ /\ _ => let q := eval vm_compute in r in match q with ROk ?v => exists v end end. split; [vm_compute; reflexivity|]. split; vm_compute; reflexivity.
Qed.
Print Assumptions C64_scope_refuted.
(** A parameter is also a sort, in all rules that follow: it takes the place of a sort that the problem declares. *)
Theorem C64_sort_scope_refuted : exists r1 r2 s rules, read_rules_text cf0 s r2 = ROk [(chars "b", mkRare [("y", (SAtom "U" [], false))] ["y"] [] (eq2 (TVar "y" (SAtom "U" [])) (TVar "y" (SAtom "U" []))))] /\
  read_rules_text cf0 s (r1 ++ r2) = ROk rules /\ rare_find rules (chars "b") = Some (mkRare [("y", (SBool, false))] ["y"] [] (eq2 (vb "y") (vb "y"))).
Proof.
  exists (chars "(declare-rare-rule a ((U Bool)) :args (U) :conclusion (= U U)) "), (chars "(declare-rare-rule b ((y U)) :args (y) :conclusion (= y y))"), (mkRst [("U", SArity 0)] [] []).
  match goal with |- exists _, _ /\ ?r = _ /\ _ => let q := eval vm_compute in r in match q with ROk ?v => exists v end end. split; [vm_compute; reflexivity|]. split; vm_compute; reflexivity.
Qed.
Print Assumptions C64_sort_scope_refuted.
(** A name in [:args] that is not a parameter is accepted; the first step with the rule makes the checker panic. *)
Theorem C64_arguments_refuted : exists rtxt rules, read_rules_text cf0 no_state rtxt = ROk rules /\
  forall show, check (full_table show rules) cfg_default [] [CStep (mkStep "t1" [eq2 tTrue tTrue] "rare_rewrite" [] [TConst (CStr (chars "a")); tTrue] [])] = RPanic.
Proof.
  exists (chars "(declare-rare-rule a ((x Bool)) :args (y) :conclusion (= x x))").
  match goal with |- exists _, ?r = _ /\ _ => let q := eval vm_compute in r in match q with ROk ?v => exists v end end. split; [vm_compute; reflexivity|]. intros show. vm_compute. reflexivity.
Qed.
Print Assumptions C64_arguments_refuted.
(** Of two rules with one name, or of two conclusions, the last one counts, without an error. *)
Theorem C64_duplicates_refuted :
  read_rules_text cf0 no_state (chars "(declare-rare-rule a ((x Bool)) :args (x) :conclusion (= x x)) (declare-rare-rule a ((x Bool)) :args (x) :conclusion x)")
    = ROk [(chars "a", mkRare [("x", (SBool, false))] ["x"] [] (vb "x"))] /\
  read_rules_text cf0 no_state (chars "(declare-rare-rule a ((x Bool)) :args (x) :conclusion (= x x) :conclusion x)") = ROk [(chars "a", mkRare [("x", (SBool, false))] ["x"] [] (vb "x"))].
Proof. split; vm_compute; reflexivity. Qed.
Print Assumptions C64_duplicates_refuted.

(** ** C44 for files of rules *)
(** Reading the text of the rules, after any problem and proof without definitions whose bodies have a [let], does not panic, if the tokens are as in C44_no_panic_partial; and
    neither does reading a problem, a proof and rules together. *)
Theorem C44_rules_partial : forall cf s txt, (forall ts, lex_all txt = ROk ts -> safe cf any any ts = true) -> lex_all txt <> RPanic -> safe_defs (r_defs s) ->
  read_rules_text cf s txt <> RPanic.
Proof. exact read_rules_no_panic. Qed.
Print Assumptions C44_rules_partial.
Theorem C44_instance_rules_partial : forall cf ap holes problem proof rules,
  (forall ts, lex_all problem = ROk ts -> safe cf any (defines ap) ts = true) -> lex_all problem <> RPanic ->
  (forall ts, lex_all proof = ROk ts -> safe cf named no_define ts = true) -> lex_all proof <> RPanic ->
  (forall ts, lex_all rules = ROk ts -> safe cf any any ts = true) -> lex_all rules <> RPanic ->
  read_instance_rules cf ap holes problem proof rules <> RPanic.
Proof. exact read_instance_rules_no_panic. Qed.
Print Assumptions C44_instance_rules_partial.
Example C44_rules_ex : Forall (fun txt => exists ts, lex_all txt = ROk ts /\ safe cf0 any any ts = true)
  [nd_rules; chars "(declare-rare-rule a ((x Bool :list)) :args (x y :conclusion"; chars "(declare-rare-rule 3"].
Proof. repeat constructor; eexists; (split; [vm_compute; reflexivity|vm_compute; reflexivity]). Qed.
(** The conditions are needed. *)
Theorem C44_rules_refuted : Forall (fun s => read_rules_text cf0 no_state (chars s) = RPanic)
  ["(declare-rare-rule a () :conclusion @d)"; "(declare-rare-rule a ((x (_ BitVec -1))) :conclusion true)"; "(declare-rare-rule a () :conclusion (= (_ bvx 3) (_ bvx 3)))"].
Proof. repeat (apply Forall_cons; [vm_compute; reflexivity|]); apply Forall_nil. Qed.
Print Assumptions C44_rules_refuted.
