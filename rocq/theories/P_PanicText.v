(** C33 and C44 together: from the texts of a problem, a proof and a file of rules to the verdict. *)
From Coq Require Import List String ZArith NArith Bool Arith Lia.
From Verif Require Import Base Term Field Sem Sorting Rules Utils Checker CheckerRefute Table R_Rare FullTable Lexer TermIO TermIOPanic Parser ParserSound ProofIO ProofIOPanic ProblemIO
  ProblemPanic WellSorted RareIO RarePanic NoPanicPoly NoPanicFull NoPanicCheck ParsedText P_TermIO P_Panic.
Import ListNotations.
Local Open Scope string_scope.
Local Open Scope list_scope.

(** Proofs that are read from a text have well-sorted clauses, references to commands of the enclosing subproofs, and subproofs that end with a step. *)
Theorem C33_parsed : forall cf holes sdecl E D txt proof, defs_wt D -> read_proof_text cf holes sdecl E D txt = ROk proof -> proof_parsed proof = true.
Proof. exact read_proof_parsed. Qed.
Print Assumptions C33_parsed.

(** reading the three texts and checking the proof *)
Definition run_texts (show : term -> string) (cfg : config) (cf : pcfg) (ap holes : bool) (problem proof rules : text) : outcome bool :=
  do x <- read_instance_rules cf ap holes problem proof rules ;
  check (full_table show (snd x)) cfg (fst (fst x)) (snd (fst x)).
(** The whole run ends with a verdict or an error, if the tokens meet the conditions of C44_instance_rules_partial, and what is read those of C33_no_panic_full_partial.
    Missing from the full property: the other texts, for which it is false. *)
Theorem C33_texts_partial : forall fl show cfg cf ap holes problem proof rules,
  (forall ts, lex_all problem = ROk ts -> safe cf any (defines ap) ts = true) -> lex_all problem <> RPanic ->
  (forall ts, lex_all proof = ROk ts -> safe cf named no_define ts = true) -> lex_all proof <> RPanic ->
  (forall ts, lex_all rules = ROk ts -> safe cf any any ts = true) -> lex_all rules <> RPanic ->
  (forall prems cmds rs, read_instance_rules cf ap holes problem proof rules = ROk (prems, cmds, rs) ->
     forallb tame prems = true /\ proof_fine fl cmds = true /\ rare_all_fine rs = true) ->
  run_texts show cfg cf ap holes problem proof rules <> RPanic.
Proof.
  intros fl show cfg cf ap holes problem proof rules H1 H2 H3 H4 H5 H6 H7. unfold run_texts.
  pose proof (read_instance_rules_no_panic cf ap holes problem proof rules H1 H2 H3 H4 H5 H6) as H.
  destruct (read_instance_rules cf ap holes problem proof rules) as [[[prems cmds] rs]| |]; cbn [obind fst snd]; [|discriminate|congruence].
  destruct (H7 prems cmds rs eq_refl) as (A & B & C). apply (C33_no_panic_full_partial fl); auto.
Qed.
Print Assumptions C33_texts_partial.
(** texts that meet the conditions and are accepted *)
Definition ok_problem : text := chars "(set-logic QF_UF) (declare-const p Bool) (assert (not (= (or true p) true)))".
Definition ok_proof : text := chars
"(assume h1 (not (= (or true p) true)))
(step t1 (cl (= (or true p) true)) :rule rare_rewrite :args (""or-true"" p))
(step t2 (cl) :rule resolution :premises (t1 h1))".
Definition ok_rules : text := chars "(declare-rare-rule or-true ((x Bool)) :args (x) :conclusion (= (or true x) true))".
Example C33_texts_ex :
  (exists ts, lex_all ok_problem = ROk ts /\ safe cf0 any (defines false) ts = true) /\ (exists ts, lex_all ok_proof = ROk ts /\ safe cf0 named no_define ts = true) /\
  (exists ts, lex_all ok_rules = ROk ts /\ safe cf0 any any ts = true) /\
  (exists prems cmds rs, read_instance_rules cf0 false false ok_problem ok_proof ok_rules = ROk (prems, cmds, rs) /\
     forallb tame prems = true /\ proof_fine (mkFlags true true true true) cmds = true /\ rare_all_fine rs = true) /\
  run_texts (fun _ => "") cfg_default cf0 false false ok_problem ok_proof ok_rules = ROk false.
Proof.
  split; [eexists; split; [vm_compute; reflexivity|vm_compute; reflexivity]|]. split; [eexists; split; [vm_compute; reflexivity|vm_compute; reflexivity]|]. split; [eexists; split; [vm_compute; reflexivity|vm_compute; reflexivity]|].
  split; [|vm_compute; reflexivity].
  match goal with |- exists _ _ _, ?r = _ /\ _ => let q := eval vm_compute in r in match q with ROk (?a, ?b, ?c) => exists a, b, c end end.
  split; [vm_compute; reflexivity|]. split; [vm_compute; reflexivity|]. split; vm_compute; reflexivity.
Qed.
(** Texts that are read, and whose proof makes the checker panic. *)
Definition panic_texts : list (text * text) :=
  [ (chars "(assert (and true true))", chars "(assume h1 (and true true)) (step t1 (cl true) :rule and :premises (h1) :args (18446744073709551616))");
    (chars "", chars "(step t1 (cl) :rule hole) (step t2 (cl true) :rule cp_saturation :premises (t1))");
    (chars "(assert (= (/ 2.0 0.0) 1.0))", chars "(assume h1 (= 1.0 (/ 2.0 0.0)))") ].
Theorem C33_texts_refuted : Forall (fun pp => exists prems cmds, read_instance_rules cf0 false false (fst pp) (snd pp) [] = ROk (prems, cmds, []) /\
  forall show, check (full_table show []) cfg_default prems cmds = RPanic) panic_texts.
Proof.
  repeat (apply Forall_cons;
    [ match goal with |- exists _ _, ?r = _ /\ _ => let q := eval vm_compute in r in match q with ROk (?a, ?b, _) => exists a, b end end;
      split; [vm_compute; reflexivity|intros show; vm_compute; reflexivity] |]). apply Forall_nil.
Qed.
Print Assumptions C33_texts_refuted.
