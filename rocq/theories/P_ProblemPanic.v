(** C44 for problems, and for a problem with a proof: reading does not panic. *)
From Coq Require Import List Bool NArith ZArith Arith String.
From Verif Require Import Base Term Sem Utils Rules Checker Lexer TermIO TermIOPanic P_TermIO Parser ProofIO ProofIOPanic ProblemIO ProblemPanic P_Problem.
Import ListNotations.
Local Open Scope string_scope.
Local Open Scope list_scope.

(** ** C44 for problems *)
(** Full statement: reading the texts of a problem and a proof never panics. It fails for problems with a definition by a term with a [let], with [@d], and with indices that do
    not fit in 64 bits: *)
Theorem C44_problem_refuted : Forall (fun s => read_problem_text cf0 true (chars s) = RPanic)
  ["(define-fun f ((x Bool)) Bool (let ((z x)) z)) (assert (f true))"; "(assert @d)"; "(declare-const x (_ BitVec -1))"; "(declare-const x (_ BitVec 18446744073709551616))"; "(assert (_ bvx 3))"].
Proof. do 5 (apply Forall_cons; [vm_compute; reflexivity|]); apply Forall_nil. Qed.
Print Assumptions C44_problem_refuted.
(** What holds: problems and proofs that are cut into tokens without a panic are read without a panic if ([safe]) the indices after [_] are numerals below 2^64 and a symbol that
    begins with [bv] there goes on with a number, there is no [@d] and no [eo], no [let] if they are to be expanded, no [define-fun] in a problem if definitions are applied
    ([defines]), and no empty symbol and no [define-fun] in the proof. The texts are arbitrary otherwise. *)
Theorem C44_problem_partial : forall cf ap txt, (forall ts, lex_all txt = ROk ts -> safe cf any (defines ap) ts = true) -> lex_all txt <> RPanic -> read_problem_text cf ap txt <> RPanic.
Proof. intros cf ap txt H1 H2. exact (proj1 (read_problem_no_panic cf ap txt H1 H2)). Qed.
Print Assumptions C44_problem_partial.
Theorem C44_instance_partial : forall cf ap holes problem proof,
  (forall ts, lex_all problem = ROk ts -> safe cf any (defines ap) ts = true) -> lex_all problem <> RPanic ->
  (forall ts, lex_all proof = ROk ts -> safe cf named no_define ts = true) -> lex_all proof <> RPanic ->
  read_instance cf ap holes problem proof <> RPanic.
Proof. exact read_instance_no_panic. Qed.
Print Assumptions C44_instance_partial.
Example C44_problem_ex : (exists ts, lex_all in_problem = ROk ts /\ safe cf0 any (defines false) ts = true) /\ (exists ts, lex_all in_proof = ROk ts /\ safe cf0 named no_define ts = true) /\
  (exists ts, lex_all (chars "(declare-fun f (Int) (_ BitVec 3)) (define-funs-rec ((f ((x Int)) Int) (f () Int)) (x") = ROk ts /\ safe cf0 any (defines true) ts = true).
Proof. repeat split; eexists; (split; [vm_compute; reflexivity|vm_compute; reflexivity]). Qed.
