(** C53: the terms of a proof that has been read are well sorted; C01 from the text of the proof. *)
From Coq Require Import List Bool NArith ZArith Arith String.
From Verif Require Import Base Term Sem Sorting Utils Rules Checker CheckerSem CheckerSound Table Lexer TermIO Parser ParserSound P_Parser P_ElabSolver P_TermIO ProofIO ProofIOSound P_ProofIO WellSorted.
Import ListNotations.
Local Open Scope string_scope.
Local Open Scope list_scope.

(** Every term that is read is well sorted, for every text and every configuration, if the bodies of the definitions of the problem are. Definitions are expanded by the
    substitution of the code, which keeps sorts even where it captures variables. *)
Theorem C53_terms : forall cf sdecl E D txt t D', defs_wt D -> read_term cf sdecl E D txt = ROk (t, D') -> wt t = true /\ defs_wt D'.
Proof.
  intros cf sdecl E D txt t D' HD H. unfold read_term in H. apply obind_ok in H. destruct H as [ts [_ H]]. apply obind_ok in H. destruct H as [[[t1 D1] r] [H1 H]].
  destruct r; [|discriminate]. injection H as <- <-. exact (parse_wt _ _ _ _ _ _ _ _ _ HD H1).
Qed.
Print Assumptions C53_terms.
(** All terms of the commands of a proof that is read are well sorted: assumptions and the literals of clauses are Boolean, arguments are well sorted, and the value of an
    anchor's assignment has the sort of its variable. *)
Theorem C53_proofs : forall cf holes sdecl E D txt proof, defs_wt D -> read_proof_text cf holes sdecl E D txt = ROk proof -> forallb all_wt proof = true.
Proof. exact read_proof_wt. Qed.
Print Assumptions C53_proofs.
(** a text that defines functions, lets them be expanded, and uses indexed operators and binders *)
Definition ws_text : text := chars
"(define-fun f ((x Int) (b Bool)) Int (ite b (+ x 1) (- x)))
(assume h1 (! (forall ((y Int)) (< (f y (= y 0)) 3)) :named @all))
(anchor :step t1 :args ((z (_ BitVec 4)) (:= (y Int) 2)))
(step t1.1 (cl (= ((_ extract 1 0) z) #b01) (let ((u y)) (= (f u true) 3))) :rule hole :args ((f 1 false)))
(step t1 (cl (not @all) (= 1 (choice ((k Int)) (= k (f k p))))) :rule subproof :args ((_ bv3 8)))".
Example C53_ex : defs_wt [] /\ exists proof, read_proof_text cf0 false [] rn_env [] ws_text = ROk proof /\ forallb all_wt proof = true /\ List.length proof = 2.
Proof.
  split; [intros x d H; discriminate H|]. destruct (read_proof_text cf0 false [] rn_env [] ws_text) as [p| |] eqn:E; vm_compute in E; try discriminate. injection E as <-. eexists. split; [reflexivity|]. split; vm_compute; reflexivity.
Qed.

(** C01 from the text: if the text of a proof is read and accepted, the assertions have no model. The shape of the proof, its references and the sorts of its terms need no
    assumption. What remains are the side conditions of the rules and of crossing anchors, and the assumptions that are matched modulo reordering. *)
Theorem C01_text_partial : forall other cfg prems cf holes sdecl Es D txt proof,
  defs_wt D -> read_proof_text cf holes sdecl Es D txt = ROk proof ->
  check (rule_table other) cfg prems proof = ROk false ->
  loose_proof (rule_side (elaborated cfg)) proof = true -> assumes_ok cfg prems proof = true ->
  forall (I : interp) (E : env I), env_ok E -> ~ (forall p, In p prems -> holds E p = true).
Proof.
  intros other cfg prems cf holes sdecl Es D txt proof HD Hr Hc Hl Ha. destruct (text_raws _ _ _ _ _ _ _ Hr) as [rs Hp]. apply (C01_parsed_sound_partial other cfg prems rs proof); auto.
  pose proof (read_proof_wt _ _ _ _ _ _ _ HD Hr) as Hw. rewrite forallb_forall in *. intros c Hin. apply all_cmd_wt. auto.
Qed.
Print Assumptions C01_text_partial.
(** a text that meets the conditions *)
Example C01_text_ex : exists proof, read_proof_text cf0 false [] rn_env []
    (chars "(assume h1 p) (assume h2 (not p)) (step t1 (cl (= p p)) :rule refl) (step t2 (cl) :rule resolution :premises (h1 h2) :args (p true))") = ROk proof /\
  check (rule_table no_rule) (mkCfg false false []) rn_prems proof = ROk false /\
  loose_proof (rule_side false) proof = true /\ assumes_ok (mkCfg false false []) rn_prems proof = true.
Proof.
  match goal with |- exists _, ?r = _ /\ _ => destruct r as [p| |] eqn:E; vm_compute in E; try discriminate end. injection E as <-. eexists. split; [reflexivity|]. split; [vm_compute; reflexivity|]. split; vm_compute; reflexivity.
Qed.
