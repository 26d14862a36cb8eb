(** C37 for whole proofs: the text of a printed proof is read as the same proof. C44 for whole proofs: reading a proof does not panic. *)
From Coq Require Import List Bool NArith ZArith Arith String.
From Verif Require Import Base Term Sem Utils Rules Checker Table CheckerRefute Lexer TermIO TermIOSound TermIOPanic Parser ParserSound P_ElabSolver P_TermIO ProofIO ProofIOSound ProofIOPanic.
Import ListNotations.
Local Open Scope string_scope.
Local Open Scope list_scope.

(** Full statement: for every proof that has been read, the text that is printed is read as this proof, whatever terms get names ([share]). It holds if no discharged id
    is taken as a relative one ([unambiguous], see C37_discharge_refuted) and if the commands are readable ([readable]: the terms are readable in their scopes, see
    C37_terms_partial, ids can be quoted, rules and first discharged ids need no quotes). The text is the list of characters, with line breaks; [E] and [D] are the
    symbols and the definitions of the problem. Missing: proofs with constant definitions. *)
Theorem C37_proof_partial : forall share cf holes sdecl E D txt0 proof rs,
  read_proof_text cf holes sdecl E D txt0 = ROk proof -> print_proof proof = Some rs -> unambiguous rs -> readable share cf holes sdecl D [E] [""] rs = true ->
  exists txt, print_proof_text share proof = ROk txt /\ read_proof_text cf holes sdecl E D txt = ROk proof.
Proof.
  intros share cf holes sdecl E D txt0 proof rs H0 Hp Hu Hr. destruct (text_raws _ _ _ _ _ _ _ H0) as [rs0 H1]. destruct (print_parse rs0 proof H1) as (rs' & Hp' & H2). rewrite Hp in Hp'. injection Hp' as <-.
  destruct (text_spec share cf holes sdecl D E rs proof (H2 Hu) Hr) as (l & ind & A & B). exists (TermIO.out l). split; [|exact B]. unfold print_proof_text. rewrite Hp, A. reflexivity.
Qed.
Print Assumptions C37_proof_partial.

(** A text with a subproof that binds variables, all kinds of attributes, one of them ignored, quoted symbols and terms that are shared across commands. *)
Definition pt_env : venv := [("p", SBool); ("q r", SBool); ("f", SFun [SInt; SBool])].
Definition pt_text : text := chars
"unsat (
(assume h1 (not (f 1)))
(anchor :step t5 :args ((x Int) (:= (y Int) x) (:= z (+ y 1))))
(assume t5.h1 p) ; a comment
(step t5.1 (cl (= (f x) (f y)) (not (f 1))) :rule refl)
(step t5 (cl (not p) |q r|) :rule subproof :discharge (h1) :note (a (b)))
(step |t 6| (cl) :rule resolution :premises (t5 h1) :args (p false |q r| true)))".
Definition pt_out : text := chars
"(assume h1 (! (not (! (f 1) :named @p_1)) :named @p_0))
(anchor :step t5 :args ((x Int) (:= (y Int) x) (:= (z Int) (! (+ y 1) :named @p_2))))
(assume t5.h1 p)
(step t5.1 (cl (! (= (! (f x) :named @p_4) (! (f y) :named @p_5)) :named @p_3) @p_0) :rule refl)
(step t5 (cl (! (not p) :named @p_6) |q r|) :rule subproof :discharge (t5.h1))
(step |t 6| (cl) :rule resolution :premises (t5 h1) :args (p (! false :named @p_7) |q r| (! true :named @p_8)))
".
Example C37_proof_ex : exists proof rs, read_proof_text cf0 false [] pt_env [] pt_text = ROk proof /\ print_proof proof = Some rs /\ unambiguous rs /\
  readable (fun _ => true) cf0 false [] [] [pt_env] [""] rs = true /\ print_proof_text (fun _ => true) proof = ROk pt_out.
Proof.
  destruct (read_proof_text cf0 false [] pt_env [] pt_text) as [proof| |] eqn:E; [|vm_compute in E; discriminate|vm_compute in E; discriminate]. vm_compute in E. injection E as <-.
  eexists. eexists. split; [reflexivity|]. split; [vm_compute; reflexivity|]. split; [|split; vm_compute; reflexivity].
  intros id cl rule ps args ds Hin d Hd. repeat (destruct Hin as [Hin|Hin]; [try discriminate Hin; injection Hin as <- <- <- <- <- <-; cbn in Hd|]); try (destruct Hin); repeat (destruct Hd as [<-|Hd]); try (destruct Hd).
  cbn. intuition discriminate.
Qed.

(** Otherwise it fails. Rules are not quoted: here the printed text is read as another proof, and this proof is accepted, while the one that is printed is rejected. *)
Definition rn_env : venv := [("p", SBool)].
Definition rn_prems : list term := [TVar "p" SBool; TOp ONot [TVar "p" SBool]].
Theorem C37_rule_names_refuted : exists txt0 proof txt proof',
  read_proof_text cf0 false [] rn_env [] txt0 = ROk proof /\ print_proof_text (fun _ => false) proof = ROk txt /\ read_proof_text cf0 false [] rn_env [] txt = ROk proof' /\
  check (rule_table no_rule) (mkCfg false false []) rn_prems proof = RErr /\ check (rule_table no_rule) (mkCfg false false []) rn_prems proof' = ROk false.
Proof.
  exists (chars "(assume h1 p) (assume h2 (not p)) (step t1 (cl) :rule |resolution :premises (h1 h2)|)"). eexists. eexists. eexists.
  split; [vm_compute; reflexivity|]. split; [vm_compute; reflexivity|]. split; [vm_compute; reflexivity|]. split; vm_compute; reflexivity.
Qed.
Print Assumptions C37_rule_names_refuted.
(** The first discharged id is not quoted: here the printed text of an accepted proof cannot be read. *)
Definition dn_text : text := chars "(assume h1 false) (anchor :step t1) (assume |a b| p) (step t2 (cl p) :rule weakening :premises (|a b|)) (step t1 (cl (not p) p) :rule subproof :discharge (|a b|)) (step t3 (cl (not false)) :rule false) (step t4 (cl) :rule resolution :premises (h1 t3))".
Definition dn_proof : list command := Eval vm_compute in match read_proof_text cf0 false [] rn_env [] dn_text with ROk l => l | _ => [] end.
Definition dn_out : text := Eval vm_compute in match print_proof_text (fun _ => false) dn_proof with ROk l => l | _ => [] end.
Theorem C37_discharge_names_refuted : exists txt0 proof txt,
  read_proof_text cf0 false [] rn_env [] txt0 = ROk proof /\ check (rule_table no_rule) (mkCfg false false []) [tFalse] proof = ROk false /\
  print_proof_text (fun _ => false) proof = ROk txt /\ read_proof_text cf0 false [] rn_env [] txt = RErr.
Proof.
  exists dn_text, dn_proof, dn_out. split; [vm_compute; reflexivity|]. split; [vm_compute; reflexivity|].
  split; [vm_compute; reflexivity|vm_compute; reflexivity].
Qed.
Print Assumptions C37_discharge_names_refuted.
(** Empty attribute lists are not printed, but arguments of holes are dropped when they are read: with --parse-hole-args when reading first and without it later, the arguments are lost. *)
Theorem C37_hole_args_refuted : exists txt0 proof txt proof',
  read_proof_text cf0 true [] rn_env [] txt0 = ROk proof /\ print_proof_text (fun _ => false) proof = ROk txt /\ read_proof_text cf0 false [] rn_env [] txt = ROk proof' /\ proof' <> proof.
Proof.
  exists (chars "(step t1 (cl) :rule hole :args (p))"). eexists. eexists. eexists. split; [vm_compute; reflexivity|]. split; [vm_compute; reflexivity|]. split; [vm_compute; reflexivity|]. intros H. discriminate H.
Qed.
Print Assumptions C37_hole_args_refuted.

(** ** C44 *)
(** Full statement: reading the text of a proof never panics. It fails for the texts of C44_no_panic_refuted, for empty ids, and for functions with parameters that are
    defined in the proof by a term with a [let]: *)
Theorem C44_proof_refuted : Forall (fun s => read_proof_text cf0 false [] rn_env [] (chars s) = RPanic)
  ["(assume || p)"; "(assume h1 p) (step || (cl p) :rule hole)"; "(define-fun f ((x Bool)) Bool (let ((z x)) z)) (assume h1 (f p))"; "(anchor :step t1 :args ((x (_ BitVec -1)))"; "(step t1 (cl) :rule hole :foo 1/"].
Proof. do 5 (apply Forall_cons; [vm_compute; reflexivity|]); apply Forall_nil. Qed.
Print Assumptions C44_proof_refuted.
(** What holds: a text that is cut into tokens without a panic is read without a panic if ([safe]) the indices after [_] are numerals below 2^64 and a symbol that begins
    with [bv] there goes on with a number, there is no [@d] and no [eo], no [let] if they are to be expanded, no empty symbol ([named]) and no function definition
    ([no_define]), and the bodies of the functions that the problem defines have no [let]. The text is arbitrary otherwise. *)
Theorem C44_proof_partial : forall cf holes sdecl E D txt,
  (forall ts, lex_all txt = ROk ts -> safe cf named no_define ts = true) -> lex_all txt <> RPanic -> safe_defs D ->
  read_proof_text cf holes sdecl E D txt <> RPanic.
Proof. exact read_proof_no_panic. Qed.
Print Assumptions C44_proof_partial.
Example C44_proof_ex : Forall (fun txt => exists ts, lex_all txt = ROk ts /\ safe cf0 named no_define ts = true)
  [pt_text; pt_out; chars "((step t1 (cl (f)) :premises () (anchor :args 3"].
Proof. repeat apply Forall_cons; [| | |apply Forall_nil]; eexists; (split; [vm_compute; reflexivity|vm_compute; reflexivity]). Qed.
