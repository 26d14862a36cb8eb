(** C27: premise resolution by the parser. C37 (structure): printing a parsed proof and parsing it again. *)
From Coq Require Import List String ZArith Bool Arith.
From Verif Require Import Base Term Field Sem Sorting Rules Checker CheckerSound CheckerSem Table CheckerRefute Parser ParserSound.
Import ListNotations.
Local Open Scope string_scope.

(** Every premise and discharge reference of every step the iterator yields denotes a command completed
    earlier in the same or an enclosing subproof ([visible]); following it does not panic. *)
Theorem C27_references : forall rs proof, parse_proof rs = ROk proof ->
  forall s stk, yields proof (CStep s) stk -> forall p, In p (s_prems s ++ s_disch s)%list ->
  visible stk p = true /\ exists c cl, get_command stk p = ROk c /\ get_premise stk p = ROk cl.
Proof. intros rs proof H. destruct (parse_print rs proof H) as [out [Ho _]]. exact (print_follow proof out Ho). Qed.
Print Assumptions C27_references.

(** The references denote the commands with the ids given in the text: writing the proof out again, with
    every reference replaced by the id of the command it denotes, gives the text back. (A discharged id may
    have been given relative to the step's id.) *)
Theorem C27_names : forall rs proof, parse_proof rs = ROk proof ->
  exists out, print_proof proof = Some out /\ same_text rs out.
Proof. exact parse_print. Qed.
Print Assumptions C27_names.

(** That id identifies the command: no two commands visible at the same point share an id. Subproofs have at
    least two commands and end with a step; context ids are numbered in order of the anchors. *)
Theorem C27_ids_unique : forall rs proof, parse_proof rs = ROk proof -> ids_fresh_list proof [] = true.
Proof. exact parse_fresh. Qed.
Print Assumptions C27_ids_unique.
Theorem C27_shape : forall rs proof, parse_proof rs = ROk proof ->
  forallb shape_ok proof = true /\ forallb order_ok proof = true /\
  flat_map ctx_ids proof = seq 0 (List.length (flat_map ctx_ids proof)).
Proof. intros rs proof H. split; [|split]; [exact (parse_shape _ _ H)|exact (parse_order _ _ H)|exact (parse_ctx _ _ H)]. Qed.
Print Assumptions C27_shape.

(** The parser's main loop panics only if a command has the empty id, and it does so on such a text: the
    root frame's end id is the empty string, so a top-level command called || pops the last scope. *)
Theorem C27_no_panic : forall rs, forallb cmd_named rs = true -> parse_proof rs <> RPanic.
Proof. exact parse_no_panic. Qed.
Print Assumptions C27_no_panic.
Theorem C27_empty_id_panics : forall t, parse_proof [RwAssume "" t] = RPanic.
Proof. reflexivity. Qed.
Print Assumptions C27_empty_id_panics.

(** C01 for parsed proofs: the conditions on shape and references are established by the parser. What
    remains are the sorts, the side conditions of the rules and of crossing anchors, and the assumptions. *)
Theorem C01_parsed_sound_partial : forall other cfg prems rs proof,
  parse_proof rs = ROk proof ->
  check (rule_table other) cfg prems proof = ROk false ->
  forallb cmd_wt proof = true ->
  loose_proof (rule_side (elaborated cfg)) proof = true -> assumes_ok cfg prems proof = true ->
  forall (I : interp) (E : env I), env_ok E -> ~ (forall p, In p prems -> holds E p = true).
Proof.
  intros other cfg prems rs proof Hp Hc Hw Hl Ha. destruct (parse_print rs proof Hp) as [out [Ho _]].
  apply (check_table_sound other cfg prems proof Hc (parse_shape _ _ Hp) Hw); auto. exact (loose_wf _ proof out Ho Hl).
Qed.
Print Assumptions C01_parsed_sound_partial.

(** C37, the structure of the text: printing a parsed proof and parsing the result gives the same proof,
    provided that no printed discharge id, prefixed with the id of its step, is the id of a command.
    Missing: the printing of terms, symbols and constants. *)
Theorem C37_structure_partial : forall rs0 proof, parse_proof rs0 = ROk proof ->
  exists rs, print_proof proof = Some rs /\ (unambiguous rs -> parse_proof rs = ROk proof).
Proof. exact print_parse. Qed.
Print Assumptions C37_structure_partial.

(** Without that condition it fails: the printer writes the absolute id t5.h1, the parser reads it as
    t5.t5.h1 if there is such a command. *)
Definition ex_p : term := TVar "p" SBool.
Definition ex_ambiguous : list raw :=
  [RwAnchor "t5" []; RwAssume "t5.h1" ex_p; RwAssume "t5.t5.h1" (tNot ex_p);
   RwStep "t5.t1" [tNot ex_p; ex_p] "hole" [] [] []; RwStep "t5" [tNot ex_p; ex_p] "subproof" [] [] ["h1"]].
Theorem C37_discharge_refuted : exists rs0 proof rs proof',
  parse_proof rs0 = ROk proof /\ print_proof proof = Some rs /\ parse_proof rs = ROk proof' /\ proof' <> proof.
Proof.
  exists ex_ambiguous. eexists. eexists. eexists. split; [vm_compute; reflexivity|]. split; [vm_compute; reflexivity|].
  split; [vm_compute; reflexivity|]. intros H. discriminate H.
Qed.
Print Assumptions C37_discharge_refuted.

(** The hypotheses are met: a text with nested subproofs, references across scopes and a relative discharge. *)
Definition ex_text : list raw :=
  [RwAssume "h1" ex_p; RwDefine;
   RwAnchor "t2" [AVar ("x", SInt)];
   RwAssume "t2.h" (tNot ex_p);
   RwAnchor "t2.t1" [];
   RwStep "t2.t1.t1" [ex_p] "hole" ["h1"] [] [];
   RwStep "t2.t1" [ex_p] "hole" ["t2.t1.t1"; "t2.h"; "h1"] [] [];
   RwStep "t2.t2" [] "resolution" ["t2.t1"; "t2.h"] [] [];
   RwStep "t2" [ex_p; tFalse] "subproof" [] [] ["h"];
   RwStep "t3" [] "hole" ["t2"; "h1"] [] []].
Example C27_witness : exists proof, parse_proof ex_text = ROk proof /\ List.length proof = 3 /\ 
  flat_map ctx_ids proof = [0; 1] /\ (exists s stk, yields proof (CStep s) stk /\ s_prems s = [(2, 0); (1, 0); (0, 0)]) /\
  print_proof proof = Some
    [RwAssume "h1" ex_p; RwAnchor "t2" [AVar ("x", SInt)]; RwAssume "t2.h" (tNot ex_p); RwAnchor "t2.t1" [];
     RwStep "t2.t1.t1" [ex_p] "hole" ["h1"] [] []; RwStep "t2.t1" [ex_p] "hole" ["t2.t1.t1"; "t2.h"; "h1"] [] [];
     RwStep "t2.t2" [] "resolution" ["t2.t1"; "t2.h"] [] []; RwStep "t2" [ex_p; tFalse] "subproof" [] [] ["t2.h"];
     RwStep "t3" [] "hole" ["t2"; "h1"] [] []].
Proof.
  eexists. split; [vm_compute; reflexivity|]. split; [reflexivity|]. split; [reflexivity|]. split; [|reflexivity].
  eexists. eexists. split; [|shelve].
  eapply yields_next; [eapply yields_next; [eapply yields_next; [eapply yields_next; [eapply yields_next; [apply yields_first; reflexivity|reflexivity]|reflexivity]|reflexivity]|reflexivity]|reflexivity].
  Unshelve. reflexivity.
Qed.
Example C37_witness : exists proof rs, parse_proof ex_text = ROk proof /\ print_proof proof = Some rs /\ unambiguous rs.
Proof.
  eexists. eexists. split; [vm_compute; reflexivity|]. split; [vm_compute; reflexivity|].
  intros id cl rule ps args ds Hin d Hd. cbn in Hin.
  repeat (destruct Hin as [Hin|Hin]; [try discriminate Hin; injection Hin as <- <- <- <- <- <-;
    cbn in Hd; try (destruct Hd as [<-|Hd]); try (now destruct Hd)|]); try (now destruct Hin).
  vm_compute. intros H. repeat (destruct H as [H|H]; [discriminate H|]). exact H.
Qed.

(** The counterexamples to soundness (C01, P_Checker.v) are the result of parsing a text. *)
Theorem C01_counterexamples_parse : forall proof,
  In proof [gr_proof; la_proof; am_proof; re_proof; le_proof; cp_proof; drat_proof; poly_proof; eval_proof] ->
  exists rs, parse_proof rs = ROk proof.
Proof.
  assert (H : forall proof rs, print_proof proof = Some rs -> parse_proof rs = ROk proof -> exists rs, parse_proof rs = ROk proof) by eauto.
  intros proof Hin. cbn [In] in Hin.
  repeat (destruct Hin as [<-|Hin]; [eapply H; vm_compute; reflexivity|]). destruct Hin.
Qed.
Print Assumptions C01_counterexamples_parse.
