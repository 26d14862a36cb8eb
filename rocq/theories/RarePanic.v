(** Reading a file of RARE rules does not panic, under the conditions on the tokens of TermIOPanic.v. *)
From Coq Require Import List Bool NArith ZArith String Arith Lia.
From Verif Require Import Base Term Sem Utils Rules Checker Lexer LexerSound TermIO TermIOPanic Parser ParserSound ProofIO ProofIOPanic ProblemIO ProblemPanic R_Rare RareIO Num.
Import ListNotations.
Local Open Scope nat_scope.

Section RarePanic.
  Variable cf : pcfg.
  Variable F : nat.
  Notation safe := (safe cf any any).
  Notation nice := (nice cf any any).
  Notation okD := (okD []).
  Notation long ts := (2 * List.length ts + 1 <= F).
  Definition okr (s : rst) : Prop := okD (r_defs s).
  Lemma sr_tl k r : safe (k :: r) = true -> safe r = true.
  Proof. apply safe_tail. Qed.
  Lemma rp_nice m sd E D ts : m <> MApp -> long ts -> safe ts = true -> okD D -> nice okD ts (parse cf sd F m E D ts).
  Proof. intros Hm H1 H2 H3. apply parse_nice; auto. destruct m; cbn [need]; try lia. congruence. Qed.
  Lemma r_term_nice s ts : long ts -> safe ts = true -> okr s -> nice okr ts (r_term cf F s ts).
  Proof.
    intros H1 H2 H3. unfold r_term. apply (bind_nice _ _ _ okD); [apply rp_nice; auto; discriminate|]. intros t D r _ L S HD. split; [exact L|]. split; [exact S|exact HD].
  Qed.
  Lemma r_sort_nice s ts : long ts -> safe ts = true -> okr s -> nice okD ts (r_sort cf F s ts).
  Proof.
    intros H1 H2 H3. assert (HP : nice okD ts (parse cf (r_sorts s) F MSort (r_vars s) (r_defs s) ts)) by (apply rp_nice; auto; discriminate).
    unfold r_sort. destruct ts as [|k r]; [exact Logic.I|]. destruct k; try exact Logic.I.
    - destruct r as [|k r]; [exact Logic.I|]. destruct k; try exact Logic.I. exact HP.
    - destruct (_ && _)%bool; [|exact HP]. split; [cbn; lia|]. split; [eapply sr_tl; eauto|exact H3].
  Qed.
  Lemma r_param_nice s ts : long ts -> safe ts = true -> okr s -> nice okr ts (r_param cf F s ts).
  Proof.
    intros H1 H2 H3. unfold r_param. apply expect_nice; [auto|]. intros r0 L0 S0. apply (nice_mono _ _ _ _ r0); [lia|]. apply symbol_nice; [auto|]. intros x r L S. cbn [fst snd].
    apply (nice_mono _ _ _ _ r); [lia|]. apply (bind_nice _ _ _ okD); [apply r_sort_nice; auto; lia|]. intros t D r1 _ L1 S1 HD.
    destruct t; try exact Logic.I. destruct r1 as [|k r2]; [exact Logic.I|]. pose proof (sr_tl _ _ S1) as S2. destruct k; try exact Logic.I.
    - split; [cbn in L1; lia|]. split; [exact S2|exact HD].
    - cbn in L1. apply (nice_mono _ _ _ _ r2); [lia|]. apply expect_nice; [auto|]. intros r3 L3 S3. destruct (text_eqb _ _); [|exact Logic.I]. split; [lia|]. split; [exact S3|exact HD].
  Qed.
  Lemma r_name_nice u ts : safe ts = true -> nice (fun _ : unit => True) ts (r_name u ts).
  Proof. intros H. unfold r_name. apply symbol_nice; [auto|]. intros x r L S. cbn. auto. Qed.
  Lemma r_body_nice n s ts : List.length ts < n -> long ts -> safe ts = true -> okr s -> nice okr ts (r_body cf F n s ts).
  Proof.
    intros Hn H1 H2 H3. unfold r_body. destruct ts as [|k r]; [exact Logic.I|]. destruct k; try exact Logic.I. pose proof (sr_tl _ _ H2) as S. cbn [List.length] in *.
    destruct (text_eqb _ _).
    { apply (nice_mono _ _ _ _ r); [cbn; lia|]. apply (bind_nice _ _ _ okr); [apply r_term_nice; auto; lia|]. intros t st1 r1 _ L1 S1 O1. cbn. auto. }
    destruct (text_eqb _ _).
    { apply (nice_mono _ _ _ _ r); [cbn; lia|]. apply expect_nice; [auto|]. intros r0 L0 S0. apply (nice_mono _ _ _ _ r0); [lia|].
      apply (bind_nice _ _ _ (fun _ : unit => True)); [apply seq_nice; auto; [lia|]; intros; apply r_name_nice; auto|]. intros l u r1 _ L1 S1 _. cbn. auto. }
    destruct (text_eqb _ _); [|exact Logic.I].
    apply (nice_mono _ _ _ _ r); [cbn; lia|]. apply expect_nice; [auto|]. intros r0 L0 S0. apply (nice_mono _ _ _ _ r0); [lia|].
    apply (bind_nice _ _ _ okr); [apply seq_nice; auto; [lia|]; intros; apply r_term_nice; auto; lia|]. intros l st1 r1 _ L1 S1 O1. cbn. auto.
  Qed.
  Lemma r_rule_nice s ts : long ts -> safe ts = true -> okr s -> nice okr ts (r_rule cf F F s ts).
  Proof.
    intros H1 H2 H3. unfold r_rule. apply expect_nice; [auto|]. intros r0 L0 S0. destruct r0 as [|k r0]; [exact Logic.I|]. destruct k; try exact Logic.I.
    destruct r0 as [|k r1]; [exact Logic.I|]. destruct k; try exact Logic.I. apply sr_tl in S0. apply sr_tl in S0. cbn [List.length] in L0.
    destruct (text_eqb _ _); [|exact Logic.I]. apply (nice_mono _ _ _ _ r1); [lia|]. apply expect_nice; [auto|]. intros r2 L2 S2. apply (nice_mono _ _ _ _ r2); [lia|].
    apply (bind_nice _ _ _ okr); [apply seq_nice; auto; [lia|]; intros; apply r_param_nice; auto; lia|]. intros ps st1 r3 _ L3 S3 O3. apply (nice_mono _ _ _ _ r3); [lia|].
    apply (bind_nice _ _ _ okr); [apply seq_nice; auto; [lia|]; intros; apply r_body_nice; auto; lia|]. intros b st2 r4 _ L4 S4 O4. destruct (body_concl b); [|exact Logic.I]. cbn. auto.
  Qed.
  Lemma r_rules_np : forall n s ts, List.length ts <= n -> long ts -> safe ts = true -> okr s -> r_rules cf F n s ts <> RPanic.
  Proof.
    induction n as [|n IH]; intros s ts Hn H1 H2 H3.
    - destruct ts; [discriminate|cbn in Hn; lia].
    - destruct ts as [|k r]; [discriminate|]. cbn [r_rules]. pose proof (r_rule_nice s (k :: r) H1 H2 H3) as H.
      destruct (r_rule cf F F s (k :: r)) as [[[q s1] ts1]| |]; cbn [obind]; [|discriminate|destruct H]. destruct H as (L & S & O).
      specialize (IH s1 ts1 ltac:(lia) ltac:(lia) S O). destruct (r_rules cf F n s1 ts1); cbn [obind]; [discriminate|discriminate|congruence].
  Qed.
End RarePanic.
Theorem read_rules_no_panic cf s txt : (forall ts, lex_all txt = ROk ts -> safe cf any any ts = true) -> lex_all txt <> RPanic -> safe_defs (r_defs s) ->
  read_rules_text cf s txt <> RPanic.
Proof.
  intros H1 H2 H3. unfold read_rules_text. destruct (lex_all txt) as [ts| |] eqn:E; cbn [obind]; [|discriminate|congruence].
  pose proof (r_rules_np cf (fuel_for ts) (S (List.length ts)) s ts) as H. destruct (r_rules _ _ _ _ _); cbn [obind]; try discriminate.
  exfalso. apply H; auto; [unfold fuel_for; lia|split; [exact H3|intros x []]].
Qed.
Lemma read_proof_defs_no_panic cf holes sdecl E D txt : (forall ts, lex_all txt = ROk ts -> safe cf named no_define ts = true) -> lex_all txt <> RPanic -> safe_defs D ->
  read_proof_defs cf holes sdecl E D txt <> RPanic /\ forall p, read_proof_defs cf holes sdecl E D txt = ROk p -> safe_defs (snd p).
Proof.
  intros H1 H2 H3. unfold read_proof_defs. destruct (lex_all txt) as [ts| |]; cbn [obind]; [|split; [discriminate|intros p H; discriminate H]|congruence].
  pose proof (safe_unsat cf ts (H1 ts eq_refl)) as Hs. cbv zeta. set (ts' := match ts with KSym w :: r => _ | _ => _ end) in *. clearbody ts'.
  assert (Ho : okst (mkRS ps0 [E] D)).
  { split; [|split; [exact H3|intros x []]]. split; [reflexivity|]. exists [], (mkFr [] [] 0 "" false). split; reflexivity. }
  pose proof (cmds_nice cf holes sdecl (fuel_for ts') (S (List.length ts')) true false (mkRS ps0 [E] D) ts' ltac:(lia) ltac:(unfold fuel_for; lia) Hs Ho) as H.
  destruct (read_cmds _ _ _ _ _ _ _ _ _) as [s| |]; cbn [obind]; [|split; [discriminate|intros p E1; discriminate E1]|destruct H].
  destruct H as [[_ (fs & f & Hf & _)] [Hd _]]. rewrite Hf. split.
  - destruct fs as [|g fs]; [discriminate|]. cbn. destruct (fs ++ [f]); discriminate.
  - intros p E1. destruct fs as [|g fs]; cbn in E1; [injection E1 as <-; exact Hd|]. destruct (fs ++ [f]) as [|h l] eqn:Ea; [destruct fs; discriminate Ea|discriminate E1].
Qed.
Theorem read_instance_rules_no_panic cf ap holes problem proof rules :
  (forall ts, lex_all problem = ROk ts -> safe cf any (defines ap) ts = true) -> lex_all problem <> RPanic ->
  (forall ts, lex_all proof = ROk ts -> safe cf named no_define ts = true) -> lex_all proof <> RPanic ->
  (forall ts, lex_all rules = ROk ts -> safe cf any any ts = true) -> lex_all rules <> RPanic ->
  read_instance_rules cf ap holes problem proof rules <> RPanic.
Proof.
  intros H1 H2 H3 H4 H5 H6. destruct (read_problem_no_panic cf ap problem H1 H2) as [Hp Hd]. unfold read_instance_rules.
  destruct (read_problem_text cf ap problem) as [s| |]; cbn [obind]; [|discriminate|congruence].
  destruct (read_proof_defs_no_panic (int_cfg cf) holes (pb_sorts s) (pb_vars s) (pb_defs s) proof) as [Hq Hd2]; [exact H3|exact H4|auto|].
  destruct (read_proof_defs _ _ _ _ _ _) as [p| |]; cbn [obind]; [|discriminate|congruence].
  assert (Hr : read_rules_text (int_cfg cf) (mkRst (pb_sorts s) (pb_vars s) (snd p)) rules <> RPanic) by (apply read_rules_no_panic; [exact H5|exact H6|apply Hd2; reflexivity]).
  destruct (read_rules_text _ _ _); cbn [obind]; [discriminate|discriminate|congruence].
Qed.
