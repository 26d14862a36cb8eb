(** Reading the text of a proof does not panic, under explicit conditions on the tokens. *)
From Coq Require Import List Bool NArith ZArith String Arith Lia.
From Verif Require Import Base Term Sem Utils Rules Checker Lexer LexerSound TermIO TermIOPanic Parser ParserSound ProofIO.
Import ListNotations.
Local Open Scope nat_scope.

(** no empty symbol, and no function definition in the proof *)
Definition named (s : text) : bool := match s with [] => false | _ => true end.
Definition no_define (w : text) : bool := negb (text_eqb w (chars "define-fun")).
Section ProofPanic.
  Variables (cf : pcfg) (holes : bool) (sdecl : sdecls).
  Variable F : nat.
  Notation safe := (safe cf named no_define).
  Notation nice := (nice cf named no_define).
  Notation okD := (okD []).
  Notation long ts := (2 * List.length ts + 1 <= F).
  Lemma pterm_nice m E D ts : m <> MApp -> long ts -> safe ts = true -> okD D -> nice okD ts (parse cf sdecl F m E D ts).
  Proof. intros Hm H1 H2 H3. apply parse_nice; auto. destruct m; cbn [need]; try lia. congruence. Qed.
  Lemma tl_safe k r : safe (k :: r) = true -> safe r = true.
  Proof. apply safe_tail. Qed.
  Lemma string_named s : named s = true -> String.eqb (string_of s) "" = false.
  Proof. destruct s; [discriminate|]. reflexivity. Qed.
  Lemma attrs_nice : forall n ts, List.length ts <= n -> safe ts = true ->
    match skip_attrs n ts with RPanic => False | RErr => True | ROk r => List.length r <= List.length ts /\ safe r = true end.
  Proof.
    induction n as [|n IH]; intros ts Hn Hs.
    - destruct ts; [cbn; auto|cbn in Hn; lia].
    - destruct ts as [|k r]; [cbn; auto|]. pose proof (tl_safe _ _ Hs) as Hr. cbn [List.length] in *.
      destruct k; cbn [skip_attrs]; try (cbn [List.length]; split; [lia|exact Hs]).
      destruct r as [|k r]; [split; [lia|reflexivity]|]. pose proof (tl_safe _ _ Hr) as Hr'. cbn [List.length] in *.
      assert (Hrest : match match r with KClose :: _ => ROk r | _ => skip_attrs n r end with RPanic => False | RErr => True | ROk x => List.length x <= S (S (List.length r)) /\ safe x = true end).
      { assert (Hi := IH r ltac:(lia) Hr'). assert (Hi' : match skip_attrs n r with RPanic => False | RErr => True | ROk x => List.length x <= S (S (List.length r)) /\ safe x = true end).
        { destruct (skip_attrs n r); auto. destruct Hi. split; [lia|auto]. }
        destruct r as [|k' r']; [exact Hi'|]. destruct k'; try exact Hi'. split; [lia|exact Hr']. }
      destruct k; try exact Hrest.
      + pose proof (skip_nice cf named no_define r 1 Hr') as H. destruct (skip_parens 1 r) as [x| |]; cbn [obind]; auto. destruct H as [H1 H2].
        assert (Hi := IH x ltac:(lia) H2). assert (Hi' : match skip_attrs n x with RPanic => False | RErr => True | ROk y => List.length y <= S (S (List.length r)) /\ safe y = true end).
        { destruct (skip_attrs n x); auto. destruct Hi. split; [lia|auto]. }
        destruct x as [|k' x']; [exact Hi'|]. destruct k'; try exact Hi'. split; [lia|exact H2].
      + split; [cbn; lia|exact Hr].
      + assert (Hi := IH (KKey s0 :: r) ltac:(cbn; lia) Hr). destruct (skip_attrs n (KKey s0 :: r)); auto. cbn in Hi. destruct Hi. split; [lia|auto].
      + split; [cbn; lia|exact Hr].
  Qed.
  (** [fin] : a result that is not followed by a state *)
  Definition fin {A} (ok : A -> Prop) (ts : list token) (o : outcome (A * list token)) : Prop :=
    match o with RPanic => False | RErr => True | ROk (a, r) => List.length r < List.length ts /\ safe r = true /\ ok a end.
  Lemma close_nice {B T} (okT : T -> Prop) ts (f : list token -> outcome (B * T * list token)) :
    List.length ts <= F -> safe ts = true -> (forall r, List.length r < List.length ts -> safe r = true -> nice okT ts (f r)) ->
    nice okT ts (do r <- close_cmd F ts ; f r).
  Proof.
    intros H1 H2 H. unfold close_cmd. pose proof (attrs_nice F ts H1 H2) as Ha. destruct (skip_attrs F ts) as [r| |]; cbn [obind]; [|exact Logic.I|destruct Ha].
    destruct Ha as [L S]. unfold expect. destruct r as [|k r]; cbn [obind]; [exact Logic.I|]. destruct (is_close k); cbn [obind]; [|exact Logic.I]. apply H; [cbn in L; lia|eapply tl_safe; eauto].
  Qed.
  Lemma sorted_term_nice s E D ts : long ts -> safe ts = true -> okD D -> nice okD ts (term_of_sort cf sdecl F s E D ts).
  Proof.
    intros H1 H2 H3. unfold term_of_sort. apply (bind_nice _ _ _ okD); [apply pterm_nice; auto; discriminate|]. intros t D1 r _ L S HD.
    unfold rassert. destruct (sort_eqb _ _); cbn; auto.
  Qed.
  Lemma sym_nice {B T} (okT : T -> Prop) ts (f : string * list token -> outcome (B * T * list token)) :
    safe ts = true -> (forall x r, String.eqb x "" = false -> List.length r < List.length ts -> safe r = true -> nice okT ts (f (x, r))) ->
    nice okT ts (do r <- expect_symbol ts ; f r).
  Proof.
    intros Hs H. unfold expect_symbol. destruct ts as [|[] r]; cbn; auto. apply H; [apply string_named; eapply safe_sy; eauto|cbn; lia|eapply tl_safe; eauto].
  Qed.
  (** the names of the commands are in the first component *)
  Definition okraw (x : raw) : Prop := cmd_named x = true.
  Definition nicer {S} (okS : S -> Prop) (ts : list token) (o : outcome (raw * S * list token)) : Prop :=
    nice okS ts o /\ forall c s r, o = ROk (c, s, r) -> okraw c.
  Lemma assume_nice E D ts : long ts -> safe ts = true -> okD D -> nicer okD ts (read_assume cf sdecl F E D ts).
  Proof.
    intros H1 H2 H3. split.
    - unfold read_assume. apply sym_nice; [auto|]. intros x r _ L S. cbn [fst snd]. apply (nice_mono _ _ _ _ r); [lia|].
      apply (bind_nice _ _ _ okD); [apply sorted_term_nice; auto; lia|]. intros t D1 r1 _ L1 S1 HD. apply (nice_mono _ _ _ _ r1); [lia|].
      apply close_nice; [lia|auto|]. intros r2 L2 S2. cbn. auto.
    - intros c s r. unfold read_assume, expect_symbol. destruct ts as [|[] r0]; cbn [obind fst snd]; try discriminate.
      destruct (term_of_sort _ _ _ _ _ _ _) as [[[t D1] r1]| |]; cbn [obind]; try discriminate. destruct (close_cmd F r1); cbn [obind]; try discriminate.
      intros H. injection H as <- _ _. unfold okraw. cbn [cmd_named]. rewrite string_named; [reflexivity|eapply safe_sy; eauto].
  Qed.
  Lemma opt_nice {A S} (okS : S -> Prop) k (p : S -> list token -> outcome (A * S * list token)) s ts :
    List.length ts < F -> safe ts = true -> okS s ->
    (forall s' ts', List.length ts' <= List.length ts -> safe ts' = true -> okS s' -> nice okS ts' (p s' ts')) ->
    match opt_seq F k p s ts with RPanic => False | RErr => True | ROk (_, s', r) => List.length r <= List.length ts /\ safe r = true /\ okS s' end.
  Proof.
    intros H1 H2 H3 H4. unfold opt_seq. destruct (is_key k ts); [|auto].
    assert (L : List.length (tl ts) <= List.length ts) by (destruct ts; cbn; lia). assert (S0 : safe (tl ts) = true) by (destruct ts; [reflexivity|eapply tl_safe; eauto]).
    pose proof (expect_nice cf named no_define okS is_open (tl ts) (seq1 p F s) S0) as H. destruct (do r <- expect is_open (tl ts) ; seq1 p F s r) as [[[l s'] r]| |] eqn:E; [|exact Logic.I|].
    - destruct H as [H5 H6]; [|split; [lia|exact H6]]. intros r0 L0 S1. apply (nice_mono _ _ _ _ r0); [lia|]. apply seq1_nice; auto; [lia|]. intros s0 ts' L'. apply H4. lia.
    - apply H. intros r0 L0 S1. apply (nice_mono _ _ _ _ r0); [lia|]. apply seq1_nice; auto; [lia|]. intros s0 ts' L'. apply H4. lia.
  Qed.
  Lemma ref_nice look u ts : (forall x, look x <> RPanic) -> safe ts = true -> nice (fun _ : unit => True) ts (read_ref look u ts).
  Proof.
    intros Hl Hs. unfold read_ref. apply sym_nice; [auto|]. intros x r _ L S. cbn [fst snd]. specialize (Hl x). destruct (look x); cbn; auto.
  Qed.
  Lemma premise_np ids x : parse_premise ids x <> RPanic.
  Proof. unfold parse_premise, ok_or. destruct (hs_get_depth _ _ _); discriminate. Qed.
  Lemma discharge_np ids root x : parse_discharge ids root x <> RPanic.
  Proof. unfold parse_discharge, ok_or. destruct (hs_get_depth _ ids (absolute root x)); [discriminate|]. destruct (hs_get_depth _ _ _); discriminate. Qed.
  Lemma step_tail_nice ids E id cl rule D1 ts : long ts -> safe ts = true -> okD D1 ->
    nice okD ts (do z <- opt_seq F "premises" (read_ref (parse_premise ids)) tt ts ;
        let '(prems, _, r6) := z in
        do a <- (if is_key "args" r6 then
                   do r <- expect is_open (tl r6) ;
                   if String.eqb rule "hole" && negb holes then do r7 <- skip_parens 1 r ; ROk ([], D1, r7) else seq1 (parse cf sdecl F MTerm E) F D1 r
                 else ROk ([], D1, r6)) ;
        let '(args, D2, r7) := a in
        do d <- opt_seq F "discharge" (read_ref (parse_discharge ids id)) tt r7 ;
        let '(disch, _, r8) := d in
        do r9 <- close_cmd F r8 ; ROk (RwStep id cl rule prems args disch, D2, r9)).
  Proof.
    intros H1 H2 H3. pose proof (opt_nice (fun _ : unit => True) "premises" (read_ref (parse_premise ids)) tt ts ltac:(lia) H2 Logic.I) as Hp.
    destruct (opt_seq F "premises" _ tt ts) as [[[prems u] r6]| |]; cbn [obind]; [|exact Logic.I|apply Hp; intros; apply ref_nice; auto; apply premise_np].
    destruct Hp as (L6 & S6 & _); [intros; apply ref_nice; auto; apply premise_np|].
    set (a := if is_key "args" r6 then _ else _).
    assert (Ha : match a with RPanic => False | RErr => True | ROk (_, D2, r) => List.length r <= List.length r6 /\ safe r = true /\ okD D2 end).
    { unfold a. destruct (is_key "args" r6); [|auto].
      assert (L : List.length (tl r6) <= List.length r6) by (destruct r6; cbn; lia). assert (S0 : safe (tl r6) = true) by (destruct r6; [reflexivity|eapply tl_safe; eauto]).
      assert (H : nice okD (tl r6) (do r <- expect is_open (tl r6) ;
                   if String.eqb rule "hole" && negb holes then do r7 <- skip_parens 1 r ; ROk ([], D1, r7) else seq1 (parse cf sdecl F MTerm E) F D1 r)).
      { apply expect_nice; [auto|]. intros r L0 S1. destruct (String.eqb rule "hole" && negb holes).
        - pose proof (skip_nice cf named no_define r 1 S1) as Hk. destruct (skip_parens 1 r) as [x| |]; cbn; auto. destruct Hk. split; [lia|auto].
        - apply (nice_mono _ _ _ _ r); [lia|]. apply seq1_nice; auto; [lia|]. intros D' ts' L' S' O'. apply pterm_nice; auto; [discriminate|lia]. }
      destruct (do r <- expect is_open (tl r6) ; _) as [[[l D2] r]| |]; auto. destruct H as (A & B & C). split; [lia|auto]. }
    clearbody a. destruct a as [[[args D2] r7]| |]; cbn [obind]; [|exact Logic.I|destruct Ha]. destruct Ha as (L7 & S7 & O7).
    pose proof (opt_nice (fun _ : unit => True) "discharge" (read_ref (parse_discharge ids id)) tt r7 ltac:(lia) S7 Logic.I) as Hd.
    destruct (opt_seq F "discharge" _ tt r7) as [[[disch u'] r8]| |]; cbn [obind]; [|exact Logic.I|apply Hd; intros; apply ref_nice; auto; apply discharge_np].
    destruct Hd as (L8 & S8 & _); [intros; apply ref_nice; auto; apply discharge_np|].
    apply (nice_mono _ _ _ _ r8); [lia|]. apply close_nice; [lia|auto|]. intros r9 L9 S9. cbn. auto.
  Qed.
  Lemma step_nice ids E D ts : long ts -> safe ts = true -> okD D -> nicer okD ts (read_step cf holes sdecl F ids E D ts).
  Proof.
    intros H1 H2 H3. split.
    - unfold read_step. apply sym_nice; [auto|]. intros x r _ L S. cbn [fst snd]. apply (nice_mono _ _ _ _ r); [lia|].
      apply expect_nice; [auto|]. intros r1 L1 S1. apply (nice_mono _ _ _ _ r1); [lia|]. apply expect_nice; [auto|]. intros r2 L2 S2. apply (nice_mono _ _ _ _ r2); [lia|].
      apply (bind_nice _ _ _ okD). { apply seq_nice; auto; [lia|]. intros D' ts' L' S' O'. apply sorted_term_nice; auto. lia. }
      intros cl D1 r3 _ L3 S3 HD. unfold expect_key. destruct (is_key "rule" r3); cbn [obind]; [|exact Logic.I].
      destruct r3 as [|k r4]; [exact Logic.I|]. cbn [tl]. destruct r4 as [|k' r5]; [exact Logic.I|]. cbn [List.length] in L3. apply tl_safe in S3. apply tl_safe in S3.
      destruct k'; try exact Logic.I; (apply (nice_mono _ _ _ _ r5); [lia|]; apply step_tail_nice; auto; lia).
    - intros c s r. unfold read_step, expect_symbol. destruct ts as [|[] r0]; cbn [obind fst snd]; try discriminate.
      destruct (expect is_open r0) as [l| |]; cbn [obind]; try discriminate. destruct (expect _ l) as [l0| |]; cbn [obind]; try discriminate.
      destruct (seq _ F D l0) as [[[cl D1] r1]| |]; cbn [obind]; try discriminate. destruct (expect_key "rule" r1) as [l1| |]; cbn [obind]; try discriminate.
      destruct l1 as [|[] r5]; try discriminate.
      all: destruct (opt_seq F "premises" _ tt r5) as [[[prems u] r6]| |]; cbn [obind]; try discriminate;
        match goal with |- (do a <- ?x ; _) = _ -> _ => destruct x as [[[args D2] r7]| |]; cbn [obind]; try discriminate end;
        destruct (opt_seq F "discharge" _ tt r7) as [[[disch u'] r8]| |]; cbn [obind]; try discriminate;
        destruct (close_cmd F r8); cbn [obind]; try discriminate;
        intros H; injection H as <- _ _; unfold okraw; cbn [cmd_named]; rewrite string_named; [reflexivity|eapply safe_sy; eauto].
  Qed.
  Lemma svar_nice E ND ts : long ts -> safe ts = true -> okD (snd ND) ->
    nice (fun p : venv * defs => okD (snd p)) ts (TermIO.sorted_var (fun _ => parse cf sdecl F MSort E) ND ts).
  Proof.
    destruct ND as [N D]. intros H1 H2 H3. unfold sorted_var. apply expect_nice; [auto|]. intros r0 L0 S0.
    apply (nice_mono _ _ _ _ r0); [lia|]. apply symbol_nice; [auto|]. intros x r L S.
    apply (nice_mono _ _ _ _ r); [lia|]. cbn [fst snd] in *. apply (bind_nice _ _ _ okD); [apply pterm_nice; auto; [discriminate|lia]|].
    intros s D2 r2 _ L2 S2 HD2. apply (nice_mono _ _ _ _ r2); [lia|]. apply expect_nice; [auto|]. intros r3 L3 S3. destruct s; cbn; auto.
  Qed.
  Lemma anchor_arg_nice E ND ts : long ts -> safe ts = true -> okD (snd ND) ->
    nice (fun p : venv * defs => okD (snd p)) ts (read_anchor_arg cf sdecl F E ND ts).
  Proof.
    destruct ND as [N D]. cbn [snd]. intros H1 H2 H3.
    assert (Hv : nice (fun p : venv * defs => okD (snd p)) ts (do x <- TermIO.sorted_var (fun _ => parse cf sdecl F MSort (N ++ E)) (N, D) ts ; let '(v, ND1, r1) := x in ROk (AVar v, ND1, r1))).
    { apply (bind_nice _ _ _ (fun p : venv * defs => okD (snd p))); [apply svar_nice; auto|]. intros v ND1 r1 _ L S O. cbn. auto. }
    unfold read_anchor_arg. destruct ts as [|k0 ts0]; [exact Hv|]. destruct k0; try exact Hv. destruct ts0 as [|k1 r]; [exact Hv|]. destruct k1; try exact Hv. clear Hv.
    destruct (text_eqb s (chars "=")); [|exact Logic.I]. apply tl_safe in H2. apply tl_safe in H2. cbn [List.length] in H1. apply (nice_mono _ _ _ _ r); [cbn; lia|].
    assert (Hv : nice (fun p : venv * defs => okD (snd p)) r (do x <- TermIO.sorted_var (fun _ => parse cf sdecl F MSort (N ++ E)) (N, D) r ;
              let '(v, ND1, r1) := x in
              do y <- term_of_sort cf sdecl F (snd v) (N ++ E) (snd ND1) r1 ;
              let '(t, D1, r2) := y in
              do r3 <- expect is_close r2 ; ROk (AAssign v t, (v :: N, D1), r3))).
    { apply (bind_nice _ _ _ (fun p : venv * defs => okD (snd p))); [apply svar_nice; auto; lia|]. intros v ND1 r1 _ L S O. apply (nice_mono _ _ _ _ r1); [lia|].
      apply (bind_nice _ _ _ okD); [apply sorted_term_nice; auto; lia|]. intros t D1 r2 _ L2 S2 O2. apply (nice_mono _ _ _ _ r2); [lia|]. apply expect_nice; [auto|]. intros r3 L3 S3. cbn. auto. }
    destruct r as [|k r']; [exact Hv|]. destruct k; try exact Hv. destruct (strict cf); [exact Logic.I|]. clear Hv. apply tl_safe in H2. cbn [List.length] in H1. apply (nice_mono _ _ _ _ r'); [cbn; lia|].
    apply (bind_nice _ _ _ okD); [apply pterm_nice; auto; [discriminate|lia]|]. intros t D1 r1 _ L1 S1 O1. apply (nice_mono _ _ _ _ r1); [lia|]. apply expect_nice; [auto|]. intros r3 L3 S3. cbn. auto.
  Qed.
  Lemma anchor_nice E D ts : long ts -> safe ts = true -> okD D ->
    nice okD ts (read_anchor cf sdecl F E D ts) /\ forall c N D' r, read_anchor cf sdecl F E D ts = ROk (c, N, D', r) -> okraw c.
  Proof.
    intros H1 H2 H3. split.
    - unfold read_anchor, expect_key. destruct (is_key "step" ts); cbn [obind]; [|exact Logic.I].
      assert (L : List.length (tl ts) <= List.length ts) by (destruct ts; cbn; lia). assert (S0 : safe (tl ts) = true) by (destruct ts; [reflexivity|eapply tl_safe; eauto]).
      apply (nice_mono _ _ _ _ (tl ts)); [lia|]. apply symbol_nice; [auto|]. intros x r Lr Sr. cbn [fst snd].
      pose proof (opt_nice (fun p : venv * defs => okD (snd p)) "args" (read_anchor_arg cf sdecl F E) ([], D) r ltac:(lia) Sr H3) as Ha.
      destruct (opt_seq F "args" _ _ r) as [[[args ND] r1]| |]; cbn [obind]; [|exact Logic.I|apply Ha; intros; apply anchor_arg_nice; auto; lia].
      destruct Ha as (L1 & S1 & O1); [intros; apply anchor_arg_nice; auto; lia|]. apply (nice_mono _ _ _ _ r1); [lia|]. apply close_nice; [lia|auto|]. intros r2 L2 S2. cbn. auto.
    - intros c N D' r. unfold read_anchor, expect_symbol. destruct (expect_key "step" ts) as [r0| |]; cbn [obind]; try discriminate. destruct r0 as [|[] r0]; cbn [obind fst snd]; try discriminate.
      destruct (opt_seq F "args" _ _ r0) as [[[args ND] r1]| |]; cbn [obind]; try discriminate. destruct (close_cmd F r1); cbn [obind]; try discriminate. intros H. injection H as <- _ _ _. reflexivity.
  Qed.
  Definition okst (s : rstate) : Prop := frames_ok (rs_st s) /\ okD (rs_defs s).
  Lemma cmd_nice s ts : long ts -> safe ts = true -> okst s -> fin okst ts (read_cmd cf holes sdecl F s ts).
  Proof.
    intros H1 H2 [Hf Hd]. unfold read_cmd. destruct ts as [|k r]; [exact Logic.I|]. destruct k; try exact Logic.I. pose proof (tl_safe _ _ H2) as Hr. cbn [List.length] in H1.
    destruct (text_eqb s0 (chars "assume")).
    { pose proof (assume_nice (List.concat (rs_vars s)) (rs_defs s) r ltac:(lia) Hr Hd) as [Hn Hc].
      destruct (read_assume _ _ _ _ _ _) as [[[c D] r1]| |]; cbn [obind]; [|exact Logic.I|exact Hn]. destruct Hn as (L & S & O). specialize (Hc _ _ _ eq_refl).
      destruct (parse_cmd_frames (rs_st s) c Hf Hc) as [Hp Hq]. destruct (parse_cmd (rs_st s) c) as [st| |]; cbn [obind]; [|exact Logic.I|congruence].
      cbn. split; [lia|]. split; [auto|]. split; [apply Hq; reflexivity|exact O]. }
    destruct (text_eqb s0 (chars "step")).
    { pose proof (step_nice (ps_ids (rs_st s)) (List.concat (rs_vars s)) (rs_defs s) r ltac:(lia) Hr Hd) as [Hn Hc].
      destruct (read_step _ _ _ _ _ _ _ _) as [[[c D] r1]| |]; cbn [obind]; [|exact Logic.I|exact Hn]. destruct Hn as (L & S & O). specialize (Hc _ _ _ eq_refl).
      destruct (parse_cmd_frames (rs_st s) c Hf Hc) as [Hp Hq]. destruct (parse_cmd (rs_st s) c) as [st| |]; cbn [obind]; [|exact Logic.I|congruence].
      cbn. split; [lia|]. split; [auto|]. split; [apply Hq; reflexivity|exact O]. }
    destruct (text_eqb s0 (chars "anchor")).
    { pose proof (anchor_nice (List.concat (rs_vars s)) (rs_defs s) r ltac:(lia) Hr Hd) as [Hn Hc].
      destruct (read_anchor _ _ _ _ _ _) as [[[[c N] D] r1]| |]; cbn [obind]; [|exact Logic.I|exact Hn]. destruct Hn as (L & S & O). specialize (Hc _ _ _ _ eq_refl).
      destruct (parse_cmd_frames (rs_st s) c Hf Hc) as [Hp Hq]. destruct (parse_cmd (rs_st s) c) as [st| |]; cbn [obind]; [|exact Logic.I|congruence].
      cbn. split; [lia|]. split; [auto|]. split; [apply Hq; reflexivity|exact O]. }
    destruct (text_eqb s0 (chars "define-fun")) eqn:Ed; [|exact Logic.I].
    exfalso. cbn [TermIOPanic.safe safe_tok] in H2. assert (s0 = chars "define-fun") as -> by (apply text_eqb_eq; exact Ed). vm_compute in H2. discriminate H2.
  Qed.
  Lemma cmds_nice : forall n first extra s ts, List.length ts < n -> long ts -> safe ts = true -> okst s ->
    match read_cmds cf holes sdecl F n first extra s ts with RPanic => False | RErr => True | ROk s' => okst s' end.
  Proof.
    induction n as [|n IH]; intros first extra s ts Hn H1 H2 Hs; [lia|]. destruct ts as [|k r]; [cbn; destruct extra; auto|]. pose proof (tl_safe _ _ H2) as Hr. cbn [List.length] in *.
    destruct k; cbn [read_cmds]; auto.
    - destruct (match r with KOpen :: _ => first | KClose :: _ => true | _ => false end); [apply IH; auto; lia|].
      pose proof (cmd_nice s r ltac:(lia) Hr Hs) as Hc. destruct (read_cmd _ _ _ _ _ _) as [[s' r']| |]; cbn [obind fst snd]; auto. destruct Hc as (L & S & O). apply IH; auto; lia.
    - destruct extra; auto. destruct r; auto.
  Qed.
End ProofPanic.
Lemma safe_unsat cf ts : safe cf named no_define ts = true ->
  safe cf named no_define (match ts with KSym w :: r => if text_eqb w (chars "unsat") then r else ts | _ => ts end) = true.
Proof. intros H. destruct ts as [|[] r]; auto. destruct (text_eqb _ _); [eapply safe_tail; eauto|exact H]. Qed.
Theorem read_proof_no_panic cf holes sdecl E D txt : (forall ts, lex_all txt = ROk ts -> safe cf named no_define ts = true) -> lex_all txt <> RPanic -> safe_defs D ->
  read_proof_text cf holes sdecl E D txt <> RPanic.
Proof.
  intros H1 H2 H3. unfold read_proof_text. destruct (lex_all txt) as [ts| |]; cbn [obind]; [|discriminate|congruence].
  pose proof (safe_unsat cf ts (H1 ts eq_refl)) as Hs. set (ts' := match ts with KSym w :: r => _ | _ => _ end) in *. clearbody ts'.
  assert (Ho : okst (mkRS ps0 [E] D)).
  { split; [|split; [exact H3|intros x []]]. split; [reflexivity|]. exists [], (mkFr [] [] 0 "" false). split; reflexivity. }
  pose proof (cmds_nice cf holes sdecl (fuel_for ts') (S (List.length ts')) true false (mkRS ps0 [E] D) ts' ltac:(lia) ltac:(unfold fuel_for; lia) Hs Ho) as H.
  destruct (read_cmds _ _ _ _ _ _ _ _ _) as [s| |]; cbn [obind]; [|discriminate|destruct H]. destruct H as [[_ (fs & f & Hf & _)] _]. rewrite Hf. destruct fs as [|g fs]; [discriminate|]. cbn. destruct (fs ++ [f]); discriminate.
Qed.
