(** Reading the text of a problem does not panic, under explicit conditions on the tokens. *)
From Coq Require Import List Bool NArith ZArith String Arith Lia.
From Verif Require Import Base Term Sem Utils Rules Checker Lexer LexerSound TermIO TermIOPanic Parser ParserSound ProofIO ProofIOPanic ProblemIO Num.
Import ListNotations.
Local Open Scope nat_scope.

(** no function definition if definitions are applied *)
Definition defines (ap : bool) (w : text) : bool := negb ap || no_define w.
Section ProblemPanic.
  Variables (cf : pcfg) (ap : bool).
  Variable F : nat.
  Notation safe := (safe cf any (defines ap)).
  Notation nice := (nice cf any (defines ap)).
  Notation okD := (okD []).
  Notation long ts := (2 * List.length ts + 1 <= F).
  Lemma sp_tl k r : safe (k :: r) = true -> safe r = true.
  Proof. apply safe_tail. Qed.
  Lemma safe_cf s ts : TermIOPanic.safe (cf_of cf s) any (defines ap) ts = safe ts.
  Proof. induction ts as [|k r IH]; [reflexivity|]. cbn [TermIOPanic.safe]. rewrite IH. reflexivity. Qed.
  Lemma p_nice m s E D ts : m <> MApp -> long ts -> safe ts = true -> okD D -> nice okD ts (parse (cf_of cf s) (pb_sorts s) F m E D ts).
  Proof.
    intros Hm H1 H2 H3. pose proof (parse_nice (cf_of cf s) any (defines ap) (pb_sorts s) F [] m E D ts) as H. rewrite safe_cf in H.
    assert (Hn : need m ts <= F) by (destruct m; cbn [need]; solve [lia | congruence]). specialize (H Hn H2 H3). unfold TermIOPanic.nice in *.
    destruct (parse _ _ _ _ _ _ _) as [[[t D1] r]| |]; exact H.
  Qed.
  Lemma make_sort_sort sd x ss t : make_sort sd x ss = ROk t -> exists s, t = TSort s.
  Proof.
    unfold make_sort. intros H.
    repeat match type of H with (if ?b then _ else _) = _ => destruct b end;
      repeat match type of H with
      | match ?l with [] => _ | _ => _ end = _ => destruct l
      | match ?l with Some _ => _ | None => _ end = _ => destruct l
      | (let (_, _) := ?l in _) = _ => destruct l
      | (if ?b then _ else _) = _ => destruct b
      end; first [discriminate H|injection H as <-; eauto].
  Qed.
  Lemma sort_sort c sd n E D ts t D1 r : parse c sd n MSort E D ts = ROk (t, D1, r) -> exists s, t = TSort s.
  Proof.
    destruct n as [|n]; [discriminate|]. cbn [parse]. unfold sort_body, ret. intros H.
    assert (HA : forall r0, (do x <- expect_symbol r0 ; do y <- seq1 (parse c sd n MSort E) n D (snd x) ; let '(l, D1, r1) := y in do ss <- unsorts l ; do t <- make_sort sd (fst x) ss ; ROk (t, D1, r1)) = ROk (t, D1, r) ->
      exists s, t = TSort s).
    { clear H. intros r0 H. destruct (expect_symbol r0) as [x| |]; cbn [obind] in H; try discriminate. destruct (seq1 _ _ _ _) as [[[l D2] r1]| |]; cbn [obind] in H; try discriminate.
      destruct (unsorts l); cbn [obind] in H; try discriminate. destruct (make_sort _ _ _) eqn:Em; cbn [obind] in H; try discriminate. injection H as <- _ _. eapply make_sort_sort; eauto. }
    destruct ts as [|k r0]; [discriminate|]. destruct k; try discriminate.
    - destruct r0 as [|k r0]; [eapply HA; exact H|]. destruct k; try (eapply HA; exact H). clear HA.
      destruct (text_eqb _ _); [|discriminate]. destruct (expect_symbol r0) as [x| |]; cbn [obind] in H; try discriminate. destruct (seq1 _ _ _ _) as [[[l D2] r1]| |]; cbn [obind] in H; try discriminate.
      destruct (String.eqb _ _); [|discriminate]. destruct l as [|a [|]]; try discriminate. destruct (as_integer a) as [z|]; [|discriminate]. destruct (to_usize z); cbn [obind] in H; try discriminate. injection H as <- _ _. eauto.
    - destruct (make_sort _ _ _) eqn:Em; cbn [obind] in H; try discriminate. injection H as <- _ _. eapply make_sort_sort; eauto.
  Qed.
  Lemma psort_nice s D ts : long ts -> safe ts = true -> okD D -> nice okD ts (pb_sort cf F s D ts).
  Proof.
    intros H1 H2 H3. unfold pb_sort. pose proof (p_nice MSort s (pb_vars s) D ts ltac:(discriminate) H1 H2 H3) as H.
    destruct (parse _ _ _ _ _ _ _) as [[[t D1] r]| |] eqn:E; cbn [obind]; auto. destruct (sort_sort _ _ _ _ _ _ _ _ _ E) as [so ->]. exact H.
  Qed.
  Lemma body_nice s params so D ts : long ts -> safe ts = true -> okD D -> nice okD ts (read_body cf F s params so D ts).
  Proof.
    intros H1 H2 H3. unfold read_body, term_of_sort. apply (bind_nice _ _ _ okD); [apply p_nice; auto; discriminate|]. intros t D1 r _ L S HD.
    unfold rassert. destruct (sort_eqb _ _); cbn; auto.
  Qed.
  Lemma psvar_nice s E ND ts : long ts -> safe ts = true -> okD (snd ND) ->
    nice (fun p : venv * defs => okD (snd p)) ts (TermIO.sorted_var (fun _ => parse (cf_of cf s) (pb_sorts s) F MSort E) ND ts).
  Proof.
    destruct ND as [N D]. intros H1 H2 H3. unfold sorted_var. apply expect_nice; [auto|]. intros r0 L0 S0.
    apply (nice_mono _ _ _ _ r0); [lia|]. apply symbol_nice; [auto|]. intros x r L S.
    apply (nice_mono _ _ _ _ r); [lia|]. cbn [fst snd] in *. apply (bind_nice _ _ _ okD); [apply p_nice; auto; [discriminate|lia]|].
    intros t D2 r2 _ L2 S2 HD2. apply (nice_mono _ _ _ _ r2); [lia|]. apply expect_nice; [auto|]. intros r3 L3 S3. destruct t; cbn; auto.
  Qed.
  Lemma dec_nice s D ts : long ts -> safe ts = true -> okD D -> nice okD ts (read_dec cf F s D ts).
  Proof.
    intros H1 H2 H3. unfold read_dec. apply symbol_nice; [auto|]. intros x r0 L0 S0. cbn [fst snd]. apply (nice_mono _ _ _ _ r0); [lia|]. apply expect_nice; [auto|]. intros r1 L1 S1.
    apply (nice_mono _ _ _ _ r1); [lia|]. apply (bind_nice _ _ _ (fun p : venv * defs => okD (snd p))).
    - apply seq_nice; auto; [lia|]. intros s' ts' Hl Hs' Ho'. apply psvar_nice; auto. lia.
    - intros params ND r2 _ L2 S2 O2. apply (nice_mono _ _ _ _ r2); [lia|]. apply (bind_nice _ _ _ okD); [apply psort_nice; auto; lia|]. intros so D1 r3 _ L3 S3 O3. cbn. auto.
  Qed.
  Definition okp (s : pbstate) : Prop := okD (pb_defs s).
  Definition finp (ts : list token) (o : outcome (pbstate * list token)) : Prop :=
    match o with RPanic => False | RErr => True | ROk (s, r) => List.length r < List.length ts /\ safe r = true /\ okp s end.
  Lemma finp_mono ts ts' o : List.length ts <= List.length ts' -> finp ts o -> finp ts' o.
  Proof. destruct o as [[s r]| |]; cbn; auto. intros H [H1 H2]. split; [lia|exact H2]. Qed.
  Lemma bind_finp {A S} (okS : S -> Prop) ts (o : outcome (A * S * list token)) f : nice okS ts o ->
    (forall a s r, o = ROk (a, s, r) -> List.length r < List.length ts -> safe r = true -> okS s -> finp ts (f (a, s, r))) -> finp ts (do x <- o ; f x).
  Proof. destruct o as [[[a s] r]| |]; cbn [obind TermIOPanic.nice]; [|intros _ _; exact Logic.I|intros []]. intros (H1 & H2 & H3) H. apply (H a s r); auto. Qed.
  Lemma expect_finp t ts f : safe ts = true -> (forall r, List.length r < List.length ts -> safe r = true -> finp ts (f r)) -> finp ts (do r <- expect t ts ; f r).
  Proof.
    intros Hs H. unfold expect. destruct ts as [|k r]; cbn [obind]; [exact Logic.I|]. destruct (t k); cbn [obind]; [|exact Logic.I]. apply H; [cbn; lia|eapply sp_tl; eauto].
  Qed.
  Lemma symbol_finp ts f : safe ts = true -> (forall x r, List.length r < List.length ts -> safe r = true -> finp ts (f (x, r))) -> finp ts (do r <- expect_symbol ts ; f r).
  Proof. intros Hs H. unfold expect_symbol. destruct ts as [|k r]; [exact Logic.I|]. destruct k; try exact Logic.I. cbn [obind]. apply H; [cbn; lia|eapply sp_tl; eauto]. Qed.
  Lemma declare_fun_fin s ts : long ts -> safe ts = true -> okp s -> finp ts (read_declare_fun cf F s ts).
  Proof.
    intros H1 H2 H3. unfold read_declare_fun. apply symbol_finp; [auto|]. intros x r0 L0 S0. cbn [fst snd]. apply (finp_mono r0); [lia|]. apply expect_finp; [auto|]. intros r1 L1 S1.
    apply (finp_mono r1); [lia|]. apply (bind_finp okD).
    - apply seq_nice; auto; [lia|]. intros s' ts' Hl Hs' Ho'. apply psort_nice; auto. lia.
    - intros ss D1 r2 _ L2 S2 O2. apply (finp_mono r2); [lia|]. apply (bind_finp okD); [apply psort_nice; auto; lia|]. intros so D2 r3 _ L3 S3 O3. apply (finp_mono r3); [lia|].
      apply expect_finp; [auto|]. intros r4 L4 S4. split; [lia|]. split; [exact S4|exact O3].
  Qed.
  Lemma declare_const_fin s ts : long ts -> safe ts = true -> okp s -> finp ts (read_declare_const cf F s ts).
  Proof.
    intros H1 H2 H3. unfold read_declare_const. apply symbol_finp; [auto|]. intros x r0 L0 S0. cbn [fst snd]. apply (finp_mono r0); [lia|].
    apply (bind_finp okD); [apply psort_nice; auto; lia|]. intros so D2 r3 _ L3 S3 O3. apply (finp_mono r3); [lia|]. apply expect_finp; [auto|]. intros r4 L4 S4. split; [lia|]. split; [exact S4|exact O3].
  Qed.
  Lemma declare_sort_fin s ts : safe ts = true -> okp s -> finp ts (read_declare_sort s ts).
  Proof.
    intros H2 H3. unfold read_declare_sort. apply symbol_finp; [auto|]. intros x r0 L0 S0. cbn [fst snd]. destruct r0 as [|k r0]; [exact Logic.I|]. destruct k; try exact Logic.I.
    destruct r0 as [|k r0]; [exact Logic.I|]. destruct k; try exact Logic.I. destruct (_ && _)%bool; [|exact Logic.I]. split; [cbn in L0; lia|]. split; [do 2 eapply sp_tl; eauto|exact H3].
  Qed.
  Lemma define_fun_fin s ts : ap = false -> long ts -> safe ts = true -> okp s -> finp ts (read_define_fun cf ap F s ts).
  Proof.
    intros Ha H1 H2 H3. unfold read_define_fun. apply (bind_finp okD); [apply dec_nice; auto|]. intros [[f params] so] D1 r1 _ L1 S1 O1. apply (finp_mono r1); [lia|].
    apply (bind_finp okD); [apply body_nice; auto; lia|]. intros body D2 r2 _ L2 S2 O2. apply (finp_mono r2); [lia|]. apply expect_finp; [auto|]. intros r3 L3 S3.
    rewrite Ha. split; [lia|]. split; [exact S3|exact O2].
  Qed.
  Lemma bodies_fin : forall decs s ts, long ts -> safe ts = true -> okp s -> (forall d, In d decs -> assoc (fst (fst d)) (pb_vars s) <> None) ->
    match read_bodies cf F s decs ts with RPanic => False | RErr => True | ROk (s', r) => List.length r <= List.length ts /\ safe r = true /\ okp s' end.
  Proof.
    induction decs as [|[[f params] so] decs IH]; intros s ts H1 H2 H3 Hd; cbn [read_bodies]; [split; [lia|auto]|].
    pose proof (body_nice s params so (pb_defs s) ts H1 H2 H3) as Hb. destruct (read_body _ _ _ _ _ _ _) as [[[body D1] r1]| |]; cbn [obind]; [|exact Logic.I|exact Hb].
    destruct Hb as (L & S & O). pose proof (Hd _ (or_introl eq_refl)) as Hf. cbn [fst] in Hf. unfold rec_prem. destruct (assoc f (pb_vars s)) as [so'|]; [|congruence]. cbn [obind].
    match goal with |- context [read_bodies cf F ?s1 decs r1] => specialize (IH s1 r1 ltac:(lia) S O (fun d H => Hd d (or_intror H))); destruct (read_bodies cf F s1 decs r1) as [[s' r]| |]; auto end.
    destruct IH as (L' & S' & O'). split; [lia|auto].
  Qed.
  Lemma declared decs : forall E d, In d decs -> assoc (fst (fst d)) (fold_left (fun E d => let '(f, params, so) := d in (f, rec_sort params so) :: E) decs E) <> None.
  Proof.
    assert (Hk : forall decs E x, assoc x E <> None -> assoc x (fold_left (fun E (d : string * list (string * sort) * sort) => let '(f, params, so) := d in (f, rec_sort params so) :: E) decs E) <> None).
    { clear decs. induction decs as [|[[f params] so] decs IH]; intros E x H; cbn [fold_left]; auto. apply IH. cbn. destruct (String.eqb x f); [discriminate|exact H]. }
    induction decs as [|[[f params] so] decs IH]; intros E d Hd; [destruct Hd|]. cbn [fold_left]. destruct Hd as [<-|Hd]; [|auto]. apply Hk. cbn [fst assoc]. rewrite String.eqb_refl. discriminate.
  Qed.
  Lemma define_rec_fin s ts : long ts -> safe ts = true -> okp s -> finp ts (read_define_rec cf F s ts).
  Proof.
    intros H1 H2 H3. unfold read_define_rec. apply (bind_finp okD); [apply dec_nice; auto|]. intros d D1 r1 _ L1 S1 O1.
    pose proof (bodies_fin [d] (declare_recs (set_defs s D1) [d]) r1 ltac:(lia) S1 O1 (declared [d] (pb_vars s))) as Hb.
    destruct (read_bodies _ _ _ _ _) as [[s' r]| |]; cbn [obind fst snd]; [|exact Logic.I|exact Hb]. destruct Hb as (L & S & O). unfold expect. destruct r as [|k r]; [exact Logic.I|].
    destruct (is_close k); [|exact Logic.I]. cbn [obind]. split; [cbn in L; lia|]. split; [eapply sp_tl; eauto|exact O].
  Qed.
  Lemma define_recs_fin s ts : long ts -> safe ts = true -> okp s -> finp ts (read_define_recs cf F s ts).
  Proof.
    intros H1 H2 H3. unfold read_define_recs. apply expect_finp; [auto|]. intros r0 L0 S0. apply (finp_mono r0); [lia|]. apply (bind_finp okD).
    - apply seq1_nice; auto; [lia|]. intros D ts' Hl Hs' Ho'. apply expect_nice; [auto|]. intros r L S. apply (nice_mono _ _ _ _ r); [lia|].
      apply (bind_nice _ _ _ okD); [apply dec_nice; auto; lia|]. intros d D1 r1 _ L1 S1 O1. apply (nice_mono _ _ _ _ r1); [lia|]. apply expect_nice; [auto|]. intros r2 L2 S2. cbn. auto.
    - intros ds D1 r1 _ L1 S1 O1. apply (finp_mono r1); [lia|]. apply expect_finp; [auto|]. intros r2 L2 S2.
      pose proof (bodies_fin ds (declare_recs (set_defs s D1) ds) r2 ltac:(lia) S2 O1 (declared ds (pb_vars s))) as Hb.
      destruct (read_bodies _ _ _ _ _) as [[s' r]| |]; cbn [obind fst snd]; [|exact Logic.I|exact Hb]. destruct Hb as (L & S & O). unfold expect. destruct r as [|k r]; [exact Logic.I|].
      destruct (is_close k); [|exact Logic.I]. cbn [obind]. destruct r as [|k' r]; [exact Logic.I|]. destruct (is_close k'); [|exact Logic.I]. cbn [obind]. split; [cbn in L; lia|]. split; [do 2 eapply sp_tl; eauto|exact O].
  Qed.
  Lemma define_sort_fin s ts : long ts -> safe ts = true -> okp s -> finp ts (read_define_sort cf F s ts).
  Proof.
    intros H1 H2 H3. unfold read_define_sort. apply symbol_finp; [auto|]. intros x r0 L0 S0. cbn [fst snd]. apply (finp_mono r0); [lia|]. apply expect_finp; [auto|]. intros r1 L1 S1.
    apply (finp_mono r1); [lia|]. apply (bind_finp (fun _ : unit => True)).
    - apply seq_nice; auto; [lia|]. intros u ts' Hl Hs' _. apply symbol_nice; [auto|]. intros y r L S. cbn. auto.
    - intros ps u r2 _ L2 S2 _. apply (finp_mono r2); [lia|]. apply (bind_finp okD); [apply psort_nice; auto; lia|]. intros so D1 r3 _ L3 S3 O3. apply (finp_mono r3); [lia|].
      apply expect_finp; [auto|]. intros r4 L4 S4. split; [lia|]. split; [exact S4|exact O3].
  Qed.
  Lemma assert_fin s ts : long ts -> safe ts = true -> okp s -> finp ts (read_assert cf F s ts).
  Proof.
    intros H1 H2 H3. unfold read_assert, pb_term. apply (bind_finp okD); [apply p_nice; auto; discriminate|]. intros t D1 r1 _ L1 S1 O1. apply (finp_mono r1); [lia|].
    apply expect_finp; [auto|]. intros r2 L2 S2. split; [lia|]. split; [exact S2|exact O1].
  Qed.
  Lemma assuming_fin s ts : long ts -> safe ts = true -> okp s -> finp ts (read_assuming cf F s ts).
  Proof.
    intros H1 H2 H3. unfold read_assuming, pb_term. apply expect_finp; [auto|]. intros r0 L0 S0. apply (finp_mono r0); [lia|]. apply (bind_finp okD).
    - apply seq1_nice; auto; [lia|]. intros D ts' Hl Hs' Ho'. apply p_nice; auto; [discriminate|lia].
    - intros l D1 r1 _ L1 S1 O1. apply (finp_mono r1); [lia|]. apply expect_finp; [auto|]. intros r2 L2 S2. split; [lia|]. split; [exact S2|exact O1].
  Qed.
  Lemma set_logic_fin s ts : safe ts = true -> okp s -> finp ts (read_set_logic s ts).
  Proof.
    intros H2 H3. unfold read_set_logic. apply symbol_finp; [auto|]. intros x r0 L0 S0. cbn [fst snd]. apply (finp_mono r0); [lia|]. apply expect_finp; [auto|]. intros r1 L1 S1.
    split; [lia|]. split; [exact S1|exact H3].
  Qed.
  Lemma skip_fin s k ts : safe ts = true -> okp s -> finp (k :: ts) (do r1 <- skip_parens 1 ts ; ROk (s, r1)).
  Proof.
    intros H2 H3. pose proof (skip_nice cf any (defines ap) ts 1 H2) as H. destruct (skip_parens 1 ts) as [r| |]; cbn [obind]; auto. destruct H as [L S]. split; [cbn; lia|auto].
  Qed.
  Lemma pcmd_fin s ts : long ts -> safe ts = true -> okp s -> finp ts (read_pcmd cf ap F s ts).
  Proof.
    intros H1 H2 H3. unfold read_pcmd. destruct ts as [|k r]; [exact Logic.I|]. pose proof (sp_tl _ _ H2) as Hr. cbn [List.length] in H1.
    destruct k; try (apply skip_fin; assumption).
    assert (Hl : List.length r <= List.length (KRes s0 :: r)) by (cbn; lia). assert (HF : long r) by lia.
    destruct (text_eqb s0 (chars "declare-fun")); [apply (finp_mono r _ _ Hl); exact (declare_fun_fin s r HF Hr H3)|].
    destruct (text_eqb s0 (chars "declare-const")); [apply (finp_mono r _ _ Hl); exact (declare_const_fin s r HF Hr H3)|].
    destruct (text_eqb s0 (chars "declare-sort")); [apply (finp_mono r _ _ Hl); exact (declare_sort_fin s r Hr H3)|].
    destruct (text_eqb s0 (chars "define-fun")) eqn:Ed.
    { apply (finp_mono r _ _ Hl). apply define_fun_fin; [|exact HF|exact Hr|exact H3]. cbn [TermIOPanic.safe safe_tok] in H2. apply text_eqb_eq in Ed. subst s0.
      clear - H2. destruct ap; [|reflexivity]. vm_compute in H2. discriminate H2. }
    destruct (text_eqb s0 (chars "define-fun-rec")); [apply (finp_mono r _ _ Hl); exact (define_rec_fin s r HF Hr H3)|].
    destruct (text_eqb s0 (chars "define-funs-rec")); [apply (finp_mono r _ _ Hl); exact (define_recs_fin s r HF Hr H3)|].
    destruct (text_eqb s0 (chars "define-sort")); [apply (finp_mono r _ _ Hl); exact (define_sort_fin s r HF Hr H3)|].
    destruct (text_eqb s0 (chars "assert")); [apply (finp_mono r _ _ Hl); exact (assert_fin s r HF Hr H3)|].
    destruct (text_eqb s0 (chars "check-sat-assuming")); [apply (finp_mono r _ _ Hl); exact (assuming_fin s r HF Hr H3)|].
    destruct (text_eqb s0 (chars "set-logic")); [apply (finp_mono r _ _ Hl); exact (set_logic_fin s r Hr H3)|].
    apply skip_fin; assumption.
  Qed.
  Lemma pcmds_fin : forall n s ts, List.length ts < n -> long ts -> safe ts = true -> okp s ->
    match read_pcmds cf ap F n s ts with RPanic => False | RErr => True | ROk s' => okp s' end.
  Proof.
    induction n as [|n IH]; intros s ts Hn H1 H2 Hs; [lia|]. destruct ts as [|k r]; [exact Hs|]. pose proof (sp_tl _ _ H2) as Hr. cbn [List.length] in *.
    destruct k; cbn [read_pcmds]; auto. pose proof (pcmd_fin s r ltac:(lia) Hr Hs) as Hc. destruct (read_pcmd _ _ _ _ _) as [[s' r']| |]; cbn [obind fst snd]; auto.
    destruct Hc as (L & S & O). apply IH; auto; lia.
  Qed.
End ProblemPanic.
Theorem read_problem_no_panic cf ap txt : (forall ts, lex_all txt = ROk ts -> safe cf any (defines ap) ts = true) -> lex_all txt <> RPanic ->
  read_problem_text cf ap txt <> RPanic /\ forall s, read_problem_text cf ap txt = ROk s -> safe_defs (pb_defs s).
Proof.
  intros H1 H2. unfold read_problem_text. destruct (lex_all txt) as [ts| |]; cbn [obind]; [|split; [discriminate|intros s H; discriminate H]|congruence].
  assert (Ho : okp pb0) by (split; [intros x d H; discriminate H|intros x []]).
  pose proof (pcmds_fin cf ap (fuel_for ts) (S (List.length ts)) pb0 ts ltac:(lia) ltac:(unfold fuel_for; lia) (H1 ts eq_refl) Ho) as H.
  destruct (read_pcmds _ _ _ _ _ _) as [s| |]; [|split; [discriminate|intros s E; discriminate E]|destruct H]. split; [discriminate|]. intros s' E. injection E as <-. apply H.
Qed.
Theorem read_instance_no_panic cf ap holes problem proof :
  (forall ts, lex_all problem = ROk ts -> safe cf any (defines ap) ts = true) -> lex_all problem <> RPanic ->
  (forall ts, lex_all proof = ROk ts -> safe cf named no_define ts = true) -> lex_all proof <> RPanic ->
  read_instance cf ap holes problem proof <> RPanic.
Proof.
  intros H1 H2 H3 H4. destruct (read_problem_no_panic cf ap problem H1 H2) as [Hp Hd]. unfold read_instance. destruct (read_problem_text cf ap problem) as [s| |]; cbn [obind]; [|discriminate|congruence].
  assert (Hq : read_proof_text (mkP (strict cf) (subtyping cf) (expand_lets cf) false) holes (pb_sorts s) (pb_vars s) (pb_defs s) proof <> RPanic).
  { apply read_proof_no_panic; auto. }
  destruct (read_proof_text _ _ _ _ _ _); cbn [obind]; [discriminate|discriminate|congruence].
Qed.
