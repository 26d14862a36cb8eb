(** Definitions whose names do not occur in a text do not matter for reading it (for TermIO.v and RareIO.v). *)
From Coq Require Import List Bool NArith ZArith Arith String Ascii Lia.
From Verif Require Import Base Term Sem Sorting Utils Checker Lexer TermIO Parser ProofIO ProblemIO R_Rare WellSorted ProblemWt RareIO.
Import ListNotations.
Local Open Scope string_scope.
Local Open Scope list_scope.

Lemma assoc_app {A} x (a b : list (string * A)) : assoc x (a ++ b) = match assoc x a with Some d => Some d | None => assoc x b end.
Proof. induction a as [|[y v] a IH]; cbn; [reflexivity|]. destruct (String.eqb _ _); auto. Qed.

Section Apart.
  Variable D : defs.
  (** no symbol of the tokens has a definition in [D] *)
  Definition clear_of (ts : list token) : Prop := forall w, In (KSym w) ts -> assoc (string_of w) D = None.
  (** the two readers do the same, one of them has the definitions [D] in addition *)
  Definition sim {A S : Type} (add : S -> S) (o o' : outcome (A * S * list token)) : Prop :=
    match o' with ROk (a, s, r) => o = ROk (a, add s, r) /\ clear_of r | RErr => o = RErr | RPanic => o = RPanic end.
  Lemma clear_tl k r : clear_of (k :: r) -> clear_of r.
  Proof. intros H w Hi. apply H. right. exact Hi. Qed.
  Lemma bind_sim {A S B T} (add : S -> S) (add' : T -> T) (o o' : outcome (A * S * list token)) (f f' : A * S * list token -> outcome (B * T * list token)) :
    sim add o o' -> (forall a s r, clear_of r -> sim add' (f (a, add s, r)) (f' (a, s, r))) -> sim add' (do x <- o ; f x) (do x <- o' ; f' x).
  Proof. unfold sim at 1. destruct o' as [[[a s] r]| |]; [intros [-> H1] H; cbn [obind]; apply H; auto|intros -> _; reflexivity|intros -> _; reflexivity]. Qed.
  Lemma any_sim {A B T} (add' : T -> T) (o : outcome A) (f f' : A -> outcome (B * T * list token)) :
    (forall a, o = ROk a -> sim add' (f a) (f' a)) -> sim add' (do x <- o ; f x) (do x <- o ; f' x).
  Proof. destruct o; cbn [obind]; intros H; [apply H; reflexivity|reflexivity|reflexivity]. Qed.
  Lemma ok_sim {A S} (add : S -> S) (a : A) s r : clear_of r -> sim add (ROk (a, add s, r)) (ROk (a, s, r)).
  Proof. intros H. split; [reflexivity|exact H]. Qed.
  Lemma expect_clear f ts r : expect f ts = ROk r -> clear_of ts -> clear_of r.
  Proof. destruct ts as [|k l]; cbn; [discriminate|]. destruct (f k); [|discriminate]. intros H. injection H as <-. apply clear_tl. Qed.
  Lemma symbol_clear ts x : expect_symbol ts = ROk x -> clear_of ts -> clear_of (snd x) /\ assoc (fst x) D = None.
  Proof. destruct ts as [|[] l]; cbn; try discriminate. intros H Hc. injection H as <-. split; [eapply clear_tl; eauto|]. apply Hc. left. reflexivity. Qed.
  Lemma skip_clear ts : forall d r, skip_parens d ts = ROk r -> clear_of ts -> clear_of r.
  Proof.
    induction ts as [|k l IH]; intros d r H Hc; destruct d; cbn in H; try discriminate; try (injection H as <-; exact Hc).
    pose proof (clear_tl _ _ Hc) as Hl. destruct k; try discriminate; eapply IH; eauto.
  Qed.
  Lemma seq_sim {A S} (add : S -> S) (p p' : S -> list token -> outcome (A * S * list token)) : (forall s ts, clear_of ts -> sim add (p (add s) ts) (p' s ts)) ->
    forall n s ts, clear_of ts -> sim add (seq p n (add s) ts) (seq p' n s ts).
  Proof.
    intros Hp. induction n as [|n IH]; intros s ts Hs.
    - destruct ts as [|k r]; [reflexivity|]. destruct k; try reflexivity. apply ok_sim. eapply clear_tl; eauto.
    - assert (H : sim add (do x <- p (add s) ts ; let '(a, s1, r1) := x in do y <- seq p n s1 r1 ; let '(l, s2, r2) := y in ROk (a :: l, s2, r2))
                          (do x <- p' s ts ; let '(a, s1, r1) := x in do y <- seq p' n s1 r1 ; let '(l, s2, r2) := y in ROk (a :: l, s2, r2))).
      { apply (bind_sim add add); [auto|]. intros a s1 r1 H1. apply (bind_sim add add); [auto|]. intros l s2 r2 H2. apply ok_sim. exact H2. }
      destruct ts as [|k r]; [exact H|]. destruct k; try exact H. apply ok_sim. eapply clear_tl; eauto.
  Qed.
  Lemma seq1_sim {A S} (add : S -> S) (p p' : S -> list token -> outcome (A * S * list token)) n s ts : (forall s ts, clear_of ts -> sim add (p (add s) ts) (p' s ts)) ->
    clear_of ts -> sim add (seq1 p n (add s) ts) (seq1 p' n s ts).
  Proof.
    intros Hp Hs. unfold seq1. apply (bind_sim add add); [apply seq_sim; auto|]. intros l s1 r1 H1. cbn [fst]. destruct l; [reflexivity|]. apply ok_sim. exact H1.
  Qed.
  Definition plus (D0 : defs) : defs := D0 ++ D.
  Definition plus2 (p : venv * defs) : venv * defs := (fst p, plus (snd p)).
  Lemma assoc_plus x D0 : assoc x D = None -> assoc x (plus D0) = assoc x D0.
  Proof. intros H. unfold plus. rewrite assoc_app, H. destruct (assoc x D0); reflexivity. Qed.
  Variables (cf : pcfg) (sdecl : sdecls).
  Lemma ret_sim D0 r o : clear_of r -> sim plus (ret (plus D0) r o) (ret D0 r o).
  Proof. intros H. unfold ret. apply any_sim. intros t _. apply ok_sim. exact H. Qed.
  Notation ps p := (forall E D0 ts, clear_of ts -> sim plus (p E (plus D0) ts) (p E D0 ts)).
  Section Step.
    Variables pT pA pS : venv -> defs -> list token -> outcome (term * defs * list token).
    Variable n : nat.
    Hypothesis HT : ps pT.
    Hypothesis HA : ps pA.
    Hypothesis HS : ps pS.
    Lemma terms_sim E D0 ts : clear_of ts -> sim plus (seq1 (pT E) n (plus D0) ts) (seq1 (pT E) n D0 ts).
    Proof. intros H. apply seq1_sim; auto. Qed.
    Lemma ints_sim : ps (ints pT n).
    Proof. intros E D0 r H. unfold ints. apply (bind_sim plus plus); [apply terms_sim; auto|]. intros l D1 r1 H1. apply any_sim. intros zs _. apply ok_sim. exact H1. Qed.
    Lemma indexed_sim : ps (indexed pT n).
    Proof.
      intros E D0 ts H. unfold indexed. apply any_sim. intros [s r] Hx. destruct (symbol_clear _ _ Hx H) as [Hr _]. cbn [snd] in Hr. destruct (prefix "bv" s).
      - destruct (parse_int _); [|reflexivity]. apply (bind_sim plus plus); [apply ints_sim; auto|]. intros zs D1 r1 H1. apply (ok_sim plus (PBvConst, _)). exact H1.
      - destruct (pop_of s); [|reflexivity]. apply (bind_sim plus plus); [apply ints_sim; auto|]. intros zs D1 r1 H1. apply (ok_sim plus (p, zs)). exact H1.
    Qed.
    Lemma qualified_sim : ps (qualified pS).
    Proof.
      intros E D0 ts H. unfold qualified. apply any_sim. intros x Hx. destruct (symbol_clear _ _ Hx H) as [Hr _]. destruct (pop_of (fst x)); [|reflexivity]. apply (bind_sim plus plus); [apply HS; auto|].
      intros s D1 r1 H1. apply any_sim. intros r2 H2. apply (ok_sim plus (p, s)). eapply expect_clear; eauto.
    Qed.
    Lemma sorted_var_sim ED ts : clear_of ts -> sim plus2 (sorted_var pS (plus2 ED) ts) (sorted_var pS ED ts).
    Proof.
      destruct ED as [E D0]. intros H. unfold sorted_var, plus2 at 2. cbn [fst snd]. apply any_sim. intros r0 H0. apply any_sim. intros x Hx. destruct (symbol_clear _ _ Hx (expect_clear _ _ _ H0 H)) as [Hr _].
      apply (bind_sim plus plus2); [apply HS; auto|]. intros s D2 r2 H2. apply any_sim. intros r3 H3. destruct s; try reflexivity. apply (ok_sim plus2 _ (_, D2)). eapply expect_clear; eauto.
    Qed.
    Lemma binding_sim : ps (binding pT).
    Proof.
      intros E D0 ts H. unfold binding. apply any_sim. intros r0 H0. apply any_sim. intros x Hx. destruct (symbol_clear _ _ Hx (expect_clear _ _ _ H0 H)) as [Hr _].
      apply (bind_sim plus plus); [apply HT; auto|]. intros v D1 r1 H1. apply any_sim. intros r2 H2. apply (ok_sim plus (fst x, v)). eapply expect_clear; eauto.
    Qed.
    Lemma bound_vars_sim b E D0 r0 : clear_of r0 -> sim plus2 (bound_vars pS n b E (plus D0) r0) (bound_vars pS n b E D0 r0).
    Proof.
      intros H. unfold bound_vars. assert (Hs : sim plus2 (seq1 (sorted_var pS) n (E, plus D0) r0) (seq1 (sorted_var pS) n (E, D0) r0)).
      { apply (seq1_sim plus2 _ _ n (E, D0)); [intros; apply sorted_var_sim; auto|auto]. }
      destruct b; try exact Hs. apply (bind_sim plus2 plus2); [apply (sorted_var_sim (E, D0)); auto|]. intros v ED r1 H1. apply any_sim. intros r2 H2. apply ok_sim. eapply expect_clear; eauto.
    Qed.
    Lemma binder_sim b : ps (binder_term pT pS n b).
    Proof.
      intros E D0 ts H. unfold binder_term. apply any_sim. intros r0 H0. apply (bind_sim plus2 plus); [apply bound_vars_sim; eapply expect_clear; eauto|]. intros vs ED r1 H1. cbn [plus2 fst snd].
      apply (bind_sim plus plus); [apply HT; auto|]. intros t D2 r2 H2. apply any_sim. intros u _. apply any_sim. intros r3 H3. apply ok_sim. eapply expect_clear; eauto.
    Qed.
    Lemma bindings_sim E D0 ts : clear_of ts -> sim plus (seq1 (binding pT E) n (plus D0) ts) (seq1 (binding pT E) n D0 ts).
    Proof. intros H. apply seq1_sim; auto. intros; apply binding_sim; auto. Qed.
    Lemma let_sim : ps (let_term cf pT n).
    Proof.
      intros E D0 r H. unfold let_term. apply any_sim. intros r0 H0. apply (bind_sim plus plus); [apply bindings_sim; eapply expect_clear; eauto|]. intros bs D1 r1 H1.
      apply (bind_sim plus plus); [apply HT; auto|]. intros t D2 r2 H2. apply any_sim. intros r3 H3. pose proof (expect_clear _ _ _ H3 H2) as Hc. destruct (expand_lets cf); [apply ret_sim; auto|apply ok_sim; auto].
    Qed.
    Lemma eo_sim : ps (eo_define pT n).
    Proof.
      intros E D0 r H. unfold eo_define. apply any_sim. intros r0 H0. assert (Hc0 : clear_of r0).
      { destruct r as [|[] r]; try discriminate. destruct r as [|[] r]; try discriminate. destruct (text_eqb _ _); [|discriminate]. injection H0 as <-. eapply clear_tl, clear_tl; eauto. }
      apply any_sim. intros r1 H1. apply (bind_sim plus plus); [apply bindings_sim; eapply expect_clear; eauto|]. intros bs D1 r2 H2.
      apply (bind_sim plus plus); [apply HT; auto|]. intros t D2 r3 H3. apply any_sim. intros r4 H4. apply ret_sim. eapply expect_clear; eauto.
    Qed.
    Lemma attribute_sim t D0 ts : clear_of ts -> sim plus (attribute t (plus D0) ts) (attribute t D0 ts).
    Proof.
      intros H. unfold attribute. destruct ts as [|k r]; [reflexivity|]. pose proof (clear_tl _ _ H) as Hr. destruct k; try reflexivity. destruct (text_eqb s (chars "named")).
      - apply any_sim. intros x Hx. apply (ok_sim plus tt ((fst x, ([], t)) :: D0)). apply (symbol_clear _ _ Hx Hr).
      - destruct r as [|k r]; [apply ok_sim; auto|]. pose proof (clear_tl _ _ Hr) as Hr'. destruct k; try (apply ok_sim; auto; fail). apply any_sim. intros r2 H2. apply ok_sim. eapply skip_clear; eauto.
    Qed.
    Lemma annotated_sim : ps (annotated pT n).
    Proof.
      intros E D0 r H. unfold annotated. apply (bind_sim plus plus); [apply HT; auto|]. intros t D1 r1 H1.
      apply (bind_sim plus plus); [apply seq1_sim; auto; intros; apply attribute_sim; auto|]. intros l D2 r2 H2. apply ok_sim. exact H2.
    Qed.
    Lemma app_args_sim E f f' : sim plus f f' -> sim plus (app_args pT n E f) (app_args pT n E f').
    Proof.
      intros Hf. unfold app_args. apply (bind_sim plus plus); [exact Hf|]. intros t D1 r1 H1. apply (bind_sim plus plus); [apply terms_sim; auto|]. intros l D2 r2 H2. apply ret_sim; auto.
    Qed.
    Lemma indexed_args_sim : ps (indexed_args pT n).
    Proof.
      intros E D0 r H. unfold indexed_args. apply (bind_sim plus plus); [apply indexed_sim; auto|]. intros [o zs] D1 r1 H1. apply (bind_sim plus plus); [apply terms_sim; auto|]. intros l D2 r2 H2. apply ret_sim; auto.
    Qed.
    Lemma qualified_args_sim : ps (qualified_args pT pS n).
    Proof.
      intros E D0 r H. unfold qualified_args. apply (bind_sim plus plus); [apply qualified_sim; auto|]. intros [o s] D1 r1 H1. apply (bind_sim plus plus); [apply terms_sim; auto|]. intros l D2 r2 H2. apply ret_sim; auto.
    Qed.
    Lemma reserved_sim w : ps (reserved_app cf pT pS n w).
    Proof.
      intros E D0 r H. unfold reserved_app. destruct (text_eqb w (chars "_")).
      { apply (bind_sim plus plus); [apply indexed_sim; auto|]. intros [o zs] D1 r1 H1. apply ret_sim; auto. }
      destruct (text_eqb w (chars "as")).
      { apply (bind_sim plus plus); [apply qualified_sim; auto|]. intros [o s] D1 r1 H1. apply ret_sim; auto. }
      repeat (match goal with |- sim plus (if ?b then _ else _) _ => destruct b end; [first [apply binder_sim; auto|apply annotated_sim; auto|apply let_sim; auto|idtac]|]); try reflexivity.
      apply (bind_sim plus plus); [apply seq_sim; auto|]. intros l D1 r1 H1. apply ret_sim; auto.
    Qed.
    Lemma symbol_app_sim x E D0 r whole : assoc x D = None -> clear_of r -> clear_of whole -> sim plus (symbol_app cf pT n x E (plus D0) r whole) (symbol_app cf pT n x E D0 r whole).
    Proof.
      intros Hx H Hw. unfold symbol_app. destruct (op_of x).
      - apply (bind_sim plus plus); [apply terms_sim; auto|]. intros l D1 r1 H1. apply ret_sim; auto.
      - destruct (String.eqb x "eo"); [apply eo_sim; auto|]. rewrite assoc_plus by auto. destruct (assoc x D0); [|apply app_args_sim; auto].
        apply (bind_sim plus plus); [apply terms_sim; auto|]. intros l D1 r1 H1. rewrite assoc_plus by auto. destruct (assoc x D1); [|reflexivity]. apply ret_sim; auto.
    Qed.
    Lemma term_body_sim : ps (term_body cf pA).
    Proof.
      intros E D0 ts H. unfold term_body. destruct ts as [|k r]; [reflexivity|]. pose proof (clear_tl _ _ H) as Hr. destruct k; try reflexivity; try (apply ok_sim; exact Hr); auto.
      rewrite assoc_plus by (apply H; left; reflexivity). destruct (assoc (string_of s) D0); [apply ret_sim; auto|]. destruct (op_of _); [apply ret_sim; auto|]. destruct (assoc _ E); [apply ok_sim; exact Hr|reflexivity].
    Qed.
    Lemma app_body_sim : ps (app_body cf pT pA pS n).
    Proof.
      intros E D0 ts H. unfold app_body. destruct ts as [|k r]; [apply app_args_sim; auto|]. pose proof (clear_tl _ _ H) as Hr. destruct k; try (apply app_args_sim; auto; fail).
      - destruct r as [|k r]; [apply app_args_sim; auto|]. destruct k; try (apply app_args_sim; auto; fail). pose proof (clear_tl _ _ Hr) as Hr'.
        destruct (text_eqb s (chars "_")); [apply indexed_args_sim; auto|]. destruct (text_eqb s (chars "as")); [apply qualified_args_sim; auto|]. apply app_args_sim; auto.
      - apply symbol_app_sim; auto. apply H. left. reflexivity.
      - apply reserved_sim; auto.
    Qed.
    Lemma sort_body_sim : ps (sort_body sdecl pT pS n).
    Proof.
      intros E D0 ts H. unfold sort_body.
      assert (Hd : forall r, clear_of r -> sim plus (do x <- expect_symbol r ; do y <- seq1 (pS E) n (plus D0) (snd x) ; let '(l, D1, r1) := y in do ss <- unsorts l ; ret D1 r1 (make_sort sdecl (fst x) ss))
         (do x <- expect_symbol r ; do y <- seq1 (pS E) n D0 (snd x) ; let '(l, D1, r1) := y in do ss <- unsorts l ; ret D1 r1 (make_sort sdecl (fst x) ss))).
      { intros r Hr. apply any_sim. intros x Hx. destruct (symbol_clear _ _ Hx Hr) as [Hr' _]. apply (bind_sim plus plus); [apply seq1_sim; auto|]. intros l D1 r1 H1. apply any_sim. intros ss _. apply ret_sim; auto. }
      destruct ts as [|k r]; [reflexivity|]. pose proof (clear_tl _ _ H) as Hr. destruct k; try reflexivity; [|apply ret_sim; auto]. destruct r as [|k r]; [apply Hd; auto|]. destruct k; try (apply Hd; auto).
      destruct (text_eqb s (chars "_")); [|reflexivity]. apply any_sim. intros x Hx. destruct (symbol_clear _ _ Hx (clear_tl _ _ Hr)) as [Hr' _]. apply (bind_sim plus plus); [apply terms_sim; auto|]. intros l D1 r1 H1.
      destruct (String.eqb _ _); [|reflexivity]. destruct l as [|a [|]]; try reflexivity. destruct (Num.as_integer a); [|reflexivity]. apply any_sim. intros w _. apply ok_sim. exact H1.
    Qed.
  End Step.
  Lemma parse_sim : forall n m, ps (parse cf sdecl n m).
  Proof.
    induction n as [|n IH]; intros m E D0 ts H; [reflexivity|]. cbn [parse]. destruct m.
    - apply term_body_sim; auto.
    - apply app_body_sim; auto.
    - apply sort_body_sim; auto.
  Qed.
End Apart.

Section Rules.
  Variable D : defs.
  Variables (cf : pcfg) (F : nat).
  Definition plus3 (s : rst) : rst := mkRst (r_sorts s) (r_vars s) (plus D (r_defs s)).
  Notation ps p := (forall s ts, clear_of D ts -> sim D plus3 (p (plus3 s) ts) (p s ts)).
  Lemma r_term_sim : ps (r_term cf F).
  Proof.
    intros s ts H. unfold r_term. cbn [plus3 r_sorts r_vars r_defs]. apply (bind_sim D (plus D) plus3); [apply parse_sim; auto|]. intros t D1 r H1. apply (ok_sim D plus3 t (mkRst (r_sorts s) (r_vars s) D1)). exact H1.
  Qed.
  Lemma r_sort_sim s ts : clear_of D ts -> sim D (plus D) (r_sort cf F (plus3 s) ts) (r_sort cf F s ts).
  Proof.
    intros H. pose proof (parse_sim D cf (r_sorts s) F MSort (r_vars s) (r_defs s) ts H) as Hp. unfold r_sort. cbn [plus3 r_sorts r_vars r_defs].
    destruct ts as [|k r]; [reflexivity|]. destruct k; try reflexivity.
    - destruct r as [|[] r]; try reflexivity. exact Hp.
    - destruct (_ && _); [|exact Hp]. apply (ok_sim D (plus D)). eapply clear_tl; eauto.
  Qed.
  Lemma r_param_sim : ps (r_param cf F).
  Proof.
    intros s ts H. unfold r_param. apply any_sim. intros r0 H0. apply any_sim. intros x Hx. destruct (symbol_clear _ _ _ Hx (expect_clear _ _ _ _ H0 H)) as [Hr _].
    apply (bind_sim D (plus D) plus3); [apply r_sort_sim; auto|]. intros t D1 r1 H1. destruct t; try reflexivity. cbv zeta. cbn [plus3 r_sorts r_vars].
    destruct r1 as [|k r2]; [reflexivity|]. pose proof (clear_tl _ _ _ H1) as H2. destruct k; try reflexivity.
    - apply (ok_sim D plus3 _ (mkRst _ _ D1)). exact H2.
    - apply any_sim. intros r3 H3. destruct (text_eqb _ _); [|reflexivity]. apply (ok_sim D plus3 _ (mkRst _ _ D1)). eapply expect_clear; eauto.
  Qed.
  Lemma r_body_sim n : ps (r_body cf F n).
  Proof.
    intros s ts H. unfold r_body. destruct ts as [|k r]; [reflexivity|]. pose proof (clear_tl _ _ _ H) as Hr. destruct k as [| | |w| | | | | |]; try reflexivity. destruct (text_eqb _ _).
    { apply (bind_sim D plus3 plus3); [apply r_term_sim; auto|]. intros t s1 r1 H1. apply ok_sim. exact H1. }
    destruct (text_eqb _ _).
    { apply any_sim. intros r0 H0. apply (bind_sim D (fun u : unit => u) plus3).
      - apply (seq_sim D (fun u : unit => u) r_name r_name); [|eapply expect_clear; eauto]. intros u ts Hts. unfold r_name. apply any_sim. intros x Hx. apply (ok_sim D (fun u : unit => u)). apply (symbol_clear _ _ _ Hx Hts).
      - intros l u r1 H1. apply ok_sim. exact H1. }
    destruct (text_eqb _ _); [|reflexivity]. apply any_sim. intros r0 H0. apply (bind_sim D plus3 plus3); [apply (seq_sim D plus3); [exact r_term_sim|eapply expect_clear; eauto]|].
    intros l s1 r1 H1. apply ok_sim. exact H1.
  Qed.
  Lemma r_rule_sim n : ps (r_rule cf F n).
  Proof.
    intros s ts H. unfold r_rule. apply any_sim. intros r0 H0. pose proof (expect_clear _ _ _ _ H0 H) as Hc. destruct r0 as [|k r0]; [reflexivity|]. pose proof (clear_tl _ _ _ Hc) as Hc1. destruct k; try reflexivity.
    destruct r0 as [|k r1]; [reflexivity|]. pose proof (clear_tl _ _ _ Hc1) as Hc2. destruct k; try reflexivity. destruct (text_eqb _ _); [|reflexivity].
    apply any_sim. intros r2 H2. apply (bind_sim D plus3 plus3); [apply (seq_sim D plus3); [exact r_param_sim|eapply expect_clear; eauto]|]. intros ps st1 r3 H3.
    apply (bind_sim D plus3 plus3); [apply (seq_sim D plus3); [exact (r_body_sim n)|exact H3]|]. intros b st2 r4 H4. destruct (body_concl b); [|reflexivity]. apply ok_sim. exact H4.
  Qed.
  Lemma r_rules_sim : forall n s ts, clear_of D ts -> r_rules cf F n (plus3 s) ts = r_rules cf F n s ts.
  Proof.
    induction n as [|n IH]; intros s ts H; [reflexivity|]. destruct ts as [|k ts]; [reflexivity|]. cbn [r_rules].
    pose proof (r_rule_sim F s (k :: ts) H) as Hs. unfold sim in Hs. destruct (r_rule cf F F s (k :: ts)) as [[[r s1] ts1]| |]; [|rewrite Hs; reflexivity|rewrite Hs; reflexivity].
    destruct Hs as [-> Hc]. cbn [obind]. rewrite IH by exact Hc. reflexivity.
  Qed.
End Rules.
Theorem rules_apart cf s D txt ts : lex_all txt = ROk ts -> (forall w, In (KSym w) ts -> assoc (string_of w) D = None) ->
  read_rules_text cf (mkRst (r_sorts s) (r_vars s) (r_defs s ++ D)) txt = read_rules_text cf s txt.
Proof. intros Hl H. unfold read_rules_text. rewrite Hl. cbn [obind]. change (mkRst (r_sorts s) (r_vars s) (r_defs s ++ D)) with (plus3 D s). rewrite (r_rules_sim D cf (fuel_for ts) (S (List.length ts)) s ts H). reflexivity. Qed.
