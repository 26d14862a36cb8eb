(** The problems that are written for external solvers: ast/printer.rs (write_lia_smt_instance), elaborator/hole.rs and elaborator/lia_generic.rs (get_problem_string), lib.rs
    (generate_lia_smt_instances). *)
From Coq Require Import List Bool NArith ZArith Arith String Lia.
From Verif Require Import Base Term Sem Checker Lexer LexerSound TermIO TermIOSound Parser ParserSound ProofIO ProofIOSound ProblemIO ProblemIOSound.
Import ListNotations.
Local Open Scope string_scope.
Local Open Scope nat_scope.
Local Open Scope list_scope.

(** [Itertools::dedup] (printer.rs:417): of adjacent equal terms one is kept *)
Fixpoint dedup (l : list term) : list term :=
  match l with
  | a :: ((b :: _) as r) => if term_eqb a b then dedup r else a :: dedup r
  | _ => l
  end.
(** printer.rs:56: names of shared terms start with [p_]. Simplification: all words that start with [@p_] are changed. *)
Definition smt_name (p : piece) : piece := match fst p with 64%N :: 112%N :: 95%N :: r => word (112%N :: 95%N :: r) | _ => p end.
(** printer.rs:416-423. [plain] is for [smt_lib_strict] (60). Simplification: with sharing, constants are natural numbers. *)
Fixpoint p_lits (share : term -> bool) (c : list term) (ind : list term) : outcome (list piece * list term) :=
  match c with
  | [] => ROk ([], ind)
  | t :: r => do x <- p_term share (plain t) ind ; do y <- p_lits share r (snd x) ;
              ROk (lp :: kw "assert" :: sp :: lp :: kw "not" :: sp :: map smt_name (fst x) ++ [rp; rp; nl] ++ fst y, snd y)
  end.
(** printer.rs:587-606 *)
Definition p_prelude (p : prelude) : outcome (list piece) :=
  do ss <- p_all p_sdecl (pr_sorts p) ; do fs <- p_all p_decl (pr_funs p) ; ROk ([lp; kw "set-logic"; sp; kw (logic_of p); rp; nl] ++ ss ++ fs).
(** lib.rs:303-318 *)
Definition lia_file (share : term -> bool) (p : prelude) (c : clause) : outcome text :=
  do h <- p_prelude p ; do x <- p_lits share (dedup c) [] ; ROk (out (h ++ fst x ++ [lp; kw "check-sat"; rp; nl; lp; kw "exit"; rp; nl])).
(** hole.rs:40-59 (without sharing), lia_generic.rs:38-57 (with sharing) *)
Definition solver_problem (share : term -> bool) (p : prelude) (c : clause) : outcome text :=
  do h <- p_prelude p ; do x <- p_lits share (dedup c) [] ;
  ROk (out ([lp; kw "set-option"; sp; key "produce-proofs"; sp; kw "true"; rp; nl] ++ h ++ fst x ++ [lp; kw "check-sat"; rp; nl; lp; kw "get-proof"; rp; nl; lp; kw "exit"; rp; nl])).
(** hole.rs:61-70 *)
Definition hole_prelude (p : prelude) : prelude :=
  match pr_logic p with Some l => if String.eqb l "QF_LIA" then mkPr (Some "QF_LIRA") (pr_sorts p) (pr_funs p) else p | None => p end.
(** the configuration for the solver's proof, hole.rs:144-150, lia_generic.rs:139-145 *)
Definition solver_cf : pcfg := mkP false true true false.
(** lib.rs:275-329: the steps outside of subproofs *)
Definition lia_files (share : term -> bool) (p : prelude) (proof : list command) : outcome (list (string * text)) :=
  omap (fun s => do t <- lia_file share p (s_clause s) ; ROk (s_id s, t))
    (flat_map (fun c => match c with CStep s => if String.eqb (s_rule s) "lia_generic" then [s] else [] | _ => [] end) proof).

(** ** Reading them *)
Lemma dedup_In l t : In t (dedup l) <-> In t l.
Proof.
  induction l as [|a l IH]; [tauto|]. destruct l as [|b l]; [tauto|]. cbn [dedup]. destruct (term_eqb a b) eqn:E.
  - apply term_eqb_eq in E. subst b. fold (dedup (a :: l)). rewrite IH. cbn. tauto.
  - cbn [In] in *. fold (dedup (b :: l)). cbn [dedup] in IH. rewrite IH. cbn. tauto.
Qed.
Lemma dedup_NoDup l : NoDup l -> dedup l = l.
Proof.
  induction 1 as [|a l Ha Hn IH]; [reflexivity|]. destruct l as [|b l]; [reflexivity|]. cbn [dedup]. destruct (term_eqb a b) eqn:E.
  - apply term_eqb_eq in E. subst b. destruct Ha. left. reflexivity.
  - f_equal. exact IH.
Qed.
(** without sharing, and without variables named like shared terms, the pieces are those of assertions *)
Definition no_at (l : list piece) : Prop := map smt_name l = l.
Lemma lit_assert t l : p_term no_share (plain t) [] = ROk (l, []) -> no_at l -> p_assert (tNot t) = ROk (lp :: kw "assert" :: sp :: lp :: kw "not" :: sp :: map smt_name l ++ [rp; rp; nl]).
Proof.
  intros H Hn. unfold p_assert, tNot. cbn [plain map]. cbn [p_term shareable no_share p_tail_st]. rewrite H. cbn [obind fst snd]. rewrite Hn. cbn [op_name app]. rewrite app_nil_r. rewrite <- !app_assoc. reflexivity.
Qed.
Lemma lits_assert c : Forall (fun t => exists l, p_term no_share (plain t) [] = ROk (l, []) /\ no_at l) c ->
  exists x, p_lits no_share c [] = ROk (x, []) /\ p_all p_assert (map tNot c) = ROk x.
Proof.
  induction 1 as [|t c [l [H1 H2]] _ [x [Hx1 Hx2]]]; [exists []; auto|]. cbn [p_lits map p_all]. rewrite H1. cbn [obind fst snd]. rewrite Hx1. cbn [obind fst snd].
  rewrite (lit_assert t l H1 H2). cbn [obind]. rewrite Hx2. cbn [obind]. eexists. split; [reflexivity|]. f_equal. cbn [app]. rewrite <- !app_assoc. reflexivity.
Qed.
Lemma problem_chain cf ap p asserts s0 : rproblem cf p asserts = true -> s0 = pb0 ->
  exists h x, p_prelude p = ROk h /\ p_all p_assert asserts = ROk x /\ chain cf ap (h ++ x) s0 (printed_state p asserts).
Proof.
  intros H ->. unfold rproblem in H. set (c := mkP (strict cf) (subtyping cf) (expand_lets cf) (real_only (logic_of p))) in *.
  apply andb_true_iff in H. destruct H as [H H4]. apply andb_true_iff in H. destruct H as [H H3]. apply andb_true_iff in H. destruct H as [H1 H2]. rewrite forallb_forall in H2, H3, H4.
  pose proof (logic_chain cf ap (logic_of p) pb0 H1) as C1. set (s1 := mkPB _ _ _ _ _ _) in C1.
  destruct (chain_all cf ap p_sdecl st_sdecl rsdecl (fun _ => True)) with (l := pr_sorts p) (s := s1) as [x2 [E2 [C2 _]]]; auto.
  { intros a s Ha _. destruct (sdecl_chain cf ap a s Ha) as [l [E C]]. eauto. }
  { apply Forall_forall. exact H2. }
  rewrite fold_sdecl in C2. cbn [pb_pre pr_logic pr_sorts pr_funs pb_reals pb_sorts pb_vars pb_defs pb_prems s1 pb0 set_logic app] in C2. rewrite app_nil_r in C2. fold (sorts_of p) in C2. set (s2 := mkPB _ _ _ _ _ _) in C2.
  destruct (chain_all cf ap p_decl st_decl (fun d => rdecl c (sorts_of p) d = true) (fun s => cf_of cf s = c /\ pb_sorts s = sorts_of p /\ pb_defs s = [])) with (l := pr_funs p) (s := s2) as [x3 [E3 [C3 _]]].
  { intros a s Ha [Q1 [Q2 Q3]]. destruct (decl_chain cf ap a s) as [l [E C]]; [rewrite Q1, Q2; exact Ha|exact Q3|]. exists l. split; [exact E|]. split; [exact C|]. split; [exact Q1|]. split; [exact Q2|exact Q3]. }
  { apply Forall_forall. exact H3. }
  { repeat split. }
  rewrite fold_decl in C3. cbn [pb_pre pr_logic pr_sorts pr_funs pb_reals pb_sorts pb_vars pb_defs pb_prems s2 app] in C3. rewrite app_nil_r in C3. set (s3 := mkPB _ _ _ _ _ _) in C3.
  destruct (chain_all cf ap p_assert (fun t s => add_prems s [plain t]) (fun t => rterm no_share c (sorts_of p) [] (rev (pr_funs p)) (plain t) = true)
    (fun s => cf_of cf s = c /\ pb_sorts s = sorts_of p /\ pb_defs s = [] /\ pb_vars s = rev (pr_funs p))) with (l := asserts) (s := s3) as [x4 [E4 [C4 _]]].
  { intros a s Ha [Q1 [Q2 [Q3 Q4]]]. destruct (assert_chain cf ap a s) as [l [E C]]; [rewrite Q1, Q2, Q4; exact Ha|exact Q3|]. exists l. split; [exact E|]. split; [exact C|]. split; [exact Q1|]. split; [exact Q2|]. split; [exact Q3|exact Q4]. }
  { apply Forall_forall. exact H4. }
  { repeat split. }
  rewrite fold_asserts in C4. cbn [pb_pre pb_reals pb_sorts pb_vars pb_defs pb_prems s3] in C4. fold (printed_state p asserts) in C4.
  exists ([lp; kw "set-logic"; sp; kw (logic_of p); rp; nl] ++ x2 ++ x3), x4. unfold p_prelude. rewrite E2. cbn [obind]. rewrite E3. cbn [obind]. split; [reflexivity|]. split; [exact E4|].
  pose proof (chain_app _ _ _ _ _ _ _ C1 (chain_app _ _ _ _ _ _ _ C2 (chain_app _ _ _ _ _ _ _ C3 C4))) as C. rewrite <- !app_assoc. exact C.
Qed.
Lemma chain_read cf ap l s : chain cf ap l pb0 s -> read_problem_text cf ap (out l) = ROk s.
Proof.
  intros [O [_ HC]]. unfold read_problem_text. rewrite (okp_lex_all l O). cbn [obind]. destruct (HC (fuel_for (toks l)) []) as [k [Lk Ek]]; [unfold fuel_for; lia|]. rewrite app_nil_r in Ek.
  replace (S (List.length (toks l))) with (k + (S (List.length (toks l)) - k)) by lia. rewrite Ek. destruct (S (List.length (toks l)) - k); reflexivity.
Qed.
Lemma option_chain cf ap s : chain cf ap [lp; kw "set-option"; sp; key "produce-proofs"; sp; kw "true"; rp; nl] s s.
Proof.
  apply chain_cmd.
  - apply okp_par; [apply par_lp|]. apply word_okp; [reflexivity|apply par_sp|]. apply okp_par; [apply par_sp|]. apply okp_key; [reflexivity|apply par_sp|]. apply okp_par; [apply par_sp|].
    apply word_okp; [reflexivity|apply par_rp|apply okp_end].
  - intros F rest _. destruct rest; reflexivity.
Qed.
(** For a clause whose negated literals can be read, without names like those of shared terms: the problem has the negated literals as premises. *)
Definition rclause (cf : pcfg) (p : prelude) (c : clause) : bool := rproblem cf p (map tNot (dedup c)).
(** no name starts like that of a shared term *)
Definition at_name (x : string) : bool := match chars x with 64%N :: 112%N :: 95%N :: _ => false | _ => true end.
Fixpoint at_sort (s : sort) : bool :=
  match s with SFun ss => forallb at_sort ss | SAtom n ss => at_name n && forallb at_sort ss | SVar n => at_name n | SArray a b => at_sort a && at_sort b | _ => true end.
Fixpoint at_free (t : term) : bool :=
  match t with
  | TConst _ => true
  | TVar x _ => at_name x
  | TApp f args => at_free f && forallb at_free args
  | TOp _ args => forallb at_free args
  | TSort s => at_sort s
  | TBind _ vs b => forallb (fun v => at_name (fst v) && at_sort (snd v)) vs && at_free b
  | TLet bs b => forallb (fun v => at_name (fst v) && at_free (snd v)) bs && at_free b
  | TPOp _ l args => forallb at_free l && forallb at_free args
  end.
Definition na (p : piece) : Prop := match fst p with 64%N :: 112%N :: 95%N :: _ => False | _ => True end.
Lemma na_smt l : Forall na l -> no_at l.
Proof.
  unfold no_at. induction 1 as [|p l Hp _ IH]; [reflexivity|]. cbn [map]. rewrite IH. f_equal. unfold na in Hp. unfold smt_name.
  destruct (fst p) as [|a [|b [|c r]]] eqn:E; try reflexivity; repeat match goal with |- context [match ?x with _ => _ end] => is_var x; destruct x; try reflexivity; try contradiction end.
Qed.
Lemma na_digits s n r : s = print_N n ++ r -> match s with 64%N :: 112%N :: 95%N :: _ => False | _ => True end.
Proof.
  intros ->. destruct (print_N_nonempty n) as (c & q & E). rewrite E. cbn [app]. pose proof (print_N_digits n) as D. rewrite E in D. cbn [forallb] in D. apply andb_true_iff in D. destruct D as [D _].
  destruct (N.eq_dec c 64) as [->|Hc]; [discriminate D|]. destruct c as [|c]; [exact Logic.I|]. repeat match goal with |- context [match ?x with _ => _ end] => is_var x; destruct x; try exact Logic.I; try congruence end.
Qed.
Lemma na_Z z r : match print_Z z ++ r with 64%N :: 112%N :: 95%N :: _ => False | _ => True end.
Proof. destruct z; [eapply na_digits; reflexivity|eapply na_digits; reflexivity|exact Logic.I]. Qed.
Lemma na_const c : Forall na (p_const c).
Proof.
  destruct c; cbn [p_const].
  - constructor; [|constructor]. unfold na. cbn [fst]. pose proof (na_Z z []) as H. rewrite app_nil_r in H. exact H.
  - constructor; [|constructor]. unfold na. cbn [fst]. unfold print_real. destruct (_ && _); apply na_Z.
  - constructor; [exact Logic.I|constructor].
  - repeat (constructor; [exact Logic.I|]). constructor; [unfold na, p_nat; cbn [fst]; eapply na_digits; symmetry; apply app_nil_r|]. repeat constructor.
Qed.
Lemma na_sym x q : at_name x = true -> p_sym x = ROk q -> na q.
Proof.
  unfold at_name, p_sym, quote_symbol. intros H E. destruct (existsb _ _); [discriminate|]. cbn [obind] in E. injection E as <-. unfold na. cbn [fst]. destruct (needs_quote _); [exact Logic.I|].
  destruct (chars x) as [|a [|b [|c r]]]; try exact Logic.I; repeat match goal with |- context [match ?x with _ => _ end] => is_var x; destruct x; try exact Logic.I; try discriminate end.
Qed.
Lemma na_tail {A} (f : A -> outcome (list piece)) l : Forall (fun a => forall x, f a = ROk x -> Forall na x) l -> forall x, p_tail f l = ROk x -> Forall na x.
Proof.
  induction 1 as [|a l Ha _ IH]; intros x H; cbn [p_tail] in H; [injection H as <-; constructor|]. apply obind_ok in H. destruct H as [y [H1 H]]. apply obind_ok in H. destruct H as [z [H2 H]]. injection H as <-.
  constructor; [exact Logic.I|]. apply Forall_app. split; eauto.
Qed.
Lemma na_kw x : at_name x = true -> na (kw x).
Proof.
  unfold at_name, na, kw, word. cbn [fst]. destruct (chars x) as [|a [|b [|c r]]]; try (intros; exact Logic.I); intros H; repeat match goal with |- context [match ?x with _ => _ end] => is_var x; destruct x; try exact Logic.I; try discriminate end.
Qed.
Lemma na_sort s : at_sort s = true -> forall x, p_sort s = ROk x -> Forall na x.
Proof.
  assert (Hl : forall ss, Forall (fun s => at_sort s = true -> forall x, p_sort s = ROk x -> Forall na x) ss -> forallb at_sort ss = true -> forall x, p_tail p_sort ss = ROk x -> Forall na x).
  { intros ss H Hb. apply na_tail. rewrite forallb_forall in Hb. rewrite Forall_forall in H. apply Forall_forall. intros a Ha x Hx. exact (H a Ha (Hb a Ha) x Hx). }
  induction s using sort_ind'; intros Hs x E; cbn [at_sort p_sort] in *; try (injection E as <-; repeat constructor; fail).
  - apply obind_ok in E. destruct E as [y [H1 E]]. injection E as <-. repeat (constructor; [exact Logic.I|]). apply Forall_app. split; [eapply Hl; eauto|repeat constructor].
  - apply andb_true_iff in Hs. destruct Hs as [Hs Ha]. match goal with ss : list sort |- _ => destruct ss as [|a0 args] end.
    + apply obind_ok in E. destruct E as [y [H1 E]]. injection E as <-. constructor; [eapply na_sym; eauto|constructor].
    + apply obind_ok in E. destruct E as [y [H1 E]]. apply obind_ok in E. destruct E as [z [H2 E]]. injection E as <-. constructor; [exact Logic.I|]. constructor; [eapply na_sym; eauto|]. apply Forall_app. split; [eapply Hl; eauto|repeat constructor].
  - apply andb_true_iff in Hs. destruct Hs as [Hsa Hsb]. apply obind_ok in E. destruct E as [y [H1 E]]. apply obind_ok in E. destruct E as [z [H2 E]]. injection E as <-. repeat (constructor; [exact Logic.I|]). apply Forall_app. split; [eauto|].
    constructor; [exact Logic.I|]. apply Forall_app. split; [eauto|repeat constructor].
  - injection E as <-. constructor; [apply na_kw; exact Hs|constructor].
  - injection E as <-. repeat (constructor; [exact Logic.I|]). constructor; [unfold na, p_nat; cbn [fst]; eapply na_digits; symmetry; apply app_nil_r|]. repeat constructor.
Qed.
Lemma na_tail_st {A} (f : A -> list term -> outcome (list piece * list term)) l : Forall (fun a => forall ind x, f a ind = ROk x -> Forall na (fst x)) l ->
  forall ind x, p_tail_st f l ind = ROk x -> Forall na (fst x).
Proof.
  induction 1 as [|a l Ha _ IH]; intros ind x H; cbn [p_tail_st] in H; [injection H as <-; constructor|]. apply obind_ok in H. destruct H as [y [H1 H]]. apply obind_ok in H. destruct H as [z [H2 H]]. injection H as <-.
  cbn [fst]. constructor; [exact Logic.I|]. apply Forall_app. split; eauto.
Qed.
Lemma na_paren {A} (f : A -> list term -> outcome (list piece * list term)) l : Forall (fun a => forall ind x, f a ind = ROk x -> Forall na (fst x)) l ->
  forall ind x, p_paren f l ind = ROk x -> Forall na (fst x).
Proof.
  intros Hl ind x H. destruct Hl as [|a l Ha Hl]; cbn [p_paren] in H; [injection H as <-; repeat constructor|]. apply obind_ok in H. destruct H as [y [H1 H]]. apply obind_ok in H. destruct H as [z [H2 H]]. injection H as <-.
  cbn [fst]. constructor; [exact Logic.I|]. apply Forall_app. split; [eauto|]. apply Forall_app. split; [eapply na_tail_st; eauto|repeat constructor].
Qed.
Lemma na_op o : na (kw (op_name o)).
Proof. destruct o; exact Logic.I. Qed.
Lemma na_pop o : na (kw (pop_name o)).
Proof. destruct o; exact Logic.I. Qed.
Lemma na_binder b : na (kw (binder_name b)).
Proof. destruct b; exact Logic.I. Qed.
Lemma na_term t : at_free t = true -> forall ind x, p_term no_share t ind = ROk x -> Forall na (fst x).
Proof.
  assert (Hl : forall ts, Forall (fun t => at_free t = true -> forall ind x, p_term no_share t ind = ROk x -> Forall na (fst x)) ts -> forallb at_free ts = true ->
    forall ind x, p_tail_st (p_term no_share) ts ind = ROk x -> Forall na (fst x)).
  { intros ts H Hb. apply na_tail_st. rewrite forallb_forall in Hb. rewrite Forall_forall in H. apply Forall_forall. intros a Ha i x Hx. exact (H a Ha (Hb a Ha) i x Hx). }
  induction t using term_ind'; intros Ht ind x0 E; cbn [at_free] in Ht; cbn [p_term shareable no_share] in E.
  - injection E as <-. apply na_const.
  - apply obind_ok in E. destruct E as [q [H1 E]]. injection E as <-. constructor; [eapply na_sym; eauto|constructor].
  - apply andb_true_iff in Ht. destruct Ht as [Hta Htb]. apply obind_ok in E. destruct E as [y [H1 E]]. apply obind_ok in E. destruct E as [z [H2 E]]. injection E as <-. cbn [fst]. constructor; [exact Logic.I|].
    apply Forall_app. split; [eauto|]. apply Forall_app. split; [eapply Hl; eauto|repeat constructor].
  - destruct args as [|a args]; [injection E as <-; constructor; [apply na_op|constructor]|]. apply obind_ok in E. destruct E as [z [H2 E]]. injection E as <-. cbn [fst]. constructor; [exact Logic.I|]. constructor; [apply na_op|].
    apply Forall_app. split; [eapply Hl; eauto|repeat constructor].
  - apply obind_ok in E. destruct E as [q [H1 E]]. injection E as <-. eapply na_sort; eauto.
  - apply andb_true_iff in Ht. destruct Ht as [Hv Hb]. apply obind_ok in E. destruct E as [y [H1 E]]. apply obind_ok in E. destruct E as [z [H2 E]]. injection E as <-. cbn [fst]. constructor; [exact Logic.I|]. constructor; [apply na_binder|]. constructor; [exact Logic.I|].
    apply Forall_app. split; [|constructor; [exact Logic.I|apply Forall_app; split; [eauto|repeat constructor]]]. revert H1. apply na_paren. rewrite forallb_forall in Hv. apply Forall_forall. intros v Hi i w Ew. specialize (Hv v Hi). apply andb_true_iff in Hv. destruct Hv as [Hv1 Hv2].
    apply obind_ok in Ew. destruct Ew as [q [Hq Ew]]. apply obind_ok in Ew. destruct Ew as [s' [Hs' Ew]]. injection Ew as <-. cbn [fst]. constructor; [exact Logic.I|]. constructor; [eapply na_sym; eauto|]. constructor; [exact Logic.I|]. apply Forall_app. split; [eapply na_sort; eauto|repeat constructor].
  - apply andb_true_iff in Ht. destruct Ht as [Hv Hb]. apply obind_ok in E. destruct E as [y [H1 E]]. apply obind_ok in E. destruct E as [z [H2 E]]. injection E as <-. cbn [fst]. repeat (constructor; [exact Logic.I|]).
    apply Forall_app. split; [|constructor; [exact Logic.I|apply Forall_app; split; [eauto|repeat constructor]]]. revert H1. apply na_paren. rewrite forallb_forall in Hv.
    match goal with H : Forall _ bs |- _ => rewrite Forall_forall in H; apply Forall_forall; intros v Hi i w Ew; specialize (H v Hi); specialize (Hv v Hi); apply andb_true_iff in Hv; destruct Hv as [Hv1 Hv2];
      apply obind_ok in Ew; destruct Ew as [q [Hq Ew]]; apply obind_ok in Ew; destruct Ew as [s' [Hs' Ew]]; injection Ew as <-; cbn [fst]; constructor; [exact Logic.I|]; constructor; [eapply na_sym; eauto|]; constructor; [exact Logic.I|];
      apply Forall_app; split; [eapply H; eauto|repeat constructor] end.
  - apply andb_true_iff in Ht. destruct Ht as [Ha Hb]. apply obind_ok in E. destruct E as [y [H1 E]]. destruct args as [|a args].
    + injection E as <-. cbn [fst]. repeat (constructor; [exact Logic.I|]). constructor; [apply na_pop|]. apply Forall_app. split; [eapply (Hl oargs); eauto|repeat constructor].
    + apply obind_ok in E. destruct E as [z [H2 E]]. injection E as <-. cbn [fst]. repeat (constructor; [exact Logic.I|]). constructor; [apply na_pop|]. apply Forall_app. split; [eapply (Hl oargs); eauto|]. constructor; [exact Logic.I|]. apply Forall_app. split; [eapply (Hl (a :: args)); eauto|repeat constructor].
Qed.
Lemma at_plain t : at_free t = true -> at_free (plain t) = true.
Proof.
  assert (Hl : forall ts, Forall (fun t => at_free t = true -> at_free (plain t) = true) ts -> forallb at_free ts = true -> forallb at_free (map plain ts) = true).
  { induction 1 as [|a l Ha _ IH]; cbn; [auto|]. intros H. apply andb_true_iff in H. destruct H. rewrite Ha, IH by assumption. reflexivity. }
  induction t using term_ind'; intros Ht; cbn [plain at_free] in *; auto.
  - destruct c; cbn [plain_const]; unfold plain_nat; repeat match goal with |- context [if ?b then _ else _] => destruct b end; reflexivity.
  - apply andb_true_iff in Ht. destruct Ht. rewrite IHt, Hl by assumption. reflexivity.
  - apply andb_true_iff in Ht. destruct Ht as [Hv Hb]. rewrite Hv, IHt by assumption. reflexivity.
  - apply andb_true_iff in Ht. destruct Ht as [Hv Hb]. rewrite IHt by assumption. rewrite andb_true_r. rewrite forallb_forall in *. intros v Hi. apply in_map_iff in Hi. destruct Hi as (w & <- & Hi). cbn [fst snd].
    specialize (Hv w Hi). apply andb_true_iff in Hv. destruct Hv as [Hv1 Hv2]. rewrite Hv1. match goal with H : Forall _ bs |- _ => rewrite Forall_forall in H; rewrite (H w Hi Hv2) end. reflexivity.
  - apply andb_true_iff in Ht. destruct Ht. rewrite !Hl by assumption. reflexivity.
Qed.
Lemma rclause_terms cf p c : rclause cf p c = true -> forallb at_free c = true -> Forall (fun t => exists l, p_term no_share (plain t) [] = ROk (l, []) /\ no_at l) (dedup c).
Proof.
  intros H Hc. unfold rclause, rproblem in H. apply andb_true_iff in H. destruct H as [_ H]. rewrite forallb_forall in H, Hc. apply Forall_forall. intros t Ht.
  specialize (H (tNot t) (in_map _ _ _ Ht)). destruct (term_pieces _ _ _ _ H) as [l [El _]]. cbn [plain tNot map p_term shareable no_share p_tail_st] in El.
  apply obind_ok in El. destruct El as [[y i] [El _]]. apply obind_ok in El. destruct El as [[z j] [El _]]. exists z. pose proof (no_share_ind _ _ _ _ El) as ->. split; [exact El|].
  apply na_smt. exact (na_term (plain t) (at_plain t (Hc t (proj1 (dedup_In c t) Ht))) [] _ El).
Qed.
Theorem lia_file_read cf ap p c : rclause cf p c = true -> forallb at_free c = true ->
  exists txt, lia_file no_share p c = ROk txt /\ read_problem_text cf ap txt = ROk (printed_state p (map tNot (dedup c))).
Proof.
  intros H Hc. destruct (lits_assert _ (rclause_terms cf p c H Hc)) as [x [Hx1 Hx2]]. destruct (problem_chain cf ap p _ pb0 H eq_refl) as (h & x' & Hh & Hx & C). rewrite Hx in Hx2. injection Hx2 as ->.
  unfold lia_file. rewrite Hh. cbn [obind]. rewrite Hx1. cbn [obind fst]. eexists. split; [reflexivity|]. apply chain_read. rewrite app_assoc. eapply chain_app; [exact C|].
  change [lp; kw "check-sat"; rp; nl; lp; kw "exit"; rp; nl] with ([lp; kw "check-sat"; rp; nl] ++ [lp; kw "exit"; rp; nl]). eapply chain_app; apply skip_chain; reflexivity.
Qed.
Theorem solver_problem_read cf ap p c : rclause cf p c = true -> forallb at_free c = true ->
  exists txt, solver_problem no_share p c = ROk txt /\ read_problem_text cf ap txt = ROk (printed_state p (map tNot (dedup c))).
Proof.
  intros H Hc. destruct (lits_assert _ (rclause_terms cf p c H Hc)) as [x [Hx1 Hx2]]. destruct (problem_chain cf ap p _ pb0 H eq_refl) as (h & x' & Hh & Hx & C). rewrite Hx in Hx2. injection Hx2 as ->.
  unfold solver_problem. rewrite Hh. cbn [obind]. rewrite Hx1. cbn [obind fst]. eexists. split; [reflexivity|]. apply chain_read. eapply chain_app; [apply option_chain|].
  rewrite app_assoc. eapply chain_app; [exact C|].
  change [lp; kw "check-sat"; rp; nl; lp; kw "get-proof"; rp; nl; lp; kw "exit"; rp; nl] with ([lp; kw "check-sat"; rp; nl] ++ [lp; kw "get-proof"; rp; nl] ++ [lp; kw "exit"; rp; nl]).
  eapply chain_app; [apply skip_chain; reflexivity|]. eapply chain_app; apply skip_chain; reflexivity.
Qed.
