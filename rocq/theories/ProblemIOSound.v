(** A problem that is printed and read again: the same declarations and assertions. *)
From Coq Require Import List Bool NArith ZArith QArith Arith String Lia.
From Verif Require Import Base Term Sem Utils Polyeq Subst Rules Checker Lexer LexerSound TermIO TermIOSound Parser ParserSound ProofIO ProofIOSound ProblemIO.
Import ListNotations.
Local Open Scope string_scope.
Local Open Scope nat_scope.
Local Open Scope list_scope.

(** ** Printing without sharing keeps the table *)
Lemma tail_ind {A} (f : A -> list term -> outcome (list piece * list term)) (l : list A) :
  Forall (fun a => forall ind x ind', f a ind = ROk (x, ind') -> ind' = ind) l -> forall ind x ind', p_tail_st f l ind = ROk (x, ind') -> ind' = ind.
Proof.
  induction 1 as [|a l Ha _ IH]; intros ind x ind' H; cbn [p_tail_st] in H; [injection H as _ <-; reflexivity|].
  apply obind_ok in H. destruct H as [[x1 i1] [H1 H]]. apply obind_ok in H. destruct H as [[x2 i2] [H2 H]]. injection H as _ <-. apply Ha in H1. cbn [fst snd] in *. apply IH in H2. congruence.
Qed.
Lemma paren_ind {A} (f : A -> list term -> outcome (list piece * list term)) (l : list A) :
  Forall (fun a => forall ind x ind', f a ind = ROk (x, ind') -> ind' = ind) l -> forall ind x ind', p_paren f l ind = ROk (x, ind') -> ind' = ind.
Proof.
  intros Hl ind x ind' H. destruct Hl as [|a l Ha Hl]; cbn [p_paren] in H; [injection H as _ <-; reflexivity|].
  apply obind_ok in H. destruct H as [[x1 i1] [H1 H]]. apply obind_ok in H. destruct H as [[x2 i2] [H2 H]]. injection H as _ <-. apply Ha in H1. cbn [fst snd] in *. apply (tail_ind f l Hl) in H2. congruence.
Qed.
Lemma no_share_ind t : forall ind x ind', p_term no_share t ind = ROk (x, ind') -> ind' = ind.
Proof.
  induction t using term_ind'; intros ind x0 ind' HH; cbn [p_term shareable no_share] in HH.
  - injection HH as _ <-. reflexivity.
  - apply obind_ok in HH. destruct HH as [q [_ HH]]. injection HH as _ <-. reflexivity.
  - apply obind_ok in HH. destruct HH as [[x1 i1] [H1 HH]]. apply obind_ok in HH. destruct HH as [[x2 i2] [H2 HH]]. injection HH as _ <-. apply IHt in H1. cbn [fst snd] in *. apply tail_ind in H2; [congruence|assumption].
  - destruct args as [|a args]; [injection HH as _ <-; reflexivity|]. apply obind_ok in HH. destruct HH as [[x2 i2] [H2 HH]]. injection HH as _ <-. apply tail_ind in H2; assumption.
  - apply obind_ok in HH. destruct HH as [q [_ HH]]. injection HH as _ <-. reflexivity.
  - apply obind_ok in HH. destruct HH as [[x1 i1] [H1 HH]]. apply obind_ok in HH. destruct HH as [[x2 i2] [H2 HH]]. injection HH as _ <-. cbn [fst snd] in *. apply IHt in H2. apply paren_ind in H1; [congruence|].
    apply Forall_forall. intros v _ i y i' Hv. apply obind_ok in Hv. destruct Hv as [q [_ Hv]]. apply obind_ok in Hv. destruct Hv as [s' [_ Hv]]. injection Hv as _ <-. reflexivity.
  - apply obind_ok in HH. destruct HH as [[x1 i1] [H1 HH]]. apply obind_ok in HH. destruct HH as [[x2 i2] [H2 HH]]. injection HH as _ <-. cbn [fst snd] in *. apply IHt in H2. apply paren_ind in H1; [congruence|].
    eapply Forall_impl; [|eassumption]. intros v Hv0 i y i' Hv. cbn beta in *. apply obind_ok in Hv. destruct Hv as [q [_ Hv]]. apply obind_ok in Hv. destruct Hv as [[y1 i1'] [Hv1 Hv]]. injection Hv as _ <-. cbn. eapply Hv0; eauto.
  - apply obind_ok in HH. destruct HH as [[x1 i1] [H1 HH]]. apply tail_ind in H1; [|assumption]. cbn [fst snd] in *. subst i1. destruct args as [|a args]; [injection HH as _ <-; reflexivity|].
    apply obind_ok in HH. destruct HH as [[x2 i2] [H2 HH]]. injection HH as _ <-. apply tail_ind in H2; assumption.
Qed.
Lemma term_pieces cf sdecl E t : rterm no_share cf sdecl [] E t = true ->
  exists l, p_term no_share t [] = ROk (l, []) /\ okp l /\ starts l /\ forall n rest, 2 * List.length (toks l) <= n -> parse cf sdecl n MTerm E [] (toks l ++ rest) = ROk (t, [], rest).
Proof.
  intros Hr. destruct (term_spec no_share cf sdecl [] t E [] [] (tsize t) Hr) as [l [ind' [D' [El [X [[Ol [Sl [Pl _]]] _]]]]]]; [intros x _; reflexivity| |lia|].
  { intros i u Hu. destruct i; discriminate Hu. }
  pose proof (no_share_ind t [] l ind' El) as ->. assert (HD : D' = []).
  { destruct X as [_ Ho _]. destruct D' as [|[y d] D']; [reflexivity|]. specialize (Ho y). cbn in Ho. rewrite String.eqb_refl in Ho. discriminate Ho. intros j Hj. cbn in Hj. lia. }
  subst D'. exists l. auto.
Qed.

(** ** Commands *)
Section Chain.
  Variables (cf : pcfg) (ap : bool).
  (** reading these pieces takes the parser from [s] to [s'] *)
  Definition chain (l : list piece) (s s' : pbstate) : Prop :=
    okp l /\ hd_delim l /\ forall F rest, 2 * List.length (toks l) <= F ->
      exists k, k <= List.length (toks l) /\ forall m, read_pcmds cf ap F (k + m) s (toks l ++ rest) = read_pcmds cf ap F m s' rest.
  Lemma chain_nil s : chain [] s s.
  Proof. split; [exact Logic.I|]. split; [exact Logic.I|]. intros F rest _. exists 0. split; [auto|reflexivity]. Qed.
  Lemma chain_app l1 l2 s s1 s2 : chain l1 s s1 -> chain l2 s1 s2 -> chain (l1 ++ l2) s s2.
  Proof.
    intros [O1 [D1 H1]] [O2 [D2 H2]]. split; [apply okp_app; auto|]. split; [destruct l1; auto|]. intros F rest HF. rewrite toks_app in *. rewrite app_length in *.
    destruct (H1 F (toks l2 ++ rest) ltac:(lia)) as [k1 [L1 E1]]. destruct (H2 F rest ltac:(lia)) as [k2 [L2 E2]]. exists (k1 + k2). split; [lia|]. intros m.
    rewrite <- app_assoc, <- Nat.add_assoc, E1. apply E2.
  Qed.
  Lemma chain_cmd l s s' : okp (lp :: l) -> (forall F rest, 2 * List.length (toks l) + 2 <= F -> read_pcmd cf ap F s (toks l ++ rest) = ROk (s', rest)) -> chain (lp :: l) s s'.
  Proof.
    intros O H. split; [exact O|]. split; [apply par_lp|]. intros F rest HF. rewrite toks_lp in *. cbn [List.length] in HF. exists 1. split; [cbn; lia|]. intros m. cbn [read_pcmds app Nat.add].
    rewrite H by lia. reflexivity.
  Qed.
  Lemma chain_all {A} (f : A -> outcome (list piece)) (st : A -> pbstate -> pbstate) (R : A -> Prop) (Q : pbstate -> Prop) :
    (forall a s, R a -> Q s -> exists l, f a = ROk l /\ chain l s (st a s) /\ Q (st a s)) ->
    forall l s, Forall R l -> Q s -> exists x, p_all f l = ROk x /\ chain x s (fold_left (fun s a => st a s) l s) /\ Q (fold_left (fun s a => st a s) l s).
  Proof.
    intros H. induction l as [|a l IH]; intros s Hl HQ; [exists []; split; [reflexivity|]; split; [apply chain_nil|exact HQ]|]. inversion Hl as [|? ? Ha Hl']; subst.
    destruct (H a s Ha HQ) as [x [E1 [C1 Q1]]]. destruct (IH (st a s) Hl' Q1) as [y [E2 [C2 Q2]]]. exists (x ++ y). cbn [p_all]. rewrite E1. cbn [obind]. rewrite E2. cbn [obind].
    split; [reflexivity|]. split; [eapply chain_app; eauto|exact Q2].
  Qed.

  (** set-logic *)
  Definition logic_ok (x : string) : bool := word_ok (chars x) && negb (is_reserved (chars x)).
  Lemma logic_chain x s : logic_ok x = true ->
    chain [lp; kw "set-logic"; sp; kw x; rp; nl] s (mkPB (set_logic (pb_pre s) x) (real_only x) (pb_sorts s) (pb_vars s) (pb_defs s) (pb_prems s)).
  Proof.
    intros H. apply andb_true_iff in H. destruct H as [H1 H2]. apply negb_true_iff in H2. apply chain_cmd.
    - apply okp_par; [apply par_lp|]. apply word_okp; [reflexivity|apply par_sp|]. apply okp_par; [apply par_sp|]. apply word_okp; [exact H1|apply par_rp|]. apply okp_end.
    - intros F rest _. rewrite (kw_tok x H2). cbn [toks flat_map snd app kw word]. change (is_reserved (chars "set-logic")) with true. cbn [read_pcmd].
      cbn [app]. unfold read_pcmd. cbn -[real_only chars string_of]. unfold read_set_logic. cbn [expect_symbol obind fst snd expect is_close]. rewrite string_chars. reflexivity.
  Qed.
  (** declare-sort *)
  Definition rsdecl (d : string * nat) : Prop := name_ok (fst d) && width_ok (snd d) = true.
  Definition st_sdecl (d : string * nat) (s : pbstate) : pbstate := set_pre (set_sorts s ((fst d, SArity (snd d)) :: pb_sorts s)) (add_sort (pb_pre s) (fst d) (snd d)).
  Lemma sdecl_chain d s : rsdecl d -> exists l, p_sdecl d = ROk l /\ chain l s (st_sdecl d s).
  Proof.
    intros H. apply andb_true_iff in H. destruct H as [H1 H2]. destruct (p_sym_ok (fst d) H1) as [q [Eq Aq]]. unfold p_sdecl. rewrite Eq. cbn [obind]. eexists. split; [reflexivity|]. apply chain_cmd.
    - apply okp_par; [apply par_lp|]. apply word_okp; [reflexivity|apply par_sp|]. apply okp_par; [apply par_sp|]. apply okp_atom; [exact Aq|apply par_sp|]. apply okp_par; [apply par_sp|]. apply okp_atom; [apply nat_atom|apply par_rp|]. apply okp_end.
    - intros F rest _. cbn [toks flat_map snd app kw word p_nat sp rp nl]. change (is_reserved (chars "declare-sort")) with true. cbv iota. unfold read_pcmd.
      change (text_eqb (chars "declare-sort") (chars "declare-fun")) with false. change (text_eqb (chars "declare-sort") (chars "declare-const")) with false. change (text_eqb (chars "declare-sort") (chars "declare-sort")) with true. cbv iota.
      unfold read_declare_sort. cbn [expect_symbol obind fst snd]. rewrite string_chars. rewrite nat_N_Z. unfold width_ok in H2. rewrite H2. replace (Z.leb 0 (Z.of_nat (snd d))) with true by lia. cbn [andb]. rewrite Nat2Z.id. reflexivity.
  Qed.

  (** declare-fun *)
  Definition rdecl (c : pcfg) (sd : sdecls) (d : string * sort) : bool :=
    name_ok (fst d) && match snd d with SFun ss => min_len 2 ss && forallb (rsort c sd) ss | so => rsort c sd so end.
  Definition st_decl (d : string * sort) (s : pbstate) : pbstate := set_pre (set_vars s (d :: pb_vars s)) (add_fun (pb_pre s) (fst d) (snd d)).
  Lemma pb_sort_ok F s so D ts rest : parse (cf_of cf s) (pb_sorts s) F MSort (pb_vars s) D ts = ROk (TSort so, D, rest) -> pb_sort cf F s D ts = ROk (so, D, rest).
  Proof. intros H. unfold pb_sort. rewrite H. reflexivity. Qed.
  Lemma seq_pb_sort F s : forall n D ts ss D' r, seq (parse (cf_of cf s) (pb_sorts s) F MSort (pb_vars s)) n D ts = ROk (map TSort ss, D', r) -> seq (pb_sort cf F s) n D ts = ROk (ss, D', r).
  Proof.
    assert (H : forall n D ts l D' r, seq (parse (cf_of cf s) (pb_sorts s) F MSort (pb_vars s)) n D ts = ROk (l, D', r) -> forall ss, l = map TSort ss -> seq (pb_sort cf F s) n D ts = ROk (ss, D', r)); [|intros; eapply H; eauto].
    assert (Hn : forall ss, [] = map TSort ss -> ss = []) by (intros [|]; [reflexivity|discriminate]).
    induction n as [|n IH]; intros D ts l D' r H ss Es.
    - destruct ts as [|[] ts]; cbn [seq] in H; try discriminate. injection H as <- <- <-. apply Hn in Es. subst ss. reflexivity.
    - assert (Hg : (do x <- parse (cf_of cf s) (pb_sorts s) F MSort (pb_vars s) D ts ; let '(a, s1, r1) := x in do y <- seq (parse (cf_of cf s) (pb_sorts s) F MSort (pb_vars s)) n s1 r1 ; let '(l, s2, r2) := y in ROk (a :: l, s2, r2)) = ROk (l, D', r) ->
          (do x <- pb_sort cf F s D ts ; let '(a, s1, r1) := x in do y <- seq (pb_sort cf F s) n s1 r1 ; let '(l, s2, r2) := y in ROk (a :: l, s2, r2)) = ROk (ss, D', r)).
      { intros H0. apply obind_ok in H0. destruct H0 as [[[a D1] r1] [H1 H0]]. apply obind_ok in H0. destruct H0 as [[[l1 D2] r2] [H2 H0]]. injection H0 as <- <- <-.
        destruct ss as [|so ss]; [discriminate|]. injection Es as -> ->. unfold pb_sort at 1. rewrite H1. cbn [obind]. rewrite (IH _ _ _ _ _ H2 ss eq_refl). reflexivity. }
      destruct ts as [|[] ts]; cbn [seq] in *; try (apply Hg; exact H). injection H as <- <- <-. apply Hn in Es. subst ss. reflexivity.
  Qed.
  Lemma decl_chain d s : rdecl (cf_of cf s) (pb_sorts s) d = true -> pb_defs s = [] -> exists l, p_decl d = ROk l /\ chain l s (st_decl d s).
  Proof.
    intros H HD. apply andb_true_iff in H. destruct H as [H1 H2]. destruct (p_sym_ok (fst d) H1) as [q [Eq Aq]]. unfold p_decl. rewrite Eq. cbn [obind].
    assert (Hd : forall F ts, read_pcmd cf ap F s (KRes (chars "declare-fun") :: ts) = read_declare_fun cf F s ts) by reflexivity.
    assert (Hst : set_pre (set_vars (set_defs s []) ((fst d, snd d) :: pb_vars s)) (add_fun (pb_pre s) (fst d) (snd d)) = st_decl d s) by (unfold st_decl, set_defs, set_vars, set_pre; cbn; rewrite HD; destruct d; reflexivity).
    assert (Hc : (exists ss, snd d = SFun ss) \/ (forall ss, snd d <> SFun ss)) by (destruct (snd d); eauto; right; discriminate).
    destruct Hc as [[ss Ess]|Hnf].
    - rewrite Ess in *. apply andb_true_iff in H2. destruct H2 as [Hl Hr]. destruct ss as [|a [|b l]]; try discriminate.
      assert (Hs : exists l0 z0, a :: b :: l = l0 ++ [z0] /\ removelast (a :: b :: l) = l0 /\ last (a :: b :: l) SBool = z0).
      { exists (removelast (a :: b :: l)), (last (a :: b :: l) SBool). split; [apply app_removelast_last; discriminate|auto]. }
      destruct Hs as [l0 [z0 [Es [-> ->]]]]. rewrite Es in *. rewrite forallb_app in Hr. cbn [forallb] in Hr. rewrite andb_true_r in Hr. apply andb_true_iff in Hr. destruct Hr as [Hr1 Hr2].
      destruct l0 as [|a0 l0]; [destruct l; discriminate Es|].
      destruct (sort_tail (cf_of cf s) (pb_sorts s) (a0 :: l0)) as [x [E1 [O1 [S1 P1]]]]; [apply Forall_forall; intros; apply sort_spec|exact Hr1|].
      cbn [p_tail] in E1. apply obind_ok in E1. destruct E1 as [xa [Ea E1]]. apply obind_ok in E1. destruct E1 as [xl [El E1]]. injection E1 as <-. rewrite Ea. cbn [obind]. rewrite El. cbn [obind].
      destruct (sort_spec (cf_of cf s) (pb_sorts s) z0 Hr2) as [z [E2 [O2 [S2 P2]]]]. rewrite E2. cbn [obind]. eexists. split; [reflexivity|].
      assert (Oz : okp (z ++ [rp; nl])) by (apply okp_app; [exact O2|apply okp_end|apply par_rp]).
      assert (O1' : okp (xa ++ xl)) by (destruct O1 as [_ O1]; exact O1).
      apply chain_cmd.
      + apply okp_par; [apply par_lp|]. apply word_okp; [reflexivity|apply par_sp|]. apply okp_par; [apply par_sp|]. apply okp_atom; [exact Aq|apply par_sp|]. apply okp_par; [apply par_sp|]. apply okp_par; [apply par_lp|].
        rewrite app_assoc. apply okp_app; [exact O1'| |apply par_rp]. apply okp_par; [apply par_rp|]. apply okp_par; [apply par_sp|exact Oz].
      + match goal with |- context [toks ?x] => assert (Et : toks x =
          KRes (chars "declare-fun") :: KSym (chars (fst d)) :: KOpen :: toks (sp :: xa ++ xl) ++ KClose :: toks z ++ [KClose]) end.
        { rewrite app_assoc. change (KRes (chars "declare-fun") :: KSym (chars (fst d)) :: KOpen :: toks ((xa ++ xl) ++ rp :: sp :: z ++ [rp; nl]) =
            KRes (chars "declare-fun") :: KSym (chars (fst d)) :: KOpen :: toks (xa ++ xl) ++ KClose :: toks z ++ [KClose]). do 3 f_equal. rewrite toks_app. f_equal. rewrite toks_rp, toks_sp, toks_app. reflexivity. }
        rewrite Et. clear Et. intros F rest HF.
        cbn [List.length] in HF. rewrite app_length in HF. cbn [List.length] in HF. rewrite app_length in HF. cbn [List.length] in HF.
        cbn [app]. rewrite Hd. unfold read_declare_fun. cbn [expect_symbol obind fst snd expect is_open]. rewrite string_chars, HD. rewrite <- app_assoc. cbn [app]. rewrite <- app_assoc. cbn [app].
        rewrite (seq_pb_sort F s F [] (toks (sp :: xa ++ xl) ++ KClose :: toks z ++ KClose :: rest) (a0 :: l0) [] (toks z ++ KClose :: rest)) by (apply P1; lia).
        cbn [obind]. rewrite (pb_sort_ok F s z0 [] _ (KClose :: rest)) by (apply P2; lia). cbn [obind expect is_close].
        rewrite <- Hst. reflexivity.
    - assert (Hr : rsort (cf_of cf s) (pb_sorts s) (snd d) = true) by (destruct (snd d); try exact H2; destruct (Hnf ss eq_refl)).
      destruct (sort_spec (cf_of cf s) (pb_sorts s) (snd d) Hr) as [z [E2 [O2 [S2 P2]]]].
      exists (lp :: kw "declare-fun" :: sp :: (q, Some (KSym (chars (fst d)))) :: sp :: lp :: rp :: sp :: z ++ [rp; nl]). split; [destruct (snd d); try (rewrite E2; reflexivity); destruct (Hnf ss eq_refl)|].
      assert (Oz : okp (z ++ [rp; nl])) by (apply okp_app; [exact O2|apply okp_end|apply par_rp]). apply chain_cmd.
      + apply okp_par; [apply par_lp|]. apply word_okp; [reflexivity|apply par_sp|]. apply okp_par; [apply par_sp|]. apply okp_atom; [exact Aq|apply par_sp|]. apply okp_par; [apply par_sp|]. apply okp_par; [apply par_lp|].
        apply okp_par; [apply par_rp|]. apply okp_par; [apply par_sp|exact Oz].
      + match goal with |- context [toks ?x] => assert (Et : toks x =
          KRes (chars "declare-fun") :: KSym (chars (fst d)) :: KOpen :: KClose :: toks z ++ [KClose]) end.
        { change (KRes (chars "declare-fun") :: KSym (chars (fst d)) :: KOpen :: KClose :: toks (z ++ [rp; nl]) =
            KRes (chars "declare-fun") :: KSym (chars (fst d)) :: KOpen :: KClose :: toks z ++ [KClose]). rewrite toks_app. reflexivity. }
        rewrite Et. clear Et. intros F rest HF. cbn [List.length] in HF. rewrite app_length in HF. cbn [List.length] in HF.
        cbn [app]. rewrite Hd. unfold read_declare_fun. cbn [expect_symbol obind fst snd expect is_open]. rewrite string_chars, HD. rewrite <- app_assoc. cbn [app].
        rewrite seq_close. cbn [obind]. rewrite (pb_sort_ok F s (snd d) [] _ (KClose :: rest)) by (apply P2; lia). cbn [obind expect is_close]. rewrite <- Hst. reflexivity.
  Qed.
  (** assert *)
  Lemma assert_chain t s : rterm no_share (cf_of cf s) (pb_sorts s) [] (pb_vars s) (plain t) = true -> pb_defs s = [] -> exists l, p_assert t = ROk l /\ chain l s (add_prems s [plain t]).
  Proof.
    intros Hr HD. destruct (term_pieces _ _ _ _ Hr) as [l [El [Ol [Sl Pl]]]]. unfold p_assert. rewrite El. cbn [obind fst]. eexists. split; [reflexivity|]. apply chain_cmd.
    - apply okp_par; [apply par_lp|]. apply word_okp; [reflexivity|apply par_sp|]. apply okp_par; [apply par_sp|]. apply okp_app; [exact Ol|apply okp_end|apply par_rp].
    - match goal with |- context [toks ?x] => assert (Et : toks x = KRes (chars "assert") :: toks l ++ [KClose]) end.
      { change (KRes (chars "assert") :: toks (l ++ [rp; nl]) = KRes (chars "assert") :: toks l ++ [KClose]). rewrite toks_app. reflexivity. }
      rewrite Et. clear Et. intros F rest HF.
      cbn [List.length] in HF. rewrite app_length in HF. cbn [List.length] in HF. cbn [app]. change (read_assert cf F s ((toks l ++ [KClose]) ++ rest) = ROk (add_prems s [plain t], rest)).
      unfold read_assert, pb_term. rewrite HD, <- app_assoc. cbn [app]. rewrite Pl by lia. cbn [obind expect is_close]. unfold add_prems, set_defs. cbn. rewrite HD. reflexivity.
  Qed.
  (** commands that are skipped *)
  Lemma skip_chain x s : word_ok (chars x) = true -> is_reserved (chars x) = false -> chain [lp; kw x; rp; nl] s s.
  Proof.
    intros H1 H2. apply chain_cmd.
    - apply okp_par; [apply par_lp|]. apply word_okp; [exact H1|apply par_rp|apply okp_end].
    - intros F rest _. unfold kw. rewrite toks_word, H2. destruct rest; reflexivity.
  Qed.
End Chain.

(** ** The whole problem *)
Definition sorts_of (p : prelude) : sdecls := rev (map (fun d => (fst d, SArity (snd d))) (pr_sorts p)).
Definition rproblem (cf : pcfg) (p : prelude) (asserts : list term) : bool :=
  let c := mkP (strict cf) (subtyping cf) (expand_lets cf) (real_only (logic_of p)) in
  logic_ok (logic_of p) && forallb (fun d => name_ok (fst d) && width_ok (snd d)) (pr_sorts p) && forallb (rdecl c (sorts_of p)) (pr_funs p)
  && forallb (fun t => rterm no_share c (sorts_of p) [] (rev (pr_funs p)) (plain t)) asserts.
Definition printed_state (p : prelude) (asserts : list term) : pbstate :=
  mkPB (mkPr (Some (logic_of p)) (pr_sorts p) (pr_funs p)) (real_only (logic_of p)) (sorts_of p) (rev (pr_funs p)) [] (fold_left add_prem (map plain asserts) []).
Lemma fold_sdecl l : forall s, fold_left (fun s a => st_sdecl a s) l s =
  mkPB (mkPr (pr_logic (pb_pre s)) (pr_sorts (pb_pre s) ++ l) (pr_funs (pb_pre s))) (pb_reals s) (rev (map (fun d => (fst d, SArity (snd d))) l) ++ pb_sorts s) (pb_vars s) (pb_defs s) (pb_prems s).
Proof.
  induction l as [|d l IH]; intros s; cbn [fold_left]; [destruct s as [[] ? ? ? ? ?]; cbn; rewrite app_nil_r; reflexivity|]. rewrite IH. cbn. rewrite <- !app_assoc. destruct d; reflexivity.
Qed.
Lemma fold_decl l : forall s, fold_left (fun s a => st_decl a s) l s =
  mkPB (mkPr (pr_logic (pb_pre s)) (pr_sorts (pb_pre s)) (pr_funs (pb_pre s) ++ l)) (pb_reals s) (pb_sorts s) (rev l ++ pb_vars s) (pb_defs s) (pb_prems s).
Proof.
  induction l as [|d l IH]; intros s; cbn [fold_left]; [destruct s as [[] ? ? ? ? ?]; cbn; rewrite app_nil_r; reflexivity|]. rewrite IH. cbn. rewrite <- !app_assoc. destruct d; reflexivity.
Qed.
Lemma fold_asserts l : forall s, fold_left (fun s t => add_prems s [plain t]) l s =
  mkPB (pb_pre s) (pb_reals s) (pb_sorts s) (pb_vars s) (pb_defs s) (fold_left add_prem (map plain l) (pb_prems s)).
Proof. induction l as [|d l IH]; intros s; cbn [fold_left map]; [destruct s; reflexivity|]. rewrite IH. reflexivity. Qed.
Theorem problem_round cf ap p asserts : rproblem cf p asserts = true ->
  exists txt, print_problem p asserts = ROk txt /\ read_problem_text cf ap txt = ROk (printed_state p asserts).
Proof.
  intros H. unfold rproblem in H. set (c := mkP (strict cf) (subtyping cf) (expand_lets cf) (real_only (logic_of p))) in *.
  apply andb_true_iff in H. destruct H as [H H4]. apply andb_true_iff in H. destruct H as [H H3]. apply andb_true_iff in H. destruct H as [H1 H2]. rewrite forallb_forall in H2, H3, H4.
  pose proof (logic_chain cf ap (logic_of p) pb0 H1) as C1. set (s1 := mkPB _ _ _ _ _ _) in C1.
  destruct (chain_all cf ap p_sdecl st_sdecl rsdecl (fun _ => True)) with (l := pr_sorts p) (s := s1) as [x2 [E2 [C2 _]]]; auto.
  { intros a s Ha _. destruct (sdecl_chain cf ap a s Ha) as [l [E C]]. eauto. }
  { apply Forall_forall. exact H2. }
  rewrite fold_sdecl in C2. cbn [pb_pre pr_logic pr_sorts pr_funs pb_reals pb_sorts pb_vars pb_defs pb_prems s1 pb0 set_logic app] in C2. rewrite app_nil_r in C2. fold (sorts_of p) in C2. set (s2 := mkPB _ _ _ _ _ _) in C2.
  destruct (chain_all cf ap p_decl st_decl (fun d => rdecl c (sorts_of p) d = true) (fun s => cf_of cf s = c /\ pb_sorts s = sorts_of p /\ pb_defs s = [])) with (l := pr_funs p) (s := s2) as [x3 [E3 [C3 _]]].
  { intros a s Ha [Q1 [Q2 Q3]]. destruct (decl_chain cf ap a s) as [l [E C]]; [rewrite Q1, Q2; exact Ha|exact Q3|]. exists l. split; [exact E|]. split; [exact C|]. split; [exact Q1|]. split; [exact Q2|exact Q3]. }
  { apply Forall_forall. exact H3. }
  { repeat split. }
  rewrite fold_decl in C3. cbn [pb_pre pr_logic pr_sorts pr_funs pb_reals pb_sorts pb_vars pb_defs pb_prems s2 app] in C3. rewrite app_nil_r in C3. set (s3 := mkPB _ _ _ _ _ _) in C3.
  destruct (chain_all cf ap p_assert (fun t s => add_prems s [plain t]) (fun t => rterm no_share c (sorts_of p) [] (rev (pr_funs p)) (plain t) = true)
    (fun s => cf_of cf s = c /\ pb_sorts s = sorts_of p /\ pb_defs s = [] /\ pb_vars s = rev (pr_funs p))) with (l := asserts) (s := s3) as [x4 [E4 [C4 _]]].
  { intros a s Ha [Q1 [Q2 [Q3 Q4]]]. destruct (assert_chain cf ap a s) as [l [E C]]; [rewrite Q1, Q2, Q4; exact Ha|exact Q3|]. exists l. split; [exact E|]. split; [exact C|]. split; [exact Q1|]. split; [exact Q2|]. split; [exact Q3|exact Q4]. }
  { apply Forall_forall. exact H4. }
  { repeat split. }
  rewrite fold_asserts in C4. cbn [pb_pre pb_reals pb_sorts pb_vars pb_defs pb_prems s3] in C4. fold (printed_state p asserts) in C4.
  assert (C5 : chain cf ap [lp; kw "check-sat"; rp; nl; lp; kw "exit"; rp; nl] (printed_state p asserts) (printed_state p asserts)).
  { change [lp; kw "check-sat"; rp; nl; lp; kw "exit"; rp; nl] with ([lp; kw "check-sat"; rp; nl] ++ [lp; kw "exit"; rp; nl]). eapply chain_app; apply skip_chain; reflexivity. }
  pose proof (chain_app _ _ _ _ _ _ _ C1 (chain_app _ _ _ _ _ _ _ C2 (chain_app _ _ _ _ _ _ _ C3 (chain_app _ _ _ _ _ _ _ C4 C5)))) as [O [_ HC]].
  unfold print_problem, problem_pieces. rewrite E2. cbn [obind]. rewrite E3. cbn [obind]. rewrite E4. cbn [obind]. eexists. split; [reflexivity|].
  set (all := [lp; kw "set-logic"; sp; kw (logic_of p); rp; nl] ++ x2 ++ x3 ++ x4 ++ [lp; kw "check-sat"; rp; nl; lp; kw "exit"; rp; nl]) in *.
  unfold read_problem_text. rewrite (okp_lex_all all O). cbn [obind]. destruct (HC (fuel_for (toks all)) []) as [k [Lk Ek]]; [unfold fuel_for; lia|]. rewrite app_nil_r in Ek.
  replace (S (List.length (toks all))) with (k + (S (List.length (toks all)) - k)) by lia. rewrite Ek. destruct (S (List.length (toks all)) - k); reflexivity.
Qed.
