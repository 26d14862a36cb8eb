(** C57: the functions that a problem defines have the meaning of their definitions. *)
From Coq Require Import List Bool NArith ZArith Arith String Lia.
From Verif Require Import Base Term Sem Sorting Utils Rules Checker Subst SubstSound SubstClean Lexer TermIO P_TermIO Parser ProofIO ProblemIO ProblemPanic P_Problem.
Import ListNotations.
Local Open Scope string_scope.
Local Open Scope list_scope.

Local Notation doms I := (Forall2 (fun s v => idom I s v = true)).
(** ** Specification *)
(** The symbol [f] of sort [fs] is the function with these parameters and this body. *)
Definition is_function {I : interp} (E : env I) (f : string) (fs : sort) (params : list (string * sort)) (body : term) : Prop :=
  forall vals, doms I (map snd params) vals -> match params with [] => E f fs | _ => iapp I (E f fs) vals end = eval body (upds E params vals).
(** a premise that holds exactly if [f] is this function *)
Definition says_function (f : string) (fs : sort) (params : list (string * sort)) (body p : term) : Prop :=
  NoDup params -> ~ In (f, fs) params -> forall (I : interp) (E : env I), holds E p = true <-> is_function E f fs params body.

Lemma eval_params {I} (params : list (string * sort)) : forall (E : env I) vals, NoDup params -> doms I (map snd params) vals ->
  map (fun a => eval a (upds E params vals)) (map (fun v => TVar (fst v) (snd v)) params) = vals.
Proof.
  induction params as [|[x s] r IH]; intros E vals Hn Hd; inversion Hd; subst; [reflexivity|]. inversion Hn; subst. cbn [map upds fst snd]. f_equal; [|apply IH; auto].
  cbn [eval]. rewrite upds_notin by assumption. unfold upd. rewrite String.eqb_refl. replace (sort_eqb s s) with true by (symmetry; apply sort_eqb_eq; reflexivity). reflexivity.
Qed.
Lemma rec_prem_says E0 f fs params body p : assoc f E0 = Some fs -> rec_prem E0 f params body = ROk p -> says_function f fs params body p.
Proof.
  intros Ha H Hn Hf I E. unfold rec_prem in H. rewrite Ha in H. injection H as <-. unfold is_function. destruct params as [|v ps].
  - unfold holds. cbn [eval]. split.
    + intros H vals Hd. inversion Hd; subst. cbn in H |- *. rewrite andb_true_r in H. apply veqb_eq in H. exact H.
    + intros H. specialize (H [] (Forall2_nil _)). cbn in H |- *. rewrite H, andb_true_r. apply veqb_eq. reflexivity.
  - set (params := v :: ps) in *. unfold holds. cbn [eval eval_bind truth]. rewrite eval_all_true.
    assert (He : forall vals, doms I (map snd params) vals ->
      truth (eval (TOp OEquals [TApp (TVar f fs) (map (fun v => TVar (fst v) (snd v)) params); body]) (upds E params vals)) = true <-> iapp I (E f fs) vals = eval body (upds E params vals)).
    { intros vals Hd. cbn [eval map]. rewrite (eval_params params E vals Hn Hd). rewrite (upds_notin params vals E f fs Hf). cbn. rewrite andb_true_r. apply veqb_eq. }
    split; intros H vals Hd; apply (He vals Hd), H; exact Hd.
Qed.

(** ** Recursive definitions *)
Section Recs.
  Variables (cf : pcfg) (F : nat).
  Lemma bodies_spec : forall decs s ts s' r, read_bodies cf F s decs ts = ROk (s', r) ->
    exists l : list (term * term), pb_prems s' = fold_left add_prem (map snd l) (pb_prems s) /\
      Forall2 (fun d bp => let '(f, params, so) := d in exists fs D ts1 D' r',
        term_of_sort (cf_of cf s) (pb_sorts s) F so (rev params ++ pb_vars s) D ts1 = ROk (fst bp, D', r') /\ assoc f (pb_vars s) = Some fs /\ says_function f fs params (fst bp) (snd bp)) decs l.
  Proof.
    induction decs as [|[[f params] so] decs IH]; intros s ts s' r H; cbn [read_bodies] in H.
    - injection H as <- <-. exists []. split; [reflexivity|constructor].
    - apply obind_ok in H. destruct H as [[[body D1] r1] [Hb H]]. apply obind_ok in H. destruct H as [p [Hp H]]. destruct (IH _ _ _ _ H) as [l [H1 H2]]. exists ((body, p) :: l).
      split; [rewrite H1; reflexivity|]. constructor; [|exact H2]. destruct (assoc f (pb_vars s)) as [fs|] eqn:Ef; [|unfold rec_prem in Hp; rewrite Ef in Hp; discriminate].
      exists fs. do 4 eexists. split; [exact Hb|]. split; [reflexivity|]. eapply rec_prem_says; eauto.
  Qed.
End Recs.
Lemma assoc_rec decs : forall E f params so, NoDup (map (fun d : string * list (string * sort) * sort => fst (fst d)) decs) -> In (f, params, so) decs ->
  assoc f (fold_left (fun E d => let '(f, params, so) := d in (f, rec_sort params so) :: E) decs E) = Some (rec_sort params so).
Proof.
  assert (Hk : forall decs E x, ~ In x (map (fun d : string * list (string * sort) * sort => fst (fst d)) decs) ->
    assoc x (fold_left (fun E (d : string * list (string * sort) * sort) => let '(f, params, so) := d in (f, rec_sort params so) :: E) decs E) = assoc x E).
  { clear. induction decs as [|[[f params] so] decs IH]; intros E x H; cbn [fold_left]; auto. cbn in H. rewrite IH by tauto. cbn. destruct (String.eqb x f) eqn:Ex; [|reflexivity].
    apply String.eqb_eq in Ex. exfalso. apply H. left. congruence. }
  induction decs as [|[[g ps] sg] decs IH]; intros E f params so Hn Hd; [destruct Hd|]. cbn [map fst] in Hn. inversion Hn; subst. cbn [fold_left]. destruct Hd as [Hd|Hd]; [|auto].
  injection Hd as -> -> ->. rewrite Hk by assumption. cbn. rewrite String.eqb_refl. reflexivity.
Qed.
(** [define-fun-rec]: one premise is added, and it says that the function is the one with the parameters and the body that are read. The body is read where the function is
    declared, and with the parameters in scope. *)
Theorem C57_rec_partial : forall cf F s ts s' r, read_define_rec cf F s ts = ROk (s', r) ->
  exists f params so D1 r1, read_dec cf F s (pb_defs s) ts = ROk ((f, params, so), D1, r1) /\
  exists body p D ts1 D' r', term_of_sort (cf_of cf s) (pb_sorts s) F so (rev params ++ (f, rec_sort params so) :: pb_vars s) D ts1 = ROk (body, D', r') /\
    pb_prems s' = add_prem (pb_prems s) p /\ says_function f (rec_sort params so) params body p.
Proof.
  intros cf F s ts s' r H. unfold read_define_rec in H. apply obind_ok in H. destruct H as [[[[[f params] so] D1] r1] [Hd H]]. apply obind_ok in H. destruct H as [[s2 r2] [Hb H]].
  apply obind_ok in H. destruct H as [r3 [_ H]]. injection H as <- _. exists f, params, so, D1, r1. split; [exact Hd|]. destruct (bodies_spec _ _ _ _ _ _ _ Hb) as [l [H1 H2]].
  inversion H2 as [|d [body p] ds l' Hx Hl]; subst. inversion Hl; subst. destruct Hx as (fs & D & ts1 & D' & r' & Ht & Ha & Hs). cbn [fst snd] in *.
  assert (fs = rec_sort params so) as ->. { cbn [declare_recs set_vars pb_vars fold_left set_defs assoc] in Ha. rewrite String.eqb_refl in Ha. congruence. }
  exists body, p, D, ts1, D', r'. split; [exact Ht|]. split; [exact H1|exact Hs].
Qed.
Print Assumptions C57_rec_partial.
(** [define-funs-rec] with different names: one premise for each function, in order, each read where all functions are declared. *)
Theorem C57_recs_partial : forall cf F s ts s' r, read_define_recs cf F s ts = ROk (s', r) ->
  exists decs E (l : list (term * term)), pb_prems s' = fold_left add_prem (map snd l) (pb_prems s) /\ List.length l = List.length decs /\ decs <> [] /\
    (NoDup (map (fun d => fst (fst d)) decs) -> Forall2 (fun d bp => let '(f, params, so) := d in
      assoc f E = Some (rec_sort params so) /\ (exists D ts1 D' r', term_of_sort (cf_of cf s) (pb_sorts s) F so (rev params ++ E) D ts1 = ROk (fst bp, D', r')) /\
      says_function f (rec_sort params so) params (fst bp) (snd bp)) decs l).
Proof.
  intros cf F s ts s' r H. unfold read_define_recs in H. apply obind_ok in H. destruct H as [r0 [_ H]]. apply obind_ok in H. destruct H as [[[ds D1] r1] [Hd H]].
  apply obind_ok in H. destruct H as [r2 [_ H]]. apply obind_ok in H. destruct H as [[s2 r3] [Hb H]]. apply obind_ok in H. destruct H as [r4 [_ H]]. apply obind_ok in H. destruct H as [r5 [_ H]]. injection H as <- _.
  destruct (bodies_spec _ _ _ _ _ _ _ Hb) as [l [H1 H2]]. exists ds, (pb_vars (declare_recs (set_defs s D1) ds)), l. split; [exact H1|]. split; [clear - H2; induction H2; cbn; congruence|].
  split; [unfold seq1 in Hd; apply obind_ok in Hd; destruct Hd as [[[l0 ?] ?] [_ Hd]]; destruct l0; cbn in Hd; [discriminate|injection Hd as <- _ _; discriminate]|].
  intros Hn. assert (Hi : forall f params so, In (f, params, so) ds -> assoc f (pb_vars (declare_recs (set_defs s D1) ds)) = Some (rec_sort params so)) by (intros; apply assoc_rec; assumption).
  clear H1 Hn Hd Hb. revert H2 Hi. change (cf_of cf (declare_recs (set_defs s D1) ds)) with (cf_of cf s). change (pb_sorts (declare_recs (set_defs s D1) ds)) with (pb_sorts s).
  generalize (pb_vars (declare_recs (set_defs s D1) ds)). intros E H2 Hi. induction H2 as [|[[f params] so] bp ds l Hx _ IH]; constructor; [|apply IH; intros; apply Hi; right; assumption].
  destruct Hx as (fs & D & ts1 & D' & r' & Ht & Ha & Hs). pose proof (Hi f params so (or_introl eq_refl)) as Hf. split; [exact Hf|]. assert (fs = rec_sort params so) as -> by congruence.
  split; [exists D, ts1, D', r'; exact Ht|exact Hs].
Qed.
Print Assumptions C57_recs_partial.

(** ** Definitions that are not recursive *)
(** If definitions are not applied, a premise says that the symbol has the value of the body, or of the function with these parameters and this body. *)
Theorem C57_define_partial : forall cf F s ts s' r, read_define_fun cf false F s ts = ROk (s', r) ->
  exists f params so D1 r1 body D2 r2, read_dec cf F s (pb_defs s) ts = ROk ((f, params, so), D1, r1) /\
    term_of_sort (cf_of cf s) (pb_sorts s) F so (rev params ++ pb_vars s) D1 r1 = ROk (body, D2, r2) /\ assoc f (pb_vars s') = Some (rec_sort params so) /\
    exists p, pb_prems s' = add_prem (pb_prems s) p /\
      forall (I : interp) (E : env I), holds E p = true <->
        E f (rec_sort params so) = match params with [] => eval body E | _ => ilam I (map snd params) (num_erase so) (fun vals => eval body (upds E params vals)) end.
Proof.
  intros cf F s ts s' r H. unfold read_define_fun in H. apply obind_ok in H. destruct H as [[[[[f params] so] D1] r1] [Hd H]]. apply obind_ok in H. destruct H as [[[body D2] r2] [Hb H]].
  apply obind_ok in H. destruct H as [r3 [_ H]]. injection H as <- _. exists f, params, so, D1, r1, body, D2, r2. split; [exact Hd|]. split; [exact Hb|].
  assert (Hs : sort_of body = so). { unfold read_body, term_of_sort in Hb. apply obind_ok in Hb. destruct Hb as [[[t D3] r4] [_ Hb]]. unfold rassert in Hb. destruct (sort_eqb so (sort_of t)) eqn:E; [|discriminate].
    cbn in Hb. injection Hb as <- _ _. apply sort_eqb_eq in E. congruence. }
  assert (Hl : sort_of (match params with [] => body | _ => TBind BLambda params body end) = rec_sort params so). { destruct params; [exact Hs|]. cbn [sort_of rec_sort]. rewrite Hs. reflexivity. }
  rewrite Hl. split; [cbn; rewrite String.eqb_refl; reflexivity|]. eexists. split; [reflexivity|]. intros I E. unfold holds. cbn [eval map]. cbn [eval_op truth chain]. rewrite <- Hs.
  destruct params as [|v ps]; [cbn; rewrite andb_true_r; apply veqb_eq|]. cbn [eval eval_bind]. cbn. rewrite andb_true_r. apply veqb_eq.
Qed.
Print Assumptions C57_define_partial.
(** If definitions are applied, the function is replaced by its body wherever it is applied, with the arguments for the parameters. The conditions on the names are those of
    [C43_define_fun_partial]. *)
Theorem C57_applied_partial : forall cf F s ts s' r, read_define_fun cf true F s ts = ROk (s', r) ->
  exists f params so D1 r1 body D2 r2, read_dec cf F s (pb_defs s) ts = ROk ((f, params, so), D1, r1) /\
    term_of_sort (cf_of cf s) (pb_sorts s) F so (rev params ++ pb_vars s) D1 r1 = ROk (body, D2, r2) /\ pb_prems s' = pb_prems s /\
    exists d, assoc f (pb_defs s') = Some d /\
      forall args, List.length args = List.length params -> map snd params = map sort_of args -> wt body = true -> no_let body = true -> (forall a, In a args -> wt a = true /\ no_let a = true) ->
        (forall x, In x (bnames body) -> ~ In x (used_names params args)) ->
        exists t, fapply d args = ROk t /\ forall (I : interp) (E : env I), eval t E = eval body (upds E params (map (fun a => eval a E) args)).
Proof.
  intros cf F s ts s' r H. unfold read_define_fun in H. apply obind_ok in H. destruct H as [[[[[f params] so] D1] r1] [Hd H]]. apply obind_ok in H. destruct H as [[[body D2] r2] [Hb H]].
  apply obind_ok in H. destruct H as [r3 [_ H]]. injection H as <- _. exists f, params, so, D1, r1, body, D2, r2. split; [exact Hd|]. split; [exact Hb|]. split; [reflexivity|].
  exists (params, body). split; [cbn; rewrite String.eqb_refl; reflexivity|]. intros args H1 H2 H3 H4 H5 H6. destruct (C43_define_fun_partial params body args H1 H2 H3 H4 H5 H6) as [t [Ht [_ [_ He]]]]. eauto.
Qed.
Print Assumptions C57_applied_partial.
(** the definitions of a text, with two parameters each *)
Definition xi : term := TVar "x" SInt.
Definition yi : term := TVar "y" SInt.
Definition fi (f : string) : term := TVar f (SFun [SInt; SInt; SInt]).
Definition df_text : text := chars "(define-fun f ((x Int) (y Int)) Int (- x y)) (define-fun-rec g ((x Int) (y Int)) Int (ite (< x y) (g y x) (- x y))) (assert (= (f 5 3) (g 3 5)))".
Example C57_ex :
  (exists s, read_problem_text cf0 true df_text = ROk s /\ assoc "f" (pb_defs s) = Some ([("x", SInt); ("y", SInt)], TOp OSub [xi; yi]) /\
    pb_prems s = [TBind BForall [("x", SInt); ("y", SInt)] (tEq (TApp (fi "g") [xi; yi]) (TOp OIte [TOp OLt [xi; yi]; TApp (fi "g") [yi; xi]; TOp OSub [xi; yi]]));
                  tEq (TOp OSub [tInt 5; tInt 3]) (TApp (fi "g") [tInt 3; tInt 5])]) /\
  (exists s, read_problem_text cf0 false df_text = ROk s /\ pb_defs s = [] /\
    pb_prems s = [tEq (fi "f") (TBind BLambda [("x", SInt); ("y", SInt)] (TOp OSub [xi; yi]));
                  TBind BForall [("x", SInt); ("y", SInt)] (tEq (TApp (fi "g") [xi; yi]) (TOp OIte [TOp OLt [xi; yi]; TApp (fi "g") [yi; xi]; TOp OSub [xi; yi]]));
                  tEq (TApp (fi "f") [tInt 5; tInt 3]) (TApp (fi "g") [tInt 3; tInt 5])]).
Proof.
  split; match goal with |- exists _, read_problem_text ?a ?b ?c = _ /\ _ => let r := eval vm_compute in (read_problem_text a b c) in match r with ROk ?s => exists s end end;
    (split; [vm_compute; reflexivity|]; split; reflexivity).
Qed.
