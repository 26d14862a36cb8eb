(** C37 (terms): a printed term is read back as the same term. C43: names in a term denote what they should, and
    definitions are expanded with their meaning. C44: reading a term does not panic. *)
From Coq Require Import List Bool NArith ZArith QArith String Lia.
From Coq Require Qcanon.
From Verif Require Import Base Term Field Sem Sorting Rules Num Utils R_Simp Subst SubstSound SubstClean SubstRefute ContextSound P_Subst Refute Lexer LexerSound TermIO TermIOSound TermIOPanic.
Import ListNotations.
Local Open Scope string_scope.

(** ** C37 *)
(** Full statement: for every way [share] of choosing the terms that get a name, every term that has been read is
    printed, and what is printed is read as the same term. It holds for readable terms ([rterm]: the symbols are
    declared, are not operators nor defined and can be printed, no [cl] without arguments, no array constant, heads of
    applications have no name, literals are in canonical form, and [op_ok] holds of applications of operators): *)
Theorem C37_terms_partial : forall share cf sdecl D E t, rterm share cf sdecl D E t = true ->
  exists txt D', print_term share t = ROk txt /\ read_term cf sdecl E D txt = ROk (t, D') /\
    forall x, prefix "@p_" x = false -> assoc x D' = assoc x D.
Proof. exact read_print. Qed.
Print Assumptions C37_terms_partial.
(** The terms of a whole proof, printed one after the other with names shared between them; each is read with the symbols of its scope. *)
Theorem C37_terms_shared_partial : forall share cf sdecl D Es ts, Forall2 (fun E t => rterm share cf sdecl D E t = true) Es ts ->
  exists txts, print_terms share ts [] = ROk txts /\ read_terms cf sdecl Es D txts = ROk ts.
Proof. exact read_print_many. Qed.
Print Assumptions C37_terms_shared_partial.

Definition cf0 : pcfg := mkP false false false false.
Definition ex_env : venv := [("p", SBool); ("f", SFun [SInt; SInt]); ("a b", SInt); ("v", SBV 8); ("g", SFun [SInt; SInt])].
Definition ex_text : text := chars "(and p (forall ((x Int) (y Int)) (= (f (+ x |a b|)) (f y))) (let ((z (f |a b|))) (= z (f |a b|))) (= ((_ extract 7 0) v) (bvadd v #b00000101)) (= (f |a b|) (- 3)))".
Definition ex_out : text := chars "(! (and p (! (forall ((x Int) (y Int)) (! (= (! (f (! (+ x |a b|) :named @p_4)) :named @p_3) (! (f y) :named @p_5)) :named @p_2)) :named @p_1) (! (let ((z (! (f |a b|) :named @p_7))) (! (= z @p_7) :named @p_8)) :named @p_6) (! (= (! ((_ extract 7 0) v) :named @p_10) (! (bvadd v (_ bv5 8)) :named @p_11)) :named @p_9) (! (= @p_7 (! (- 3) :named @p_13)) :named @p_12)) :named @p_0)".
Definition ex_term : term := match read_term cf0 [] ex_env [] ex_text with ROk (t, _) => t | _ => TSort SBool end.
Example C37_terms_ex : rterm (fun _ => true) cf0 [] [] ex_env ex_term = true /\ print_term (fun _ => true) ex_term = ROk ex_out.
Proof. split; vm_compute; reflexivity. Qed.
Example C37_terms_shared_ex : let ts := [ex_term; TOp ONot [ex_term]] in
  Forall2 (fun E t => rterm (fun _ => true) cf0 [] [] E t = true) [ex_env; ("q", SInt) :: ex_env] ts /\
  print_terms (fun _ => true) ts [] = ROk [ex_out; chars "(! (not @p_0) :named @p_14)"].
Proof.
  cbv zeta. split; [|vm_compute; reflexivity]. apply Forall2_cons; [vm_compute; reflexivity|]. apply Forall2_cons; [vm_compute; reflexivity|]. apply Forall2_nil.
Qed.

(** In general it fails. These texts are read as a term that, once printed, cannot be read: *)
Definition unreadable (share : term -> bool) (E : venv) (src out : string) : Prop :=
  exists t, read_term cf0 [] E [] (chars src) = ROk (t, []) /\ print_term share t = ROk (chars out) /\ read_term cf0 [] E [] (chars out) = RErr.
Theorem C37_terms_refuted :
  unreadable (fun _ => false) [] "(cl)" "cl" /\
  unreadable (fun _ => false) [] "((as const (Array Int Int)) 0)" "((_ const (Array Int Int)) 0)" /\
  unreadable (fun t => match t with TOp OIte _ => true | _ => false end) ex_env
    "(= ((ite p f g) 1) ((ite p f g) 2))" "(= ((! (ite p f g) :named @p_0) 1) (@p_0 2))".
Proof.
  split; [|split].
  - exists (TOp OCl []). repeat split.
  - exists (TPOp PArrayConst [TSort (SArray SInt SInt)] [TConst (CInt 0)]). repeat split.
  - eexists. split; [vm_compute; reflexivity|]. split; vm_compute; reflexivity.
Qed.
Print Assumptions C37_terms_refuted.
(** This one is read as another term, with another value: the names given to shared terms may be symbols of the problem. *)
Theorem C37_terms_names_refuted : exists share E t txt t' D', wt t = true /\
  read_term cf0 [] E [] (chars "(and (not p) (not p) (not p) @p_0)") = ROk (t, []) /\
  print_term share t = ROk txt /\ read_term cf0 [] E [] txt = ROk (t', D') /\
  forall I : interp, exists F : env I, env_ok F /\ holds F t = false /\ holds F t' = true.
Proof.
  set (np := TOp ONot [TVar "p" SBool]). set (d := TVar "@p_0" SBool).
  exists (fun t => match t with TOp ONot _ => true | _ => false end), [("p", SBool); ("@p_0", SBool)].
  exists (TOp OAnd [np; np; np; d]), (chars "(and (! (not p) :named @p_0) @p_0 @p_0 @p_0)"), (TOp OAnd [np; np; np; np]), [("@p_0", ([], np))].
  split; [reflexivity|]. split; [vm_compute; reflexivity|]. split; [vm_compute; reflexivity|]. split; [vm_compute; reflexivity|].
  intros I. destruct (env_with2 (I := I) "p" SBool (VB false) "@p_0" SBool (VB false)) as [F [HF [H1 H2]]]; [reflexivity|reflexivity|discriminate|].
  exists F. split; [exact HF|]. unfold holds, np, d. cbn [eval map eval_op forallb]. rewrite H1, H2. split; reflexivity.
Qed.
Print Assumptions C37_terms_names_refuted.

(** ** C43 *)
(** Full statement: a symbol in a term stands for the innermost variable of that name in whose scope it is, otherwise
    for the definition or declaration of that name; the application of a defined function and a [let] that is expanded
    have the value of the body where the parameters have the values of the arguments. *)
(** A variable is read as the innermost declared one if there is neither a definition nor an operator of that name: *)
Theorem C43_variables_partial : forall cf sdecl n E D s r so, let x := string_of s in
  assoc x D = None -> op_of x = None -> assoc x E = Some so ->
  parse cf sdecl (S n) MTerm E D (KSym s :: r) = ROk (TVar x so, D, r).
Proof. intros cf sdecl n E D s r so x H1 H2 H3. cbn [parse term_body]. fold x. rewrite H1, H2, H3. reflexivity. Qed.
Print Assumptions C43_variables_partial.
(** Otherwise the definition is taken, even for a bound variable: with [(define-fun x () Bool false)], the true
    statement [(exists ((x Bool)) x)] is read as one that is false. *)
Theorem C43_scoping_refuted : exists D t, read_term cf0 [] [] D (chars "(exists ((x Bool)) x)") = ROk (t, D) /\
  forall (I : interp) (F : env I), env_ok F -> holds F (TBind BExists [("x", SBool)] (TVar "x" SBool)) = true /\ holds F t = false.
Proof.
  exists [("x", ([], TOp OFalse []))], (TBind BExists [("x", SBool)] (TOp OFalse [])). split; [vm_compute; reflexivity|].
  intros I F HF. split.
  - unfold holds. cbn [eval eval_bind sort_of truth]. apply negb_true_iff. apply not_true_iff_false. rewrite eval_all_true. intros H.
    specialize (H [VB true]). assert (Hx : negb (truth (upds F [("x", SBool)] [VB true] "x" SBool)) = true) by (apply H; repeat constructor). revert Hx. cbn. discriminate.
  - unfold holds. cbn [eval eval_bind sort_of truth]. apply negb_false_iff. rewrite eval_all_true. intros vs _. reflexivity.
Qed.
Print Assumptions C43_scoping_refuted.
(** Applications of defined functions and [let]s that are expanded. *)
Definition expands (params : list (string * sort)) (args : list term) (body t : term) : Prop :=
  wt t = true /\ sort_of t = sort_of body /\
  forall (I : interp) (F : env I), eval t F = eval body (upds F params (map (fun a => eval a F) args)).
Lemma fold_sins_get : forall ps m x s I (F : env I),
  sub_env (fold_left (fun m p => sins m (TVar (fst (fst p)) (snd (fst p))) (snd p)) ps m) F x s =
  upds (sub_env m F) (map fst ps) (map (fun p => eval (snd p) F) ps) x s.
Proof.
  induction ps as [|[[y sy] a] ps IH]; intros m x s I F; [reflexivity|]. cbn [fold_left map fst snd upds]. rewrite IH.
  assert (Hu : forall vs vals (G H : env I), (forall x s, G x s = H x s) -> upds G vs vals x s = upds H vs vals x s).
  { clear. induction vs as [|[z sz] vs IH]; intros vals G H HGH; [apply HGH|]. destruct vals; [apply HGH|]. cbn. apply IH. intros x' s'. unfold upd. rewrite HGH. reflexivity. }
  apply Hu. intros x' s'. unfold sub_env, upd. rewrite sget_sins. cbn [term_eqb]. destruct (String.eqb x' y && sort_eqb s' sy); reflexivity.
Qed.
Lemma fold_sins_In : forall ps m k v, In (k, v) (fold_left (fun m p => sins m (TVar (fst (fst p)) (snd (fst p))) (snd p)) ps m) ->
  In (k, v) m \/ exists p, In p ps /\ k = TVar (fst (fst p)) (snd (fst p)) /\ v = snd p.
Proof.
  induction ps as [|p ps IH]; intros m k v H; [auto|]. cbn [fold_left] in H. apply IH in H. destruct H as [H|[q [H1 H2]]].
  - apply sins_In in H. destruct H as [H|[H1 H2]]; [auto|]. right. exists p. split; [left; reflexivity|auto].
  - right. exists q. split; [right; auto|auto].
Qed.
(** the names of the parameters and of the variables of the arguments *)
Definition used_names (params : list (string * sort)) (args : list term) : list string :=
  map fst params ++ flat_map (fun a => map fst (fvars a)) args.
Lemma expand_ok params args body : List.length params = List.length args -> map snd params = map sort_of args ->
  wt body = true -> no_let body = true -> (forall a, In a args -> wt a = true /\ no_let a = true) ->
  (forall x, In x (bnames body) -> ~ In x (used_names params args)) ->
  exists t, subst (fold_left (fun m p => sins m (TVar (fst (fst p)) (snd (fst p))) (snd p)) (combine params args) []) body = ROk t /\
    expands params args body t.
Proof.
  intros Hl Hs Hw Hn Ha Hb. set (m := fold_left _ _ _).
  assert (Hin : forall k v, In (k, v) m -> exists x s, k = TVar x s /\ sort_of v = s /\ In (x, s) params /\ In v args).
  { intros k v H. apply fold_sins_In in H. destruct H as [[]|[[[x s] a] [H1 [-> ->]]]]. exists x, s. cbn [fst snd]. split; [reflexivity|].
    split; [|split; [eapply in_combine_l; eauto|eapply in_combine_r; eauto]].
    clear m Ha Hb. revert args Hl Hs H1. clear. induction params as [|[y sy] ps IH]; intros [|b args] Hl Hs H1; try (destruct H1; fail); try discriminate.
    cbn in Hs. injection Hs as H2 H3. cbn in H1. destruct H1 as [H1|H1]; [injection H1 as <- <- <-; auto|]. apply (IH args); auto. }
  assert (Hwm : well_sorted_map m).
  { intros k v H. destruct (Hin k v H) as [x [s [H1 [H2 [H3 H4]]]]]. exists x, s. destruct (Ha v H4). auto. }
  destruct (C17_subst_textbook_partial m body Hwm Hw Hn) as [H1 [H2 [H3 H4]]].
  { intros x Hx Hx'. apply (Hb x Hx). unfold names_of, sbr_of in Hx'. apply in_flat_map in Hx'. destruct Hx' as [[k v] [Hk Hx']].
    destruct (Hin k v Hk) as [y [s [-> [_ [Hp Hv]]]]]. cbn [fst snd] in Hx'. unfold sbr1 in Hx'. destruct (term_eqb _ _); [destruct Hx'|].
    unfold used_names. apply in_or_app. apply in_app_or in Hx'. destruct Hx' as [Hx'|[Hx'|[]]].
    - right. apply in_flat_map. eauto.
    - left. subst. apply in_map_iff. exists (x, s). auto. }
  exists (nsub m body). split; [exact H1|]. split; [exact H2|]. split; [exact H3|]. intros I F. rewrite H4. apply eval_ext. intros x s.
  unfold m. rewrite fold_sins_get. f_equal.
  - clear - Hl. revert args Hl. induction params as [|p ps IH]; intros [|a args] Hl; try discriminate; [reflexivity|]. cbn. f_equal. apply IH. auto.
  - clear - Hl. revert args Hl. induction params as [|p ps IH]; intros [|a args] Hl; try discriminate; [reflexivity|]. cbn. f_equal. apply IH. auto.
Qed.
(** Both are right if no [let] is involved and no name of a parameter or of a variable of an argument is bound in the body: *)
Theorem C43_define_fun_partial : forall params body args,
  List.length args = List.length params -> map snd params = map sort_of args ->
  wt body = true -> no_let body = true -> (forall a, In a args -> wt a = true /\ no_let a = true) ->
  (forall x, In x (bnames body) -> ~ In x (used_names params args)) ->
  exists t, fapply (params, body) args = ROk t /\ expands params args body t.
Proof.
  intros params body args Hl Hs Hw Hn Ha Hb. unfold fapply. cbn [fst snd]. rewrite Hl, Nat.eqb_refl. cbn [negb].
  destruct (expand_ok params args body (eq_sym Hl) Hs Hw Hn Ha Hb) as [t [H1 H2]]. destruct args as [|a args].
  - destruct params; [|discriminate]. exists body. split; [reflexivity|]. split; [exact Hw|]. split; [reflexivity|]. reflexivity.
  - exists t. split; [|exact H2]. unfold rassert. rewrite Hs. replace (list_eqb sort_eqb _ _) with true by (symmetry; apply list_eqb_eq; [intros; apply sort_eqb_eq|reflexivity]).
    cbn [obind]. exact H1.
Qed.
Print Assumptions C43_define_fun_partial.
Theorem C43_let_partial : forall bs body, wt body = true -> no_let body = true ->
  (forall b, In b bs -> wt (snd b) = true /\ no_let (snd b) = true) ->
  (forall x, In x (bnames body) -> ~ In x (used_names (map (fun b => (fst b, sort_of (snd b))) bs) (map snd bs))) ->
  exists t, expand bs body = ROk t /\ wt t = true /\ sort_of t = sort_of body /\
    forall (I : interp) (F : env I), eval t F = eval (TLet bs body) F.
Proof.
  intros bs body Hw Hn Ha Hb.
  destruct (expand_ok (map (fun b => (fst b, sort_of (snd b))) bs) (map snd bs) body) as [t [H1 [H2 [H3 H4]]]]; auto.
  - rewrite !map_length. reflexivity.
  - rewrite !map_map. reflexivity.
  - intros a H. apply in_map_iff in H. destruct H as [b [<- H]]. auto.
  - exists t. split; [|split; [exact H2|split; [exact H3|intros I F; rewrite H4; cbn [eval]; rewrite map_map; reflexivity]]].
    unfold expand. rewrite <- H1. f_equal. clear. generalize (@nil (term * term)). induction bs as [|b bs IH]; intros m; [reflexivity|]. cbn. apply IH.
Qed.
Print Assumptions C43_let_partial.
Example C43_define_fun_ex : let params := [("x", SInt); ("y", SInt)] in
  let body := TBind BForall [("z", SInt)] (TOp OLt [TVar "x" SInt; TOp OAdd [TVar "y" SInt; TVar "z" SInt]]) in
  let args := [TVar "y" SInt; TOp OAdd [TVar "x" SInt; TConst (CInt 1)]] in
  map snd params = map sort_of args /\ wt body = true /\ (forall a, In a args -> wt a = true /\ no_let a = true) /\
  (forall x, In x (bnames body) -> ~ In x (used_names params args)) /\
  fapply (params, body) args = ROk (TBind BForall [("z", SInt)] (TOp OLt [TVar "y" SInt; TOp OAdd [TOp OAdd [TVar "x" SInt; TConst (CInt 1)]; TVar "z" SInt]])) /\
  read_term cf0 [] [("y", SInt); ("x", SInt)] [("f", (params, body))] (chars "(f y (+ x 1))") =
    do t <- fapply (params, body) args ; ROk (t, [("f", (params, body))]).
Proof.
  cbv zeta. split; [reflexivity|]. split; [reflexivity|]. split; [intros a [<-|[<-|[]]]; split; reflexivity|].
  split; [intros x [<-|[]]; vm_compute; intuition discriminate|]. split; vm_compute; reflexivity.
Qed.
Example C43_let_ex : read_term (mkP false false true false) [] [("y", SInt)] [] (chars "(let ((x y) (y 1)) (< x y))")
  = ROk (TOp OLt [TVar "y" SInt; TConst (CInt 1)], []).
Proof. vm_compute. reflexivity. Qed.
(** In general it fails: with [(define-fun f ((x Int)) Bool (forall ((y Int)) (= y' y)))], the bound variable is renamed
    to [y'] and captures the free one; [(f y)] is read as [(forall ((y' Int)) (= y' y'))]. *)
Theorem C43_define_fun_refuted : exists params body args t,
  List.length args = List.length params /\ map snd params = map sort_of args /\ wt body = true /\ no_let body = true /\
  read_term cf0 [] [("y", SInt); ("y'", SInt)] [("f", (params, body))] (chars "(f y)") = ROk (t, [("f", (params, body))]) /\
  fapply (params, body) args = ROk t /\
  forall (I : interp) (F : env I), holds F t = true /\ holds (upds F params (map (fun a => eval a F) args)) body = false.
Proof.
  destruct subst_capture_refuted as [H1 [H2 [H3 [t [H4 H5]]]]]. exists [("x", SInt)], cap_t, [vi "y"], t.
  assert (Hf : fapply ([("x", SInt)], cap_t) [vi "y"] = ROk t) by (rewrite <- H4; reflexivity).
  split; [reflexivity|]. split; [reflexivity|]. split; [exact H2|]. split; [exact H3|]. split.
  - assert (Hr : read_term cf0 [] [("y", SInt); ("y'", SInt)] [("f", ([("x", SInt)], cap_t))] (chars "(f y)") =
      do t <- fapply ([("x", SInt)], cap_t) [vi "y"] ; ROk (t, [("f", ([("x", SInt)], cap_t))])) by (vm_compute; reflexivity).
    rewrite Hr, Hf. reflexivity.
  - split; [exact Hf|]. intros I F. destruct (H5 I F) as [H6 H7]. split; [exact H6|]. refine (eq_trans _ H7). apply holds_ext. intros x s.
    unfold sub_env, cap_m, vi, upd. cbn [upds map]. unfold upd. cbn [sget im_get]. unfold sget. cbn [im_get]. cbn [term_eqb].
    destruct (String.eqb x "x" && sort_eqb s SInt); reflexivity.
Qed.
Print Assumptions C43_define_fun_refuted.
(** When a division of two integer numerals is read as one rational numeral instead of an application: exactly for positive coprime numerals other than 1/1,
    and then it has the value of the division.  So [(/ 2 4)] stays an application and is printed back as it was. *)
Theorem C43_division_literal : forall cf x y q, div_lit cf (tInt x) (tInt y) = Some q <->
  (0 < x /\ 0 < y /\ Znumtheory.rel_prime x y /\ ~ (x = 1 /\ y = 1))%Z /\ q = Qmake x (Z.to_pos y).
Proof.
  intros cf x y q. unfold div_lit. cbn [as_lit tInt]. rewrite <- Znumtheory.Zgcd_1_rel_prime. split.
  - intros H. destruct (Z.ltb 0 x) eqn:E1; [|discriminate]. destruct (Z.ltb 0 y) eqn:E2; [|discriminate]. destruct (Z.eqb x 1 && Z.eqb y 1) eqn:E3; [discriminate|].
    destruct (Z.eqb (Z.gcd x y) 1) eqn:E4; [|discriminate]. cbn [andb negb] in H. injection H as <-. apply Z.ltb_lt in E1, E2. apply Z.eqb_eq in E4. split; [repeat split; auto|].
    + intros [-> ->]. discriminate.
    + change (Qred (x # Z.to_pos y) = x # Z.to_pos y). apply Coq.QArith.Qcanon.Qred_identity. cbn [Qnum Qden]. rewrite Z2Pos.id by exact E2. exact E4.
  - intros [(H1 & H2 & H3 & H4) ->]. apply Z.ltb_lt in H1 as E1. apply Z.ltb_lt in H2 as E2. apply Z.eqb_eq in H3 as E3. rewrite E1, E2, E3. cbn [andb].
    assert (E4 : Z.eqb x 1 && Z.eqb y 1 = false). { destruct (Z.eqb_spec x 1), (Z.eqb_spec y 1); cbn; tauto. }
    rewrite E4. cbn [negb andb]. f_equal. apply Coq.QArith.Qcanon.Qred_identity. cbn [Qnum Qden]. rewrite Z2Pos.id by exact H2. exact H3.
Qed.
Print Assumptions C43_division_literal.
Example C43_division_ex : read_term (mkP false false false true) [] [] [] (chars "(/ 2 4)") = ROk (TOp ORealDiv [TConst (CReal 2); TConst (CReal 4)], []) /\
  read_term (mkP false false false true) [] [] [] (chars "(/ 3 4)") = ROk (TConst (CReal (3 # 4)), []).
Proof. split; vm_compute; reflexivity. Qed.

(** A division of two coprime positive numerals is read as a literal, and further arguments are dropped. *)
Theorem C43_division_refuted : exists t, read_term (mkP false false false true) [] [] [] (chars "(/ 1 2 3)") = ROk (t, []) /\
  forall (I : interp) (F : env I), eval t F <> eval (TOp ORealDiv [TConst (CReal 1); TConst (CReal (inject_Z 2)); TConst (CReal (inject_Z 3))]) F.
Proof.
  exists (TConst (CReal (1 # 2))). split; [vm_compute; reflexivity|]. intros I F. cbn [eval map eval_op eval_const fold1 fold_left].
  assert (Hd : forall p q, Qeq_bool q 0 = false -> rdiv (I := I) (VN (injQ p)) (VN (injQ q)) = VN (injQ (p / q))).
  { intros p q Hq. unfold rdiv. cbn [num]. rewrite <- (injQ_0 (iF I)), injQ_eqb, Hq. f_equal. symmetry. apply injQ_div. intros H. apply Qeq_bool_iff in H. congruence. }
  rewrite !Hd by reflexivity. intros H. injection H as H. apply injQ_inj in H. discriminate.
Qed.
Print Assumptions C43_division_refuted.

(** ** C44 *)
(** Full statement: reading a text never panics. These texts do make the parser panic: *)
Theorem C44_no_panic_refuted : Forall (fun s => read_term cf0 [] [("x", SInt)] [] (chars s) = RPanic)
  ["@d"; "(_ bvnot 3)"; "(_ bv5 -1)"; "(_ bv5 18446744073709551616)"; "(forall ((y (_ BitVec -1))) true)"; "((_ int_to_bv -3) x)"; "(= x 1/)"] /\
  (exists D, read_term cf0 [] [] D (chars "(f true)") = RPanic).
Proof.
  split; [do 7 (apply Forall_cons; [vm_compute; reflexivity|]); apply Forall_nil|]. exists [("f", ([("x", SBool)], TLet [("z", vb "x")] (vb "z")))]. vm_compute. reflexivity.
Qed.
Print Assumptions C44_no_panic_refuted.
(** What holds: a text that is cut into tokens without a panic is read without a panic if ([safe]) the indices after [_]
    are numerals below 2^64 and a symbol that begins with [bv] there goes on with a number, there is no [@d] and no
    [eo], and no [let] if they are to be expanded, and ([safe_defs]) the bodies of defined functions have no [let]. *)
Theorem C44_no_panic_partial : forall cf sdecl E D txt, (forall ts, lex_all txt = ROk ts -> safe cf any any ts = true) -> lex_all txt <> RPanic -> safe_defs D ->
  read_term cf sdecl E D txt <> RPanic.
Proof. intros cf sdecl. exact (read_term_no_panic cf any any sdecl). Qed.
Print Assumptions C44_no_panic_partial.
Example C44_ex : (exists ts, lex_all ex_out = ROk ts /\ safe cf0 any any ts = true) /\ (exists ts, lex_all (chars "(and (_ bv3 8) (let x))") = ROk ts /\ safe cf0 any any ts = true) /\
  safe_defs [("f", ([("x", SBool)], TOp ONot [vb "x"]))].
Proof.
  split; [|split].
  - eexists. split; [vm_compute; reflexivity|]. vm_compute. reflexivity.
  - eexists. split; [vm_compute; reflexivity|]. vm_compute. reflexivity.
  - intros x d. cbn. destruct (String.eqb _ _); [|discriminate]. intros H. injection H as <-. right. reflexivity.
Qed.
