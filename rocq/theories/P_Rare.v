(** C45: RARE rewrite rules. *)
From Coq Require Import List String Ascii NArith ZArith QArith Bool Arith Lia.
From Verif Require Import Base Term Field Sem Sorting Rules Refute Utils R_Simp Subst SubstSound SubstClean SubstRefute
  Checker CheckerSound CheckerSem CheckerRefute Table R_Rare RareSound FullTable.
Import ListNotations.
Local Open Scope string_scope.

(** ** The rewriting after the substitution always ends, in a term. *)
Theorem C45_rewrite_total : forall t, exists t', rewrite_meta t = ROk t'.
Proof. exact rewrite_meta_total. Qed.
Print Assumptions C45_rewrite_total.
(** It computes the splicing of the lists, up to a term of the same sort and value, as soon as the spliced term is
    well-sorted. (An [and] or [or] without arguments is not.) *)
Theorem C45_rewrite_partial : forall t t', rewrite_meta t = ROk t' -> wt t' = true -> wt (flat t) = true ->
  sort_of t' = sort_of (flat t) /\ forall (I : interp) (E : env I), eval t' E = eval (flat t) E.
Proof. exact rewrite_meta_sem. Qed.
Print Assumptions C45_rewrite_partial.

(** ** C45, full statement: an accepted step of a valid rule is entailed by its premises. What holds: this is so if the arguments
    are well-sorted terms or lists of such, no variable bound in the rule is a parameter or occurs in an argument, there is
    no [let], and the instances of premises and conclusion are well-sorted ([rare_ok]). *)
Theorem C45_rare_partial : forall rules c ps name ts r, r_rare rules c ps (TConst (CStr name) :: ts) = ROk tt ->
  rare_find rules name = Some r -> rare_valid r -> rare_ok rules c ps (TConst (CStr name) :: ts) = true ->
  clause_wt c = true -> forallb clause_wt ps = true -> entails ps c.
Proof. exact rare_step_sound. Qed.
Print Assumptions C45_rare_partial.
(** For a rule without lists and polymorphic sorts, "valid" just means that its premises imply its conclusion. *)
Theorem C45_plain_rules_partial : forall r, mono r = true -> (forall t, In t (rr_concl r :: rr_prems r) -> bool_term t = true) ->
  entails (map (fun p => [p]) (rr_prems r)) [rr_concl r] -> rare_valid r.
Proof. exact mono_valid. Qed.
Print Assumptions C45_plain_rules_partial.

(** ** Concrete cases *)
(** the text of a name *)
Definition txt (s : string) : list N := map (fun a => N_of_ascii a) (list_ascii_of_string s).
(** (declare-rare-rule and-absorb ((x Bool) (y Bool)) :premises ((= x true)) :args (x y) :conclusion (= (and x y) y)) *)
Definition and_absorb : rare_rule :=
  mkRare [("x", (SBool, false)); ("y", (SBool, false))] ["x"; "y"] [eq2 (vb "x") tTrue] (eq2 (TOp OAnd [vb "x"; vb "y"]) (vb "y")).
Lemma and_absorb_valid : rare_valid and_absorb.
Proof.
  apply mono_valid; [reflexivity|intros t [<-|[<-|[]]]; reflexivity|].
  intros I E HE H. destruct (H [eq2 (vb "x") tTrue]) as [l [[<-|[]] Hl]]; [left; reflexivity|]. eexists. split; [left; reflexivity|].
  pose proof (HE "x" SBool) as Hx. pose proof (HE "y" SBool) as Hy. apply dom_bool in Hx. apply dom_bool in Hy. destruct Hx as [bx Hx], Hy as [by_ Hy].
  revert Hl. unfold holds. cbn. rewrite Hx, Hy. destruct bx, by_; cbn; auto.
Qed.
(** (declare-rare-rule bool-or-false ((T Type) (xs T :list) (ys T :list)) :args (xs ys)
      :conclusion (= (or xs false ys) (or xs ys))) *)
Definition lx (x : string) : term := TVar x (SVar "@T0").
Definition or_false : rare_rule :=
  mkRare [("xs", (SVar "@T0", true)); ("ys", (SVar "@T0", true))] ["xs"; "ys"] []
    (eq2 (TOp OOr [lx "xs"; tFalse; lx "ys"]) (TOp OOr [lx "xs"; lx "ys"])).
Lemma or_false_valid : rare_valid or_false.
Proof.
  intros m Hi Hbt I E HE _. eexists. split; [left; reflexivity|]. unfold instance.
  assert (Hn : forall t, is_var t = false -> sget m t = None).
  { intros t Ht. destruct (sget m t) eqn:Eg; [|reflexivity]. destruct (ri_keys _ _ Hi _ _ Eg) as [x [p [-> _]]]. discriminate. }
  cbn [or_false rr_concl nsub eq2 map tFalse]. rewrite !Hn by reflexivity. cbn [flat flat_map sp app].
  set (xs := sp _). set (ys := sp _). rewrite !app_nil_r. unfold holds. cbn [eval map truth eval_op chain]. rewrite andb_true_r.
  rewrite veqb_eq, !map_app. cbn [map]. rewrite !existsb_app. cbn. reflexivity.
Qed.
Definition some_rules : rare_rules := [(txt "and-absorb", and_absorb); (txt "bool-or-false", or_false)].
(** (= p true) gives (= (and p (not q)) (not q)) *)
Example C45_plain_example : let c := [eq2 (TOp OAnd [vb "p"; TOp ONot [vb "q"]]) (TOp ONot [vb "q"])] in
  let ps := [[eq2 (vb "p") tTrue]] in let args := [TConst (CStr (txt "and-absorb")); vb "p"; TOp ONot [vb "q"]] in
  r_rare some_rules c ps args = ROk tt /\ rare_ok some_rules c ps args = true /\ clause_wt c = true /\ forallb clause_wt ps = true.
Proof. vm_compute. auto. Qed.
(** (= (or p q false r) (or p q r)), with the lists (rare-list p q) and (rare-list r) *)
Example C45_list_example : let c := [eq2 (TOp OOr [vb "p"; vb "q"; tFalse; vb "r"]) (TOp OOr [vb "p"; vb "q"; vb "r"])] in
  let args := [TConst (CStr (txt "bool-or-false")); TOp ORareList [vb "p"; vb "q"]; TOp ORareList [vb "r"]] in
  r_rare some_rules c [] args = ROk tt /\ rare_ok some_rules c [] args = true /\ clause_wt c = true.
Proof. vm_compute. auto. Qed.

(** ** What does not hold *)
(** An empty disjunction is rewritten to true: with two empty lists the valid rule bool-or-false gives (= (or false) true). *)
Definition or_false_step : clause := [eq2 (TOp OOr [tFalse]) tTrue].
Definition no_lists : list term := [TConst (CStr (txt "bool-or-false")); TOp ORareList []; TOp ORareList []].
Theorem C45_empty_list_refuted : exists rules c args r, rare_valid r /\ (forall name r', rare_find rules name = Some r' -> r' = r) /\
  r_rare rules c [] args = ROk tt /\ clause_wt c = true /\ forall (I : interp) (E : env I), ~ clause_holds E c.
Proof.
  exists [(txt "bool-or-false", or_false)], or_false_step, no_lists, or_false. split; [exact or_false_valid|]. split.
  { intros name r'. cbn [rare_find]. destruct (list_eqb _ _ _); [congruence|discriminate]. }
  split; [vm_compute; reflexivity|]. split; [reflexivity|]. intros I E [l [[<-|[]] H]]. discriminate H.
Qed.
Print Assumptions C45_empty_list_refuted.
(** Likewise the empty conjunction is rewritten to false. *)
Definition and_true : rare_rule :=
  mkRare [("xs", (SVar "@T0", true)); ("ys", (SVar "@T0", true))] ["xs"; "ys"] []
    (eq2 (TOp OAnd [lx "xs"; tTrue; lx "ys"]) (TOp OAnd [lx "xs"; lx "ys"])).
Lemma and_true_valid : rare_valid and_true.
Proof.
  intros m Hi Hbt I E HE _. eexists. split; [left; reflexivity|]. unfold instance.
  assert (Hn : forall t, is_var t = false -> sget m t = None).
  { intros t Ht. destruct (sget m t) eqn:Eg; [|reflexivity]. destruct (ri_keys _ _ Hi _ _ Eg) as [x [p [-> _]]]. discriminate. }
  cbn [and_true rr_concl nsub eq2 map tTrue]. rewrite !Hn by reflexivity. cbn [flat flat_map sp app].
  set (xs := sp _). set (ys := sp _). rewrite !app_nil_r. unfold holds. cbn [eval map truth eval_op chain]. rewrite andb_true_r.
  rewrite veqb_eq, !map_app. cbn [map]. rewrite !forallb_app. cbn. reflexivity.
Qed.
Theorem C45_empty_conjunction_refuted : exists rules c args r, rare_valid r /\ (forall name r', rare_find rules name = Some r' -> r' = r) /\
  r_rare rules c [] args = ROk tt /\ clause_wt c = true /\ forall (I : interp) (E : env I), ~ clause_holds E c.
Proof.
  exists [(txt "bool-and-true", and_true)], [eq2 (TOp OAnd [tTrue]) tFalse], [TConst (CStr (txt "bool-and-true")); TOp ORareList []; TOp ORareList []], and_true.
  split; [exact and_true_valid|]. split.
  { intros name r'. cbn [rare_find]. destruct (list_eqb _ _ _); [congruence|discriminate]. }
  split; [vm_compute; reflexivity|]. split; [reflexivity|]. intros I E [l [[<-|[]] H]]. discriminate H.
Qed.
Print Assumptions C45_empty_conjunction_refuted.
(** The substitution may merge bound variables: (not (forall ((y' Int) (y Int)) (= y' y))) becomes
    (not (forall ((y' Int) (y' Int)) (= y' y'))) for the argument y. *)
Definition merge_rule : rare_rule := mkRare [("x", (SInt, false))] ["x"] [] (TOp ONot [mrg_t]).
Lemma merge_valid : entails [] [rr_concl merge_rule].
Proof.
  intros I E HE _. eexists. split; [left; reflexivity|]. cbn [rr_concl merge_rule]. change (holds E (tNot mrg_t) = true). rewrite holds_not.
  destruct subst_merge_refuted as [_ [_ [Hf [t' [_ H]]]]]. destruct (H I E) as [_ H']. unfold holds in *.
  rewrite (eval_agree mrg_t E (sub_env cap_m E)), H'; [reflexivity|]. intros x s Hx. rewrite Hf in Hx. discriminate.
Qed.
Theorem C45_capture_refuted : exists rules c args r, mono r = true /\ bool_term (rr_concl r) = true /\ rr_prems r = [] /\ entails [] [rr_concl r] /\
  (forall name r', rare_find rules name = Some r' -> r' = r) /\
  r_rare rules c [] args = ROk tt /\ clause_wt c = true /\ forall (I : interp) (E : env I), ~ clause_holds E c.
Proof.
  exists [(txt "m", merge_rule)], [TOp ONot [TBind BForall [("y'", SInt); ("y'", SInt)] (eq2 (vi "y'") (vi "y'"))]], [TConst (CStr (txt "m")); vi "y"], merge_rule.
  split; [reflexivity|]. split; [reflexivity|]. split; [reflexivity|]. split; [exact merge_valid|]. split.
  { intros name r'. cbn [rare_find]. destruct (list_eqb _ _ _); [congruence|discriminate]. }
  split; [vm_compute; reflexivity|]. split; [reflexivity|]. intros I E [l [[<-|[]] H]].
  destruct subst_merge_refuted as [_ [_ [_ [t' [H1 H2]]]]]. destruct (H2 I E) as [H3 _]. rewrite mrg_run in H1. injection H1 as <-.
  change (holds E (tNot (TBind BForall [("y'", SInt); ("y'", SInt)] (eq2 (vi "y'") (vi "y'")))) = true) in H. rewrite holds_not, H3 in H. discriminate.
Qed.
Print Assumptions C45_capture_refuted.
(** A name in [:args] that is no parameter makes the checker panic. *)
Theorem C45_panic_refuted : exists rules c args, r_rare rules c [] args = RPanic.
Proof.
  exists [(txt "r", mkRare [] ["x"] [] (eq2 tTrue tTrue))], [eq2 tTrue tTrue], [TConst (CStr (txt "r")); tTrue]. reflexivity.
Qed.
Print Assumptions C45_panic_refuted.
(** It does not panic if all names in [:args] are parameters and there is no [let] in the rules, whatever the step. *)
Theorem C45_no_panic_partial : forall rules c ps args, (forall name r, rare_find rules name = Some r -> rare_declared r = true) ->
  r_rare rules c ps args <> RPanic.
Proof. exact rare_no_panic. Qed.
Print Assumptions C45_no_panic_partial.
Example C45_no_panic_example : forall name r, rare_find some_rules name = Some r -> rare_declared r = true.
Proof. intros name r. unfold some_rules. cbn [rare_find]. repeat (destruct (list_eqb _ _ _); [intros H; injection H as <-; reflexivity|]). discriminate. Qed.

(** ** The checker with all rules *)
(** With a valid set of RARE rules, a proof accepted without holes refutes its assertions, under the conditions of
    C01_check_sound_partial; cp_division, cp_saturation and cp_literal are excluded by [full_side], no other rule is as a whole. *)
Theorem C01_check_sound_full_partial : forall show rules cfg prems proof,
  (forall name r, rare_find rules name = Some r -> rare_valid r) ->
  check (full_table show rules) cfg prems proof = ROk false ->
  forallb shape_ok proof = true -> forallb cmd_wt proof = true ->
  wf_proof (full_side show rules (elaborated cfg)) proof = true -> assumes_ok cfg prems proof = true ->
  forall (I : interp) (E : env I), env_ok E -> ~ (forall p, In p prems -> holds E p = true).
Proof. intros show rules cfg prems proof Hr. apply check_sound, full_table_sound. exact Hr. Qed.
Print Assumptions C01_check_sound_full_partial.
(** (assert (= p true)) (assert (not (= (and p q) q))), refuted with the rule and-absorb *)
Example C01_full_example : let a1 := eq2 (vb "p") tTrue in let a2 := eq2 (TOp OAnd [vb "p"; vb "q"]) (vb "q") in
  let proof := [ CAssume "h1" a1; CAssume "h2" (tNot a2);
     CStep (mkStep "t1" [a2] "rare_rewrite" [(0, 0)] [TConst (CStr (txt "and-absorb")); vb "p"; vb "q"] []);
     CStep (mkStep "t2" [] "resolution" [(0, 2); (0, 1)] [a2; tTrue] []) ]%nat in
  forall show, check (full_table show some_rules) cfg_elaborated [a1; tNot a2] proof = ROk false /\
  forallb shape_ok proof = true /\ forallb cmd_wt proof = true /\ wf_proof (full_side show some_rules true) proof = true /\
  assumes_ok cfg_elaborated [a1; tNot a2] proof = true.
Proof. intros a1 a2 proof show. repeat (split; [vm_compute; reflexivity|]). vm_compute. reflexivity. Qed.
(** Without the conditions, valid RARE rules are enough to accept a proof of false from a satisfiable assertion. *)
Theorem C45_end_to_end_refuted : forall show cfg, cfg = cfg_default \/ cfg = cfg_elaborated ->
  exists rules prems proof, (forall name r, rare_find rules name = Some r -> rare_valid r) /\
    check (full_table show rules) cfg prems proof = ROk false /\
    forallb bool_term prems = true /\ forallb shape_ok proof = true /\ forallb cmd_wt proof = true /\
    forall I : interp, exists E : env I, env_ok E /\ forall p, In p prems -> holds E p = true.
Proof.
  intros show cfg Hc. set (a := eq2 (TOp OOr [tFalse]) tTrue).
  exists [(txt "bool-or-false", or_false)], [tNot a],
    [ CAssume "h1" (tNot a); CStep (mkStep "t1" [a] "rare_rewrite" [] no_lists []);
      CStep (mkStep "t2" [] "resolution" [(0, 1); (0, 0)] [a; tTrue] []) ]%nat.
  split. { intros name r'. cbn [rare_find]. destruct (list_eqb _ _ _); [|discriminate]. intros H. injection H as <-. exact or_false_valid. }
  split; [destruct Hc as [-> | ->]; vm_compute; reflexivity|]. do 3 (split; [vm_compute; reflexivity|]).
  intros I. destruct (env_exists (I := I)) as [E HE]. exists E. split; [exact HE|]. intros p [<-|[]]. reflexivity.
Qed.
Print Assumptions C45_end_to_end_refuted.

(** ** Matching: a term matches a pattern exactly if it has the shape of the pattern. *)
Inductive has_shape : pat -> term -> Prop :=
| shape_many o x l : has_shape (PMany o x) (TOp o l)
| shape_op o ps l : Forall2 has_shape ps l -> has_shape (POp o ps) (TOp o l)
| shape_var x t : has_shape (PVar x) t
| shape_const c : has_shape (PConst c) (TConst c).
Definition match_list (l : list term) (ps : list pat) (m : traces) : option traces :=
  (fix go (ts : list term) (ps : list pat) (m : traces) {struct ts} : option traces :=
     match ts, ps with
     | t :: ts, p :: ps => match match_meta t p m with Some m' => go ts ps m' | None => None end
     | _, _ => Some m
     end) l ps m.
Lemma match_args l : Forall (fun t => forall p m, (exists m', match_meta t p m = Some m') <-> has_shape p t) l ->
  forall ps m, List.length l = List.length ps -> (exists m', match_list l ps m = Some m') <-> Forall2 has_shape ps l.
Proof.
  induction 1 as [|t l Ht _ IH]; intros [|p ps] m Hl; try discriminate.
  - split; [constructor|]. exists m. reflexivity.
  - cbn [List.length] in Hl. apply eq_add_S in Hl. unfold match_list. fold match_list. split.
    + intros [m' E]. destruct (match_meta t p m) as [m1|] eqn:E1; [|discriminate]. constructor; [apply (Ht p m); eauto|]. apply (IH ps m1 Hl). eauto.
    + intros H. inversion H as [|? ? ? ? H1 H2]; subst. apply (Ht p m) in H1. destruct H1 as [m1 ->]. apply (IH ps m1 Hl). exact H2.
Qed.
Theorem C45_meta_match : forall t p m, (exists m', match_meta t p m = Some m') <-> has_shape p t.
Proof.
  induction t as [c|x s|f l IHf H|o l H|s|b vs t IHt|bs t H IHt|o oa l Hoa H] using term_ind'; intros [o' x'|o' ps|x'|c'] m;
  cbn [match_meta]; try (split; [intros [m' E]; discriminate E|intros E; inversion E]); try (split; [intros _; constructor|intros _; eexists; reflexivity]).
  - destruct (const_eqb c' c) eqn:E.
    + apply const_eqb_eq in E. subst. split; [constructor|eauto].
    + split; [intros [m' E']; discriminate|]. intros E'. inversion E'; subst. rewrite (proj2 (const_eqb_eq c c) eq_refl) in E. discriminate.
  - destruct (op_eqb o' o) eqn:E.
    + apply op_eqb_eq in E. subst. split; [constructor|eauto].
    + split; [intros [m' E']; discriminate|]. intros E'. inversion E'; subst. rewrite (proj2 (op_eqb_eq o o) eq_refl) in E. discriminate.
  - fold (match_list l ps m). destruct (op_eqb o' o && Nat.eqb (List.length l) (List.length ps)) eqn:E.
    + apply andb_true_iff in E. destruct E as [E1 E2]. apply op_eqb_eq in E1. apply Nat.eqb_eq in E2. subst. rewrite (match_args l H ps m E2).
      split; [constructor; auto|]. intros E'. inversion E'; auto.
    + split; [intros [m' E']; discriminate|]. intros E'. inversion E' as [|? ? ? F| |]; subst. rewrite (proj2 (op_eqb_eq o o) eq_refl) in E.
      assert (L : List.length ps = List.length l) by (clear - F; induction F; cbn; congruence). rewrite L, Nat.eqb_refl in E. discriminate.
Qed.
Print Assumptions C45_meta_match.
Example meta_match_ex : has_shape (POp OOr [ptrue]) (TOp OOr [tTrue]) /\ ~ has_shape (POp OOr [ptrue]) (TOp OOr []).
Proof. split; [repeat constructor|]. intros H. inversion H as [|? ? ? F| |]; subst. inversion F. Qed.
