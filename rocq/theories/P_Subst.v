(** C17 (substitution) and C29 (free variables). *)
From Coq Require Import List String Ascii ZArith QArith Bool Arith Lia.
From Verif Require Import Base Term Field Sem Sorting Rules Utils R_Simp Subst SubstSound SubstClean SubstRefute.
Import ListNotations.
Local Open Scope string_scope.

(** a well-sorted substitution: variables are mapped to terms of the same sort *)
Definition well_sorted_map (m : smap) : Prop :=
  forall k v, In (k, v) m -> exists x s, k = TVar x s /\ sort_of v = s /\ wt v = true /\ no_let v = true.
Lemma well_sorted_good m : well_sorted_map m -> good_map m.
Proof.
  intros H k v Hk. apply sget_In in Hk. destruct (H _ _ Hk) as [x [s [H1 [H2 [H3 H4]]]]]. exists x, s.
  split; [auto|]. split; [auto|]. split; [auto|]. intros y s'. apply fvars_spec. auto.
Qed.
(** the names that occur in the substitution, unless a variable is mapped to itself *)
Definition names_of (m : smap) : list string := sbr_of m.

(** C17, full statement: for every well-sorted substitution [m] and term [t], [subst m t] succeeds with a term [t'] such
    that [eval t' E = eval t (sub_env m E)]. This fails: *)
Theorem C17_subst_refuted : exists m t t', well_sorted_map m /\ wt t = true /\ no_let t = true /\ subst m t = ROk t' /\
  forall (I : interp) (E : env I), holds E t' = true /\ holds (sub_env m E) t = false.
Proof.
  destruct subst_capture_refuted as [H1 [H2 [H3 [t' [H4 H5]]]]]. exists cap_m, cap_t, t'. split; [|auto].
  intros k v [H|[]]. injection H as <- <-. exists "x", SInt. auto.
Qed.
Print Assumptions C17_subst_refuted.
Theorem C17_subst_closed_refuted : exists m t t', well_sorted_map m /\ wt t = true /\ no_let t = true /\
  (forall x s, free_in x s t = false) /\ subst m t = ROk t' /\
  forall (I : interp) (E : env I), holds E t' = true /\ holds (sub_env m E) t = false.
Proof.
  destruct subst_merge_refuted as [H1 [H2 [H3 [t' [H4 H5]]]]]. exists cap_m, mrg_t, t'. split; [|auto].
  intros k v [H|[]]. injection H as <- <-. exists "x", SInt. auto.
Qed.
Print Assumptions C17_subst_closed_refuted.
Theorem C17_subst_let_refuted : exists m t t', well_sorted_map m /\ wt t = true /\ subst m t = ROk t' /\
  forall I : interp, exists E : env I, env_ok E /\ holds E t' = false /\ holds (sub_env m E) t = true.
Proof.
  destruct subst_let_refuted as [H1 [H2 [t' [H4 H5]]]]. exists let_m, let_t, t'. split; [|auto].
  intros k v [H|[]]. injection H as <- <-. exists "x", SBool. auto.
Qed.
Print Assumptions C17_subst_let_refuted.
Theorem C17_subst_panic_refuted : exists m t, well_sorted_map m /\ wt t = true /\ subst m t = RPanic.
Proof.
  exists let_m, (TLet [("z", vb "x")] (vb "z")). split; [|repeat split].
  intros k v [H|[]]. injection H as <- <-. exists "x", SBool. auto.
Qed.
Print Assumptions C17_subst_panic_refuted.
(** What holds: without [let] it always returns a term, *)
Theorem C17_subst_total_partial : forall m t, no_let t = true -> exists t', subst m t = ROk t'.
Proof. exact subst_total. Qed.
Print Assumptions C17_subst_total_partial.
(** and the term is right if moreover the names bound on each path are distinct, their primed copies are not used, and
    keys have the sort of the bound variables of the same name ([tidy]). Bound variables are renamed where needed. *)
Theorem C17_subst_partial : forall m t, well_sorted_map m -> wt t = true -> tidy m (names_of m) t ->
  exists t', subst m t = ROk t' /\ wt t' = true /\ sort_of t' = sort_of t /\
    forall (I : interp) (E : env I), eval t' E = eval t (sub_env m E).
Proof. intros m t H. apply subst_tidy, well_sorted_good; auto. Qed.
Print Assumptions C17_subst_partial.
(** If no name of the substitution is bound in the term, shadowing and primes are fine too, and the result is the
    textbook substitution. *)
Theorem C17_subst_textbook_partial : forall m t, well_sorted_map m -> wt t = true -> no_let t = true ->
  (forall x, In x (bnames t) -> ~ In x (names_of m)) ->
  subst m t = ROk (nsub m t) /\ wt (nsub m t) = true /\ sort_of (nsub m t) = sort_of t /\
    forall (I : interp) (E : env I), eval (nsub m t) E = eval t (sub_env m E).
Proof. intros m t H Hw Hn Hb. apply subst_clean; [apply well_sorted_good; auto|auto|split; auto]. Qed.
Print Assumptions C17_subst_textbook_partial.
(** {x := (+ y 1)} on (forall ((y Int)) (exists ((z Int)) (= x (+ y z)))): y is renamed *)
Example C17_example :
  let m := [(vi "x", TOp OAdd [vi "y"; TConst (CInt 1)])] in
  let t := TBind BForall [("y", SInt)] (TBind BExists [("z", SInt)] (eq2 (vi "x") (TOp OAdd [vi "y"; vi "z"]))) in
  well_sorted_map m /\ wt t = true /\ tidy m (names_of m) t /\
  subst m t = ROk (TBind BForall [("y'", SInt)] (TBind BExists [("z", SInt)] (eq2 (TOp OAdd [vi "y"; TConst (CInt 1)]) (TOp OAdd [vi "y'"; vi "z"])))).
Proof.
  cbv zeta. split; [|split; [reflexivity|split; [|reflexivity]]].
  - intros k v [H|[]]. injection H as <- <-. exists "x", SInt. auto.
  - cbn [tidy]. split; [repeat constructor; intros []|]. split.
    + intros v [<-|[]]. split; [cbn; intuition discriminate|]. split; [vm_compute; intuition discriminate|].
      intros s w [H|[]]. discriminate.
    + split; [repeat constructor; intros []|]. split; [|cbn; tauto].
      intros v [<-|[]]. split; [cbn; intuition discriminate|]. split; [vm_compute; intuition discriminate|]. intros s w [H|[]]. discriminate.
Qed.
(** {x := 1} on (exists ((x' Int)) (forall ((x' Int)) (= x x'))) *)
Example C17_textbook_example :
  let m := [(vi "x", TConst (CInt 1))] in
  let t := TBind BExists [("x'", SInt)] (TBind BForall [("x'", SInt)] (eq2 (vi "x") (vi "x'"))) in
  wt t = true /\ no_let t = true /\ (forall x, In x (bnames t) -> ~ In x (names_of m)) /\
  subst m t = ROk (TBind BExists [("x'", SInt)] (TBind BForall [("x'", SInt)] (eq2 (TConst (CInt 1)) (vi "x'")))).
Proof. cbv zeta. repeat split. intros x Hx. cbn in Hx. vm_compute. intros [<-|[]]. intuition discriminate. Qed.

(** C29, full statement: [In (x, s) (fvars t) <-> free_in x s t = true], and the value of a term depends only on the
    variables found. This fails for terms with [let]: *)
Theorem C29_free_vars_refuted : exists t x s, wt t = true /\ ~ In (x, s) (fvars t) /\
  forall I : interp, exists E E' : env I, env_ok E /\ env_ok E' /\ (forall y s', (y, s') <> (x, s) -> E y s' = E' y s') /\
    holds E t <> holds E' t.
Proof. exact fvars_refuted. Qed.
Print Assumptions C29_free_vars_refuted.
Theorem C29_free_vars_partial : forall t, no_let t = true ->
  (forall x s, In (x, s) (fvars t) <-> free_in x s t = true) /\
  (forall (I : interp) (E E' : env I), (forall x s, In (x, s) (fvars t) -> E x s = E' x s) -> eval t E = eval t E').
Proof.
  intros t Hn. split; [apply fvars_spec; auto|]. intros I E E' H. apply eval_agree. intros x s Hx. apply H. apply fvars_spec; auto.
Qed.
Print Assumptions C29_free_vars_partial.
Theorem C29_never_too_many : forall t x s, In (x, s) (fvars t) -> free_in x s t = true.
Proof. exact fvars_sub. Qed.
Print Assumptions C29_never_too_many.
Example C29_example : let t := TOp OAnd [TBind BForall [("x", SInt)] (eq2 (vi "x") (vi "y")); eq2 (vi "x") (vi "z")] in
  no_let t = true /\ fvars t = [("y", SInt); ("x", SInt); ("z", SInt)].
Proof. split; reflexivity. Qed.
