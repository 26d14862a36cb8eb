(** C34: elaboration of assumptions that are only equal to a premise up to the order of the sides of equalities. *)
From Coq Require Import List String ZArith QArith Bool Arith Lia.
From Verif Require Import Base Term Sem Rules Utils Std Checker Polyeq R_Eq R_Binder R_Resolution R_Extras Table Elab ElabSound ElabCong ElabRes ElabRefute ElabReorder Nodes ElabPolyeq ElabPolyeqSound ElabGraph.
Import ListNotations.
Open Scope string_scope.
Local Open Scope nat_scope.
Local Open Scope list_scope.

(** For terms of the fragment [efrag] (numerals of one kind, no negated or divided literals, no indexed operators, no choice or lambda terms, applied
    functions are symbols): if the comparison modulo reordering says that [a] and [b] are equal, the elaborator does not panic; it gives a derivation
    of [(= a b)] without premises that the checker accepts in every context. [seen] is arbitrary, so this does not depend on the elaborator's cache. *)
Theorem C34_polyeq_partial other seen k d a b : efrag k a = true -> efrag k b = true -> polyeq a b = ROk true ->
  exists n, pelab seen d a b = ROk n /\ eclause n = [tEq a b] /\ eprems n = [] /\ forall cx, accepted other cx n.
Proof. exact (pelab_ok other seen k d a b). Qed.
Print Assumptions C34_polyeq_partial.

(** An assumption that the checker accepts is replaced by an accepted derivation of the same clause, whose only premise is an assumption that is
    literally a premise of the problem.  The fragment has no n-ary applications of chainable and associative operators. *)
Theorem C34_assume_partial other seen k prems d t : forallb (afrag k) prems = true -> afrag k t = true -> (exists p, In p prems /\ assume_eq t p = ROk true) ->
  exists n p, elab_assume seen prems d t = ROk n /\ eclause n = [t] /\ In p prems /\ eprems n = [[p]] /\ forall cx, accepted other cx n.
Proof. exact (elab_assume_ok other seen k prems d t). Qed.
Print Assumptions C34_assume_partial.

(** the same with the condition on the checker's side: on the fragment, the comparison is [feq] *)
Theorem C19_fragment c k a b : p_alpha c = false -> p_reorder c = true -> frag (p_nary c) k a = true -> frag (p_nary c) k b = true -> peq c a b = ROk (feq a b).
Proof. intros H1 H2. exact (peq_feq c k H1 H2 a b). Qed.
Print Assumptions C19_fragment.

(** ** Examples *)
Definition ab : term := tEq (vU "a") (vU "b").
Definition ba : term := tEq (vU "b") (vU "a").
Definition un : nat -> term -> term -> bool := fun _ _ _ => false.
(** a quantifier, a let and a nested flipped equality *)
Definition pp_prem : term := TOp OAnd [TOp OAnd [ab; TBind BForall [("x", sU)] (tEq ab (tEq (vU "x") (vU "c")))]; TLet [("y", ab)] (TOp OOr [vB "y"; tEq (vU "c") (vU "a")])].
Definition pp_term : term := TOp OAnd [TOp OAnd [ba; TBind BForall [("x", sU)] (tEq (tEq (vU "c") (vU "x")) ba)]; TLet [("y", ba)] (TOp OOr [vB "y"; tEq (vU "a") (vU "c")])].

Example pp_fragment : afrag true pp_prem = true /\ afrag true pp_term = true /\ assume_eq pp_term pp_prem = ROk true /\ term_eqb pp_term pp_prem = false.
Proof. repeat split; vm_compute; reflexivity. Qed.
Example pp_derived other cx : exists n, elab_assume un [tEq (vU "c") (vU "c"); pp_prem] 0 pp_term = ROk n /\ eclause n = [pp_term] /\ eprems n = [[pp_prem]] /\ accepted other cx n.
Proof.
  destruct (C34_assume_partial other un true [tEq (vU "c") (vU "c"); pp_prem] 0 pp_term) as (n & p & H1 & H2 & H3 & H4 & H5); [vm_compute; reflexivity|vm_compute; reflexivity| |].
  - exists pp_prem. split; [right; left; reflexivity|vm_compute; reflexivity].
  - exists n. split; [exact H1|]. split; [exact H2|]. split; [|apply H5]. destruct H3 as [<-|[<-|[]]]; [|exact H4]. exfalso.
    assert (E : find_premise pp_term [tEq (vU "c") (vU "c"); pp_prem] = ROk pp_prem) by (vm_compute; reflexivity). unfold elab_assume in H1. rewrite E in H1. cbn [obind] in H1.
    destruct (pelab un 0 pp_prem pp_term) as [m| |]; [|discriminate|discriminate]. cbn [obind] in H1. injection H1 as <-. cbn [eprems flat_map app] in H4. injection H4 as H4. discriminate.
Qed.

(** ** In general the elaboration fails on assumptions that the checker accepts. *)
(** A chain of equalities against the conjunction of its links: panic ([todo!], polyeq.rs). *)
Theorem C34_assume_chain_refuted : exists t p, assume_eq t p = ROk true /\ forall seen d, elab_assume seen [p] d t = RPanic.
Proof.
  exists (TOp OEquals [vU "a"; vU "b"; vU "c"]), (TOp OAnd [ab; tEq (vU "b") (vU "c")]). split; [vm_compute; reflexivity|]. intros seen d. vm_compute. reflexivity.
Qed.
Print Assumptions C34_assume_chain_refuted.
(** A flipped equality below a choice term: panic. *)
Theorem C34_assume_choice_refuted : exists t p, assume_eq t p = ROk true /\ forall seen d, elab_assume seen [p] d t = RPanic.
Proof.
  exists (tEq (TBind BChoice [("x", sU)] ab) (vU "c")), (tEq (TBind BChoice [("x", sU)] ba) (vU "c")). split; [vm_compute; reflexivity|]. intros seen d. vm_compute. reflexivity.
Qed.
Print Assumptions C34_assume_choice_refuted.
(** A flipped equality below an indexed operator: panic. *)
Definition px (x : term) : term := TPOp PBvExtract [tInt 0; tInt 0] [TOp OIte [x; TVar "u" (SBV 2); TVar "v" (SBV 2)]].
Theorem C34_assume_indexed_refuted : exists t p, assume_eq t p = ROk true /\ forall seen d, elab_assume seen [p] d t = RPanic.
Proof.
  exists (tEq (px ab) (TConst (CBV 0 1))), (tEq (px ba) (TConst (CBV 0 1))). split; [vm_compute; reflexivity|]. intros seen d. vm_compute. reflexivity.
Qed.
Print Assumptions C34_assume_indexed_refuted.

Lemma okb_refuted t p : assume_eq t p = ROk true -> match elab_assume un [p] 0 t with ROk n => okb n | _ => true end = false ->
  exists n, elab_assume un [p] 0 t = ROk n /\ forall other cx, ~ accepted other cx n.
Proof. intros _ H. destruct (elab_assume un [p] 0 t) as [n| |]; try discriminate. exists n. split; [reflexivity|]. intros other cx. apply rejected. exact H. Qed.
(** An n-ary implication against the nested one: the equality is derived in the wrong direction and the next step is rejected. *)
Theorem C34_assume_direction_refuted : exists t p, assume_eq t p = ROk true /\ exists n, elab_assume un [p] 0 t = ROk n /\ forall other cx, ~ accepted other cx n.
Proof.
  exists (TOp OImplies [vB "a"; vB "b"; vB "c"]), (TOp OImplies [vB "a"; TOp OImplies [vB "b"; vB "c"]]).
  split; [vm_compute; reflexivity|]. apply okb_refuted; vm_compute; reflexivity.
Qed.
Print Assumptions C34_assume_direction_refuted.
(** A conjunction: the rule nary_elim does not know [and]. *)
Theorem C34_assume_and_refuted : exists t p, assume_eq t p = ROk true /\ exists n, elab_assume un [p] 0 t = ROk n /\ forall other cx, ~ accepted other cx n.
Proof.
  exists (TOp OAnd [TOp OAnd [vB "a"; vB "b"]; vB "c"]), (TOp OAnd [vB "a"; vB "b"; vB "c"]).
  split; [vm_compute; reflexivity|]. apply okb_refuted; vm_compute; reflexivity.
Qed.
Print Assumptions C34_assume_and_refuted.
(** A left associative operator, two of whose arguments differ: the premises of cong are in reverse order. *)
Definition sit (x : term) (n : string) : term := TOp OIte [x; TVar n SInt; TVar "z" SInt].
Theorem C34_assume_left_refuted : exists t p, assume_eq t p = ROk true /\ exists n, elab_assume un [p] 0 t = ROk n /\ forall other cx, ~ accepted other cx n.
Proof.
  exists (TOp OLt [TOp OSub [TOp OSub [sit ba "a"; sit ba "b"]; TVar "c" SInt]; TVar "z" SInt]), (TOp OLt [TOp OSub [sit ab "a"; sit ab "b"; TVar "c" SInt]; TVar "z" SInt]).
  split; [vm_compute; reflexivity|]. apply okb_refuted; vm_compute; reflexivity.
Qed.
Print Assumptions C34_assume_left_refuted.
(** A numeral written as an integer and as a real: the refl step is rejected. *)
Theorem C34_assume_numeral_refuted : exists t p, assume_eq t p = ROk true /\ exists n, elab_assume un [p] 0 t = ROk n /\ forall other, ~ accepted other [] n.
Proof.
  set (t := TOp OLt [TVar "x" SReal; tInt 1]). set (p := TOp OLt [TVar "x" SReal; tReal 1]).
  exists t, p. split; [vm_compute; reflexivity|].
  exists (EStep [t] "resolution" [EPrem [p]; EStep [tNot p; t] "equiv1" [EStep [tEq p t] "cong" [EStep [tEq (tReal 1) (tInt 1)] "refl" [] []] []] []] [p; tTrue]).
  split; [vm_compute; reflexivity|]. intros other H. apply accepted_step in H. destruct H as [_ H]. apply Forall_inv_tail, Forall_inv in H. apply accepted_step in H. destruct H as [_ H]. apply Forall_inv in H.
  apply accepted_step in H. destruct H as [_ H]. apply Forall_inv in H. apply accepted_step in H. destruct H as [H _]. apply run_refl in H. vm_compute in H. discriminate.
Qed.
Print Assumptions C34_assume_numeral_refuted.

(** ** The elaborated proof, as a graph *)
(** The assumption is [(and (= b a) (forall ((x U)) (= b a)))], the premise has the equalities flipped.  The equality of [(= a b)] and [(= b a)] is derived
    once, at depth 0; inside of the bind subproof a reordering step copies it, since a subproof must have a step before the last one. *)
Definition g_prem : term := TOp OAnd [ab; TBind BForall [("x", sU)] ab].
Definition g_term : term := TOp OAnd [ba; TBind BForall [("x", sU)] ba].
Definition g_all : term := tEq (TBind BForall [("x", sU)] ab) (TBind BForall [("x", sU)] ba).
Definition g_symm : pnode := PStep 1 "h.t1" 0 [tEq ab ba] "eq_symmetric" [] [] [] None.
Definition g_bind : pnode :=
  PSub 4 (PStep 3 "h.t2" 1 [g_all] "bind" [] [] [] (Some (PStep 2 "h.t2.t1" 1 [tEq ab ba] "reordering" [g_symm] [] [] None))) (hd_sort [("x", sU)]) [] [].
Definition g_cong : pnode := PStep 5 "h.t3" 0 [tEq g_prem g_term] "cong" [g_symm; g_bind] [] [] None.
Definition g_equiv : pnode := PStep 6 "h.t4" 0 [tNot g_prem; g_term] "equiv1" [g_cong] [] [] None.
Definition g_assume : pnode := PStep 7 "h.t5" 0 [g_term] "resolution" [PAssume 0 "h" 0 g_prem; g_equiv] [g_prem; tTrue] [] None.
(** what the elaborator has derived before, outside of the subproof *)
Definition g_seen (d : nat) (a b : term) : bool := Nat.eqb d 1 && term_eqb a ab && term_eqb b ba.
Example g_fragment : afrag true g_prem = true /\ afrag true g_term = true /\ assume_eq g_term g_prem = ROk true.
Proof. repeat split; vm_compute; reflexivity. Qed.
(** The graph is an unfolding of the derivation that the polyeq pass builds and the checker accepts it.  It can be written as a list of commands.  The default
    pipeline then removes the reordering steps; the tree is still an accepted derivation, but the subproof has lost its only step before the last one, and writing the
    elaborated proof panics (node.rs:432). *)
Theorem C34_pipeline_panic_refuted : exists t p g,
  assume_eq t p = ROk true /\ elab_assume g_seen [p] 0 t = ROk (tree g) /\ (forall other cx, accepted other cx (tree g)) /\ copies g = true /\
  (exists cs, to_list 100 [g] = ROk cs) /\
  reorder_pass (tree g) = ROk (tree (gremove g)) /\ to_list 100 [gremove g] = RPanic.
Proof.
  exists g_term, g_prem, g_assume. split; [vm_compute; reflexivity|]. split; [vm_compute; reflexivity|]. split.
  { intros other cx. destruct (C34_assume_partial other g_seen true [g_prem] 0 g_term) as (n & p & H1 & _ & _ & _ & H5); [vm_compute; reflexivity|vm_compute; reflexivity| |].
    - exists g_prem. split; [left; reflexivity|vm_compute; reflexivity].
    - assert (E : elab_assume g_seen [g_prem] 0 g_term = ROk (tree g_assume)) by (vm_compute; reflexivity). rewrite E in H1. injection H1 as <-. apply H5. }
  split; [vm_compute; reflexivity|]. split; [eexists; vm_compute; reflexivity|]. split; vm_compute; reflexivity.
Qed.
Print Assumptions C34_pipeline_panic_refuted.
