(** A proof of an external solver, accepted by the checker on its own, is accepted when it is inserted (elaborator/lia_generic.rs, elaborator/hole.rs). *)
From Coq Require Import List String ZArith Bool Arith Lia.
From Verif Require Import Base Term Rules Polyeq Checker CheckerSound Table Nodes ElabIds ElabSolver ElabSound ElabSolverSound GraphAccept.
Import ListNotations.
Local Open Scope string_scope.
Local Open Scope nat_scope.
Local Open Scope list_scope.

(** ** Specification *)
(** the configuration of the checker without options *)
Definition cfg0 : config := mkCfg false false [].
(** the terms that are assumed at the top level *)
Definition assumed (proof : list command) : list term := flat_map (fun c => match c with CAssume _ t => [t] | _ => [] end) proof.
(** the rules that look at the anchors of the enclosing subproofs, and those whose model is a parameter *)
Definition context_rules : list string := map fst (binder_rules false) ++ unmodelled.
Definition no_context (proof : list command) : bool := forallb (fun r => negb (memb String.eqb r context_rules)) (flat_map cmd_rules proof).

(** ** Proofs *)
Lemma context_free other r : memb String.eqb r context_rules = false -> ctx_free (rule_table other false) r.
Proof.
  intros Hr f cl ps args cx cx' prev ds Hf. unfold rule_table in Hf.
  assert (Hn : ~ In r context_rules) by (intros H; apply (memb_In _ String.eqb_eq) in H; congruence).
  destruct (assoc r (entries false)) as [e|] eqn:E.
  - injection Hf as <-. apply assoc_In in E. unfold entries in E. rewrite !in_app_iff in E. destruct E as [E|[E|[E|[E|E]]]].
    + apply in_map_iff in E. destruct E as ((n & ru) & E & _). injection E as _ <-. reflexivity.
    + apply in_map_iff in E. destruct E as ((n & (ru & ok)) & E & _). injection E as _ <-. reflexivity.
    + destruct E as [E|[E|[]]]; injection E as _ <-; reflexivity.
    + exfalso. apply Hn. unfold context_rules. apply in_or_app. left. apply (in_map fst) in E. exact E.
    + destruct E as [E|[]]. injection E as _ <-. reflexivity.
  - destruct (memb String.eqb r unmodelled) eqn:Eu.
    + exfalso. apply Hn. unfold context_rules. apply in_or_app. right. apply (memb_In _ String.eqb_eq). exact Eu.
    + destruct (String.eqb r "hole" || String.eqb r "lia_generic"); [injection Hf as <-; reflexivity|discriminate].
Qed.
Lemma f2_nth {A B} (R : A -> B -> Prop) l m : Forall2 R l m -> forall y, In y m -> exists i x, nth_error l i = Some x /\ nth_error m i = Some y /\ R x y.
Proof.
  induction 1 as [|x y l m H _ IH]; intros z Hz; [destruct Hz|]. destruct Hz as [<-|Hz]; [exists 0, x; auto|]. destruct (IH z Hz) as (i & x' & H1 & H2 & H3). exists (S i), x'. auto.
Qed.
Lemma assumed_inj l : NoDup (assumed l) -> forall i j id id' t, nth_error l i = Some (CAssume id t) -> nth_error l j = Some (CAssume id' t) -> i = j.
Proof.
  assert (Hin : forall l i id t, nth_error l i = Some (CAssume id t) -> In t (assumed l)).
  { intros l' i id t H. apply nth_error_In in H. apply in_flat_map. exists (CAssume id t). split; [exact H|left; reflexivity]. }
  induction l as [|c l IH]; intros Hd i j id id' t Hi Hj; [destruct i; discriminate|].
  assert (Hd' : NoDup (assumed l)) by (destruct c; cbn in Hd; try exact Hd; inversion Hd; assumption).
  assert (G : forall j id id', c = CAssume id t -> nth_error l j = Some (CAssume id' t) -> False).
  { intros j0 i1 i2 -> H. cbn in Hd. inversion Hd; subst. apply Hin in H. contradiction. }
  destruct i as [|i], j as [|j]; cbn [nth_error] in Hi, Hj; [reflexivity| | |f_equal; eapply IH; eauto].
  - exfalso. injection Hi as Hi. eapply G; eauto.
  - exfalso. injection Hj as Hj. eapply G; eauto.
Qed.

Section Insert.
  Variable other : bool -> string -> crule.
  Let table := rule_table other.
  Variable prems : list term.
  Variable sp : list command.
  Variable b : bool.
  Hypothesis Hshape : forallb shape_ok sp = true.
  Hypothesis Hrefs : refs_list sp [] [] = true.
  Hypothesis Hcheck : check table cfg0 prems sp = ROk b.

  Lemma forest_root : exists forest prf, to_nodes sp = ROk forest /\ solver_root forest = ROk prf /\ Forall2 match_cmd sp forest /\
    pdepth prf = 0 /\ deep prf = true /\ addr_ok prf /\ gok (table false) [] prf /\
    (forall x, In x (subnodes prf) -> is_assume_at 0 x = true -> In x forest) /\
    (no_context sp = true -> forall r, In r (rules_in prf) -> ctx_free (table false) r).
  Proof.
    destruct (nodes_round_trip sp Hshape Hrefs) as (forest & Hf & _).
    destruct (graph_accepted table cfg0 prems eq_refl eq_refl eq_refl sp b forest Hshape Hcheck Hf) as [Hm Hg].
    destruct (check_reaches table cfg0 prems sp b Hcheck Hshape) as (c & Hc & Hcl).
    destruct (solver_root forest) as [prf| |] eqn:Er.
    - exists forest, prf. destruct (root_clause _ _ Er) as [_ Hin]. rewrite Forall_forall in Hg. destruct (Hg prf Hin) as (H1 & H2 & H3 & H4 & H5).
      split; [exact Hf|]. split; [exact Er|]. split; [exact Hm|]. split; [exact H1|]. split; [exact H2|]. split; [exact H3|]. split; [exact H4|]. split; [exact H5|].
      intros Hn r Hr. apply context_free. revert r Hr. apply (nodes_rules (fun r => memb String.eqb r context_rules = false) sp forest Hf); [|exact Hin].
      unfold no_context in Hn. rewrite forallb_forall in Hn. intros r Hr. apply negb_true_iff. apply Hn. exact Hr.
    - unfold solver_root in Er. destruct (find _ forest); discriminate.
    - exfalso. assert (exists n, In n forest /\ pclause n = []) as (n & Hn & Hn').
      { clear -Hm Hc Hcl. induction Hm as [|c0 n l m [H _] _ IH]; [destruct Hc|]. destruct Hc as [->|Hc]; [exists n; split; [left; reflexivity|congruence]|].
        destruct (IH Hc) as (m0 & H1 & H2). exists m0. split; [right; exact H1|exact H2]. }
      unfold solver_root in Er. destruct (find (fun n => match pclause n with [] => true | _ => false end) forest) eqn:E; [discriminate|]. pose proof (find_none _ _ E n Hn) as H. cbn beta in H. rewrite Hn' in H. discriminate.
  Qed.

  Lemma lia_insert_ok k root concl cx : no_context sp = true ->
    (forall t, In t (assumed sp) -> In t (map tNot concl)) -> NoDup (assumed sp) ->
    exists forest n, to_nodes sp = ROk forest /\ lia_insert k root (List.length cx) concl forest = ROk n /\ pclause n = concl /\ gok (table false) cx n.
  Proof.
    intros Hn Ha Hd. destruct forest_root as (forest & prf & Hf & Hr & Hm & H1 & H2 & H3 & H4 & H5 & H6). exists forest.
    destruct (lia_ok other k root (List.length cx) concl forest prf cx) as (n & E1 & E2 & E3); auto.
    - exact (conj H1 (conj H2 (conj H3 (conj H4 (H6 Hn))))).

    - assert (G : forall x, In x (assumptions_of 0 prf) -> exists i id t, nth_error sp i = Some (CAssume id t) /\ nth_error forest i = Some x /\ assume_term x = Some t).
      { intros x Hx. apply assumptions_complete in Hx; [|exact H3]. destruct Hx as [Hx Hb]. destruct (f2_nth _ _ _ Hm x (H5 x Hx Hb)) as (i & c & Hi & Hj & _ & Hc).
        destruct c as [id t|s|cs args z].
        - destruct Hc as (a & d & ->). exists i, id, t. auto.
        - destruct x; discriminate.
        - destruct x; discriminate. }
      split.
      + intros x Hx. destruct (G x Hx) as (i & id & t & Hi & _ & Ht). assert (Hin : In t (assumed sp)) by (apply nth_error_In in Hi; apply in_flat_map; exists (CAssume id t); split; [exact Hi|left; reflexivity]).
        apply Ha in Hin. apply in_map_iff in Hin. destruct Hin as (l & <- & Hl). eauto.
      + intros x y Hx Hy E. destruct (G x Hx) as (i & id & t & Hi & Hi' & Ht), (G y Hy) as (j & id' & t' & Hj & Hj' & Ht'). assert (t' = t) by congruence. subst t'.
        assert (i = j) by (eapply assumed_inj; eauto). subst j. congruence.
    - exists n. auto.
  Qed.
  (** the assumptions in the order in which they are found must be the negated literals *)
  Lemma hole_insert_ok k root concl cx forest prf : no_context sp = true -> to_nodes sp = ROk forest -> solver_root forest = ROk prf ->
    map assume_term (assumptions_of 0 prf) = map (fun l => Some (tNot l)) concl ->
    exists n, hole_insert k root (List.length cx) concl forest = ROk n /\ pclause n = concl /\ gok (table false) cx n.
  Proof.
    intros Hn Hf Hr Ha. destruct forest_root as (forest' & prf' & Hf' & Hr' & Hm & H1 & H2 & H3 & H4 & H5 & H6).
    assert (forest' = forest) by congruence. subst forest'. assert (prf' = prf) by congruence. subst prf'.
    apply (hole_ok other k root (List.length cx) concl forest prf cx); auto.
    - exact (conj H1 (conj H2 (conj H3 (conj H4 (H6 Hn))))).

    - assert (G : Forall (fun n => exists t, assumes 0 n t) (assumptions_of 0 prf)) by (unfold assumptions_of; apply filter_assumes).
      clear -Ha G. revert concl Ha. induction G as [|n l (t & a & id & ->) _ IH]; intros concl Ha; destruct concl as [|u concl]; try discriminate; [constructor|].
      cbn [map] in Ha. injection Ha as -> Ha. constructor; [|apply IH; exact Ha]. exists a, id. reflexivity.
  Qed.
  Lemma insert_no_panic k root d concl : exists forest n m, to_nodes sp = ROk forest /\ lia_insert k root d concl forest = ROk n /\ hole_insert k root d concl forest = ROk m.
  Proof.
    destruct forest_root as (forest & prf & Hf & Hr & _). exists forest. unfold lia_insert, hole_insert. rewrite Hr. cbn [obind]. eauto.
  Qed.
End Insert.
