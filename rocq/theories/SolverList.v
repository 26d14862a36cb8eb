(** A proof in which a step is replaced by the proof of an external solver: the list of commands made of it is accepted (elaborator/lia_generic.rs,
    elaborator/hole.rs, ast/node.rs). *)
From Coq Require Import List String ZArith Bool Arith Lia.
From Verif Require Import Base Term Rules Checker CheckerSound CheckerRefute Table Nodes ElabIds ElabSolver ElabSound ElabSolverSound GraphAccept SolverInsert GraphCheck GraphTree GraphWf GraphDone GraphReplace GraphInsert GraphOwn.
Import ListNotations.
Local Open Scope string_scope.
Local Open Scope nat_scope.
Local Open Scope list_scope.

(** ** Specification *)
(** the rules of the steps of a graph but for one *)
Definition other_rules (a : nat) (forest : list pnode) : list string :=
  flat_map (fun x => match x with PStep a' _ _ _ r _ _ _ _ => if Nat.eqb a' a then [] else [r] | _ => [] end) (flat_map tree forest).
Definition inserted_rules : list string := ["resolution"; "not_not"; "false"; "subproof"].

(** ** Proofs *)
Lemma sub_all n : incl (subnodes n) (allnodes n).
Proof.
  induction n as [|a id d cl r ps args ds prev Hp Hd Hv|a l args out extra Hl Ho He] using pnode_ind'; intros x Hx; [exact Hx| |].
  - cbn [subnodes allnodes] in *. destruct Hx as [<-|Hx]; [left; reflexivity|right]. rewrite !in_app_iff in *. rewrite Forall_forall in Hp, Hd. destruct Hx as [Hx|[Hx|Hx]].
    + left. apply in_flat_map in Hx. destruct Hx as (y & Hy & Hx). apply in_flat_map. exists y. split; [exact Hy|apply Hp; auto].
    + right. left. apply in_flat_map in Hx. destruct Hx as (y & Hy & Hx). apply in_flat_map. exists y. split; [exact Hy|apply Hd; auto].
    + right. right. destruct prev as [p|]; [apply Hv; exact Hx|destruct Hx].
  - cbn [subnodes allnodes] in *. destruct Hx as [<-|Hx]; [left; reflexivity|right]. rewrite !in_app_iff in *. rewrite Forall_forall in Ho. destruct Hx as [Hx|Hx]; [|left; apply Hl; exact Hx].
    right. left. apply in_flat_map in Hx. destruct Hx as (y & Hy & Hx). apply in_flat_map. exists y. split; [exact Hy|apply Ho; auto].
Qed.
Lemma rebuild_fresh k d nid asms : forall concl covered j, exists F, map paddr F = seq (k + j) (List.length F) /\ snd (rebuild k d nid asms covered j concl) = j + List.length F /\
  incl F (fst (rebuild k d nid asms covered j concl)) /\ forall y, In y (fst (rebuild k d nid asms covered j concl)) -> In y F \/ In y asms.
Proof.
  induction concl as [|t concl IH]; intros covered j; cbn [rebuild].
  - exists []. repeat split; [cbn; lia|intros y []|intros y []].
  - destruct (if memb term_eqb (tNot t) covered then None else node_for asms (tNot t)) as [n|] eqn:E; cbn [fst snd].
    + destruct (IH (tNot t :: covered) j) as (F & A & B & C & D). exists F. split; [exact A|]. split; [exact B|]. split; [intros y Hy; right; apply C; exact Hy|]. intros y [<-|Hy]; [right|auto].
      destruct (memb term_eqb (tNot t) covered); [discriminate|]. apply node_for_some in E. apply E.
    + destruct (IH (tNot t :: covered) (S j)) as (F & A & B & C & D). exists (PAssume (k + j) (nid j) (d + 1) (tNot t) :: F). split; [cbn [map List.length seq paddr]; f_equal; rewrite A; f_equal; lia|].
      split; [rewrite B; cbn [List.length]; lia|]. split; [intros y [<-|Hy]; [left; reflexivity|right; apply C; exact Hy]|]. intros y [<-|Hy]; [left; left; reflexivity|]. destruct (D y Hy); [left; right; assumption|auto].
Qed.

Lemma assumed_f2 l : Forall (fun n => exists t, assumes 0 n t) l -> forall concl, map assume_term l = map (fun l => Some (tNot l)) concl -> Forall2 (assumes 0) l (map tNot concl).
Proof.
  induction 1 as [|n l (t & a & id & ->) _ IH]; intros concl Ha; destruct concl as [|u concl]; try discriminate; [constructor|].
  cbn [map] in Ha. injection Ha as -> Ha. constructor; [|apply IH; exact Ha]. exists a, id. reflexivity.
Qed.

Section List_level.
  Variable other : bool -> string -> crule.
  Let table := rule_table other.
  Variables (prems premsS : list term) (proof sp : list command) (b bs : bool) (forest sforest : list pnode) (lo k0 : nat).
  Hypothesis Hshape : forallb shape_ok proof = true.
  Hypothesis Hcheck : check table cfg0 prems proof = ROk b.
  Hypothesis Hnodes : to_nodes proof = ROk forest.
  Hypothesis Hshape' : forallb shape_ok sp = true.
  Hypothesis Hcheck' : check table cfg0 premsS sp = ROk bs.
  Hypothesis Hnodes' : nodes_from lo sp = ROk sforest.
  Hypothesis Hctx : no_context sp = true.
  Hypothesis Hdisch : forallb (own_discharge 0) sp = true.
  Hypothesis Hlo : forall x, fnode forest x -> paddr x < lo.
  Hypothesis Hk0 : lo <= k0 /\ forall x, fnode sforest x -> paddr x < k0.
  Variables (a : nat) (oid : string) (d : nat) (concl : clause) (orule : string) (ops : list pnode) (oargs : list term) (ods : list pnode).
  Hypothesis Hold : fnode forest (PStep a oid d concl orule ops oargs ods None).
  Definition Rok (r : string) : Prop := (In r (other_rules a forest) \/ In r (flat_map cmd_rules sp) \/ In r inserted_rules) /\ table false r <> None.

  Lemma main_graph : accepted_graph table cfg0 prems (fun _ => True) 0 lo forest.
  Proof. apply (proof_graph table cfg0 prems 0 proof b forest (fun _ => True)); auto. Qed.
  Lemma solver_rules a' id' d' cl' r ps' args' ds' prev' : fnode sforest (PStep a' id' d' cl' r ps' args' ds' prev') -> In r (flat_map cmd_rules sp).
  Proof.
    intros H. apply in_flat_map in H. destruct H as (y & Hy & H). apply (nodes_rules_from (fun r => In r (flat_map cmd_rules sp)) lo sp sforest Hnodes' ltac:(auto) y Hy). eapply tree_rules; exact H.
  Qed.
  Lemma solver_graph0 : accepted_graph table cfg0 premsS (fun _ => True) lo k0 sforest.
  Proof. apply (proof_graph table cfg0 premsS lo sp bs sforest (fun _ => True)); auto. apply Hk0. Qed.
  Lemma solver_graph : accepted_graph table cfg0 premsS Rok lo k0 sforest.
  Proof. apply (proof_graph table cfg0 premsS lo sp bs sforest Rok); auto; [intros a' id' d' cl' r ps' args' ds' prev' H; split; [right; left; eapply solver_rules; exact H|exact (g_known _ _ _ _ _ _ _ solver_graph0 _ _ _ _ _ _ _ _ _ H)]|apply Hk0]. Qed.
  Lemma solver_free a' id' d' cl' r ps' args' ds' prev' : fnode sforest (PStep a' id' d' cl' r ps' args' ds' prev') -> ctx_free (table false) r.
  Proof.
    intros H. apply solver_rules in H. apply context_free. unfold no_context in Hctx. rewrite forallb_forall in Hctx. apply negb_true_iff. apply Hctx. exact H.
  Qed.
  Lemma old_depth : d = List.length (fhome forest a).
  Proof. exact (w_depth _ _ _ _ _ _ _ (g_wfg _ _ _ _ _ _ _ main_graph) _ Hold). Qed.
  Lemma solver_facts : exists prf, solver_root sforest = ROk prf /\ In prf sforest /\ pclause prf = [] /\ solver_fits other prf /\ Forall2 match_cmd sp sforest /\
    (forall x, In x (subnodes prf) -> is_assume_at 0 x = true -> In x sforest) /\
    (forall x, In x (assumptions_of 0 prf) <-> In x (allnodes prf) /\ is_passume x = true /\ fhome sforest (paddr x) = []).
  Proof.
    destruct solver_graph as [WS Stop (n0 & Hn0 & Hc0) Sr Sp _].
    destruct (graph_accepted_from table cfg0 premsS eq_refl eq_refl eq_refl lo sp bs sforest Hshape' Hcheck' Hnodes') as [Hm Hg].
    destruct (solver_root sforest) as [prf| |] eqn:Er.
    - destruct (root_clause _ _ Er) as [Hcl Hin]. exists prf. split; [reflexivity|]. split; [exact Hin|]. split; [exact Hcl|]. rewrite Forall_forall in Hg. destruct (Hg prf Hin) as (H1 & H2 & H3 & H4 & H5).
      split; [|split; [exact Hm|split; [exact H5|]]].
      + split; [exact H1|]. split; [exact H2|]. split; [exact H3|]. split; [exact H4|]. intros r Hr. apply context_free. revert r Hr. apply (nodes_rules_from (fun r => memb String.eqb r context_rules = false) lo sp sforest Hnodes'); [|exact Hin].
        unfold no_context in Hctx. rewrite forallb_forall in Hctx. intros r Hr. apply negb_true_iff. apply Hctx. exact Hr.
      + intros x. rewrite assumptions_complete by exact H3. split.
        * intros [Hx Ha]. assert (Hx' : In x (allnodes prf)) by (apply sub_all; exact Hx). split; [exact Hx'|]. assert (Gx : fnode sforest x) by (apply (w_all _ _ _ _ _ _ _ WS prf); [apply Stop; exact Hin|exact Hx']).
          pose proof (w_depth _ _ _ _ _ _ _ WS x Gx) as Hd. destruct x; try discriminate. cbn in Ha. apply Nat.eqb_eq in Ha. cbn [pdepth] in Hd. split; [reflexivity|]. destruct (fhome sforest _); [reflexivity|cbn in Hd; lia].
        * intros (Hx & Hp & Hh). assert (Gx : fnode sforest x) by (apply (w_all _ _ _ _ _ _ _ WS prf); [apply Stop; exact Hin|exact Hx]). pose proof (w_depth _ _ _ _ _ _ _ WS x Gx) as Hd. rewrite Hh in Hd. cbn in Hd.
          destruct (nodes_sok lo sp sforest Hnodes' Hshape') as (Hso & k' & _ & Hnd & _). split.
          -- apply (found sforest Hso Hnd); auto; [apply (nodes_own lo sp sforest Hnodes' Hdisch)|apply Stop; exact Hin].
          -- destruct x; try discriminate. cbn in Hd |- *. rewrite Hd. reflexivity.
    - unfold solver_root in Er. destruct (find _ sforest); discriminate.
    - exfalso. unfold solver_root in Er. destruct (find (fun n => match pclause n with [] => true | _ => false end) sforest) eqn:E; [discriminate|]. pose proof (find_none _ _ E n0 Hn0) as H. cbn beta in H. rewrite Hc0 in H. discriminate.
  Qed.
  Lemma rok4 : Rok "resolution" /\ Rok "not_not" /\ Rok "false" /\ Rok "subproof".
  Proof. repeat split; try discriminate; right; right; cbn; auto. Qed.
  Definition list_ok (n : pnode) : Prop := (exists fuel out, to_list fuel (map (replace_node a n) forest) = ROk out) /\ forall fuel out, to_list fuel (map (replace_node a n) forest) = ROk out ->
    (exists b', check table cfg0 prems out = ROk b') /\ forall s, In s (proof_steps out) -> Rok (s_rule s).
  Lemma other_in a' id' d' cl' r ps' args' ds' prev' : fnode forest (PStep a' id' d' cl' r ps' args' ds' prev') -> a' <> a -> Rok r.
  Proof. intros H Hn. split; [|exact (g_known _ _ _ _ _ _ _ main_graph _ _ _ _ _ _ _ _ _ H)]. left. apply in_flat_map. eexists. split; [exact H|]. cbn beta iota. apply Nat.eqb_neq in Hn. rewrite Hn. left. reflexivity. Qed.
  Theorem lia_list root : (forall t, In t (assumed sp) -> In t (map tNot concl)) -> NoDup (assumed sp) ->
    exists n, lia_insert k0 root d concl sforest = ROk n /\ pclause n = concl /\ list_ok n.
  Proof.
    intros Ha Hd. destruct solver_facts as (prf & Er & Hin & Hcl & Hfits & Hm & H5 & Hasm).
    assert (Hlia : lia_fits concl (assumptions_of 0 prf)).
    { assert (G : forall x, In x (assumptions_of 0 prf) -> exists i id t, nth_error sp i = Some (CAssume id t) /\ nth_error sforest i = Some x /\ assume_term x = Some t).
      { intros x Hx. apply assumptions_complete in Hx; [|exact (proj1 (proj2 (proj2 Hfits)))]. destruct Hx as [Hx Hb]. destruct (f2_nth _ _ _ Hm x (H5 x Hx Hb)) as (i & c & Hi & Hj & _ & Hc).
        destruct c as [id t|s|cs args z]; [|destruct x; discriminate|destruct x; discriminate]. destruct Hc as (a' & d' & ->). exists i, id, t. auto. }
      split.
      - intros x Hx. destruct (G x Hx) as (i & id & t & Hi & _ & Ht). assert (Hin' : In t (assumed sp)) by (apply nth_error_In in Hi; apply in_flat_map; exists (CAssume id t); split; [exact Hi|left; reflexivity]).
        apply Ha in Hin'. apply in_map_iff in Hin'. destruct Hin' as (l & <- & Hl). eauto.
      - intros x y Hx Hy E. destruct (G x Hx) as (i & id & t & Hi & Hi' & Ht), (G y Hy) as (j & id' & t' & Hj & Hj' & Ht'). assert (t' = t) by congruence. subst t'.
        assert (i = j) by (eapply assumed_inj; eauto). subst j. congruence. }
    assert (Hg : forall cx, List.length cx = d -> exists n, lia_insert k0 root d concl sforest = ROk n /\ pclause n = concl /\ gok (table false) cx n).
    { intros cx Hcx. apply (lia_ok other k0 root d concl sforest prf cx); auto. }
    unfold lia_insert in *. rewrite Er in *. cbn [obind] in *. eexists. split; [reflexivity|]. split; [reflexivity|].
    set (sid := pos root 0) in *. set (nid := pos (sid ++ ".added")%string) in *.
    assert (Es : assumptions_of (d + 1) (shift (d + 1) sid prf) = map (shift (d + 1) sid) (assumptions_of 0 prf)) by (apply (sh_assumptions (d + 1) sid 0)). rewrite Es in *.
    destruct (rebuild_fresh k0 d nid (map (shift (d + 1) sid) (assumptions_of 0 prf)) concl [] 0) as (F & F1 & F2 & F3 & F4).
    set (q := rebuild k0 d nid (map (shift (d + 1) sid) (assumptions_of 0 prf)) [] 0 concl) in *. rewrite F2 in *. rewrite Nat.add_0_l in *. rewrite Nat.add_0_r in F1.
    assert (Et : forall n, assume_term (shift (d + 1) sid n) = assume_term n) by (intros []; reflexivity). pose proof old_depth as Ed.
    unfold list_ok. rewrite Ed.
    apply (insert_check table cfg0 prems premsS Rok eq_refl eq_refl) with (forest := forest) (sforest := sforest) (K := lo) (lo := lo) (k0 := k0) (a := a) (oid := oid) (orule := orule) (ops := ops) (oargs := oargs) (ods := ods)
      (concl := concl) (prf := prf) (pre := sid) (F := F) (asms := fst q) (sid := sid) (nid := fun i => nid (List.length F + i)) ; rewrite <- ?Ed; auto.
    - exact rok4.
    - exact main_graph.
    - exact solver_graph.
    - split; [lia|apply Hk0].
    - exact solver_free.
    - intros a' id' d' cl' r ps' args' ds' prev'. exact (other_in a' id' d' cl' r ps' args' ds' prev').
    - split; [exact Hin|]. split; [exact Hcl|exact (proj1 (proj2 Hfits))].
    - apply rebuild_assumes. rewrite <- Es. unfold assumptions_of. apply filter_assumes.
    - intros y Hy. destruct (F4 y Hy) as [H|H]; [auto|]. right. apply in_map_iff in H. destruct H as (x & <- & Hx). exists x. apply Hasm in Hx. destruct Hx as (A & B & C). auto.
    - intros x Hx Hp Hh. assert (Hx' : In x (assumptions_of 0 prf)) by (apply Hasm; auto). destruct Hlia as [L1 L2]. destruct (L1 x Hx') as (l & Hl & Hxl).
      apply rebuild_covers with (l := l); auto.
      + intros n m Hn' Hm'. apply in_map_iff in Hn', Hm'. destruct Hn' as (n' & <- & Hn'), Hm' as (m' & <- & Hm'). rewrite !Et. intros E. f_equal. apply L2; assumption.
      + apply in_map. exact Hx'.
      + rewrite Et. exact Hxl.
    - intros cx Hcx. destruct (Hg cx Hcx) as (n & En & _ & Hn). injection En as <-. exact Hn.
  Qed.
  Theorem hole_list root prf : solver_root sforest = ROk prf -> map assume_term (assumptions_of 0 prf) = map (fun l => Some (tNot l)) concl ->
    exists n, hole_insert k0 root d concl sforest = ROk n /\ pclause n = concl /\ list_ok n.
  Proof.
    intros Er' Ha. destruct solver_facts as (prf' & Er & Hin & Hcl & Hfits & Hm & H5 & Hasm). assert (prf' = prf) by congruence. subst prf'.
    assert (Hz : Forall2 (assumes 0) (assumptions_of 0 prf) (map tNot concl)).
    { apply assumed_f2; [unfold assumptions_of; apply filter_assumes|exact Ha]. }
    assert (Hg : forall cx, List.length cx = d -> exists n, hole_insert k0 root d concl sforest = ROk n /\ pclause n = concl /\ gok (table false) cx n).
    { intros cx Hcx. apply (hole_ok other k0 root d concl sforest prf cx); auto. }
    unfold hole_insert in *. rewrite Er in *. cbn [obind] in *. eexists. split; [reflexivity|]. split; [reflexivity|].
    assert (Es : assumptions_of (d + 1) (shift (d + 1) root prf) = map (shift (d + 1) root) (assumptions_of 0 prf)) by (apply (sh_assumptions (d + 1) root 0)). rewrite Es in *. pose proof old_depth as Ed.
    unfold list_ok. rewrite <- (Nat.add_0_r k0), Ed.
    apply (insert_check table cfg0 prems premsS Rok eq_refl eq_refl) with (forest := forest) (sforest := sforest) (K := lo) (lo := lo) (k0 := k0) (a := a) (oid := oid) (orule := orule) (ops := ops) (oargs := oargs) (ods := ods)
      (concl := concl) (prf := prf) (pre := root) (F := []) (asms := map (shift (List.length (fhome forest a) + 1) root) (assumptions_of 0 prf)) (sid := pos root 0) (nid := fun i => pos root (1 + i)) ; rewrite <- ?Ed; auto.
    - exact rok4.
    - exact main_graph.
    - exact solver_graph.
    - split; [lia|apply Hk0].
    - exact solver_free.
    - intros a' id' d' cl' r ps' args' ds' prev'. exact (other_in a' id' d' cl' r ps' args' ds' prev').
    - split; [exact Hin|]. split; [exact Hcl|exact (proj1 (proj2 Hfits))].
    - apply (assumes_shift (d + 1) root 0). exact Hz.
    - intros y [].
    - intros y Hy. right. apply in_map_iff in Hy. destruct Hy as (x & <- & Hx). exists x. apply Hasm in Hx. destruct Hx as (A & B & C). auto.
    - intros x Hx Hp Hh. apply in_map. apply Hasm. auto.
    - intros cx Hcx. destruct (Hg cx Hcx) as (n & En & _ & Hn). cbn [List.length]. rewrite Nat.add_0_r. injection En as <-. exact Hn.
  Qed.
End List_level.
