(** When the subproofs of a proof only discharge their own assumptions, an assumption that occurs in the graph of a step is found by the traversal of the graph
    (ast/node.rs, traverse), although the traversal skips the steps of subproofs that nothing depends on. *)
From Coq Require Import List String ZArith Bool Arith Lia.
From Verif Require Import Base Term Rules Checker CheckerSound Nodes ElabIds ElabSolver ElabSound ElabSolverSound GraphAccept GraphCheck GraphTree GraphWf GraphDone GraphReplace.
Import ListNotations.
Local Open Scope string_scope.
Local Open Scope nat_scope.
Local Open Scope list_scope.

(** ** Specification *)
(** every discharged command is in the subproof that the step closes *)
Fixpoint own_discharge (depth : nat) (c : command) : bool :=
  match c with
  | CAssume _ _ => true
  | CStep s => forallb (fun p => Nat.eqb (fst p) depth) (s_disch s)
  | CSub cs _ _ => forallb (own_discharge (S depth)) cs
  end.

(** ** The graph *)
Lemma omap_from {A B} (f : A -> outcome B) l bs : omap f l = ROk bs -> forall b, In b bs -> exists a, In a l /\ f a = ROk b.
Proof. intros H. apply omap_ok in H. induction H as [|x y l bs Hf _ IH]; intros b Hb; [destruct Hb|]. destruct Hb as [<-|Hb]; [exists x; split; [left; reflexivity|exact Hf]|]. destruct (IH b Hb) as (a & Ha & E). exists a. split; [right; exact Ha|exact E]. Qed.
Definition ownn (x : pnode) : Prop := match x with PStep _ _ d _ _ _ _ ds _ => forall y, In y ds -> pdepth y = d | _ => True end.
Definition ownt (n : pnode) : Prop := forall x, In x (tree n) -> ownn x.
Definition dinv (fs : list nframe) : Prop := forall j f n, nth_error fs j = Some f -> In n (nf_acc f) -> pdepth n = j /\ ownt n.
Definition ospec (c : command) : Prop := forall b k outer cur k' cur', node_cmd c b k outer cur = ROk (k', cur') ->
  own_discharge (List.length outer) c = true -> dinv (outer ++ [cur]) -> dinv (outer ++ [cur']).
Lemma dinv_last outer cur : dinv (outer ++ [cur]) -> forall n, In n (nf_acc cur) -> pdepth n = List.length outer /\ ownt n.
Proof. intros H n Hn. apply (H (List.length outer) cur n); [|exact Hn]. rewrite nth_error_app2, Nat.sub_diag by lia. reflexivity. Qed.
Lemma dinv_set outer cur cur' : dinv (outer ++ [cur]) -> (forall n, In n (nf_acc cur') -> pdepth n = List.length outer /\ ownt n) -> dinv (outer ++ [cur']).
Proof.
  intros H H' j f n Hj Hn. destruct (Nat.lt_ge_cases j (List.length outer)) as [Hl|Hl].
  - apply (H j f n); [|exact Hn]. rewrite nth_error_app1 in * by exact Hl. exact Hj.
  - rewrite nth_error_app2 in Hj by exact Hl. destruct (j - List.length outer) as [|i] eqn:E; [|destruct i; discriminate]. injection Hj as <-. destruct (H' n Hn). split; [lia|assumption].
Qed.
Lemma ospec_list cs : Forall ospec cs -> forall k outer fr k' fr', node_list cs k outer fr = ROk (k', fr') -> forallb (own_discharge (List.length outer)) cs = true ->
  dinv (outer ++ [fr]) -> dinv (outer ++ [fr']).
Proof.
  induction 1 as [|c cs Hc _ IH]; intros k outer fr k' fr' Hn Ho Hd; cbn [node_list] in Hn; [injection Hn as <- <-; exact Hd|].
  destruct (node_cmd c _ k outer fr) as [[k1 fr1]| |] eqn:E; try discriminate. cbn [obind fst snd] in Hn. cbn [forallb] in Ho. apply andb_true_iff in Ho. destruct Ho as [O1 O2].
  eapply IH; [exact Hn|exact O2|]. eapply Hc; eauto.
Qed.
Lemma ospec_all c : ospec c.
Proof.
  induction c as [id t|s|cs args z IH] using command_ind'; intros b k outer cur k' cur' Hn Ho Hd; pose proof (dinv_last _ _ Hd) as Hl.
  - cbn [node_cmd] in Hn. injection Hn as <- <-. eapply dinv_set; [exact Hd|]. intros n H. cbn [nf_acc] in H. apply in_app_or in H. destruct H as [H|[<-|[]]]; [auto|]. split; [reflexivity|].
    intros x [<-|[]]. exact Logic.I.
  - cbn [node_cmd] in Hn. destruct (omap (fetch (outer ++ [cur])) (s_prems s)) as [ps| |] eqn:Eps; try discriminate. cbn [obind] in Hn.
    destruct (omap (fetch (outer ++ [cur])) (s_disch s)) as [ds| |] eqn:Eds; try discriminate. cbn [obind] in Hn.
    match type of Hn with (do _ <- ?X ; _) = _ => destruct X as [prev| |] eqn:Ep; try discriminate end. cbn [obind] in Hn. injection Hn as <- <-.
    eapply dinv_set; [exact Hd|]. intros n H. cbn [nf_acc] in H. apply in_app_or in H. destruct H as [H|[<-|[]]]; [auto|]. split; [reflexivity|]. intros x [<-|[]]. cbn [ownn]. intros y Hy.
    destruct (omap_from _ _ _ Eds _ Hy) as ([e i] & Hp & Hf). cbn [own_discharge] in Ho. rewrite forallb_forall in Ho. specialize (Ho _ Hp). cbn [fst] in Ho. apply Nat.eqb_eq in Ho. subst e.
    unfold fetch in Hf. cbn [fst snd] in Hf. destruct (nth_error (outer ++ [cur]) (List.length outer)) as [f|] eqn:E1; [|discriminate]. cbn [unwrap obind] in Hf.
    destruct (nth_error (nf_acc f) i) as [m|] eqn:E2; [|discriminate]. injection Hf as ->. apply (Hd _ f y E1). eapply nth_error_In; exact E2.
  - rewrite node_sub in Hn. destruct (node_list cs k (outer ++ [cur]) (mkNF [] [])) as [[k2 fr]| |] eqn:En; try discriminate. cbn [obind fst snd] in Hn.
    destruct (nth_error (nf_acc fr) _) as [l|] eqn:El; [|discriminate]. cbn [unwrap obind] in Hn. injection Hn as <- <-.
    assert (G : dinv ((outer ++ [cur]) ++ [fr])).
    { eapply ospec_list; [exact IH|exact En| |]; [rewrite app_length, Nat.add_1_r; exact Ho|]. intros j f n Hj Hf. destruct (Nat.lt_ge_cases j (List.length (outer ++ [cur]))) as [Hlt|Hlt].
      - apply (Hd j f n); [|exact Hf]. rewrite nth_error_app1 in Hj by exact Hlt. exact Hj.
      - rewrite nth_error_app2 in Hj by exact Hlt. destruct (j - _) as [|i]; [|destruct i; discriminate]. injection Hj as <-. destruct Hf. }
    pose proof (dinv_last _ _ G) as Gl. rewrite app_length in Gl. cbn [List.length] in Gl.
    eapply dinv_set; [exact Hd|]. intros n H. cbn [nf_acc] in H. apply in_app_or in H. destruct H as [H|[<-|[]]]; [auto|]. pose proof (nth_error_In _ _ El) as Hin. split; [cbn [pdepth]; destruct (Gl l Hin) as [-> _]; lia|].
    intros x [<-|H]; [exact Logic.I|]. apply in_app_iff in H. destruct H as [H|H]; [apply (Gl l Hin); exact H|]. apply in_flat_map in H. destruct H as (p & Hp & H). apply (Gl p); [|exact H].
    clear -Hp. revert Hp. induction (nf_acc fr) as [|a r' IH]; [auto|]. destruct r' as [|b r']; [intros []|]. intros [<-|H]; [left; reflexivity|right; apply IH; exact H].
Qed.
Lemma nodes_own off proof forest : nodes_from off proof = ROk forest -> forallb (own_discharge 0) proof = true -> forall x, fnode forest x -> ownn x.
Proof.
  intros Hn Ho x Hx. unfold nodes_from in Hn. destruct (node_list proof off [] (mkNF [] [])) as [[k fr]| |] eqn:E; try discriminate. cbn [obind snd] in Hn. injection Hn as <-.
  apply in_flat_map in Hx. destruct Hx as (y & Hy & Hx). assert (D : dinv ([] ++ [fr])).
  { eapply ospec_list; [|exact E|exact Ho|]; [apply Forall_forall; intros c _; apply ospec_all|]. intros [|j] f n Hj; [injection Hj as <-; intros []|destruct j; discriminate]. }
  apply (D 0 fr y eq_refl Hy). exact Hx.
Qed.

Lemma prefix_cmp {A} (p q r : list A) : prefix p r -> prefix q r -> prefix p q \/ List.length q < List.length p.
Proof.
  intros [c ->]. revert q. induction p as [|x p IH]; intros q [e E]; [left; exists q; reflexivity|]. destruct q as [|y q]; [right; cbn; lia|]. cbn in E. injection E as -> E.
  destruct (IH q) as [[f ->]|H]; [exists e; exact E|left; exists f; reflexivity|right; cbn; lia].
Qed.
Lemma prefix_len {A} (p q : list A) : prefix p q -> List.length p = List.length q -> p = q.
Proof. intros [c ->] H. rewrite app_length in H. destruct c; [rewrite app_nil_r; reflexivity|cbn in H; lia]. Qed.
Lemma prefix_tr {A} (p q r : list A) : prefix p q -> prefix q r -> prefix p r.
Proof. intros [c ->] [e ->]. exists (c ++ e). symmetry. apply app_assoc. Qed.

Section Own.
  Variable forest : list pnode.
  Hypothesis Hs : soks [] [] forest.
  Hypothesis Hnd : NoDup (map paddr (flat_map tree forest)).
  Hypothesis Hown : forall x, fnode forest x -> ownn x.
  Notation hm n := (fhome forest (paddr n)).
  Notation fnode := (fnode forest).
  Notation fhome := (fhome forest).
  Section Leave.
    Variables (a : nat) (l : pnode) (args : list anchor) (out extra : list pnode).
    Hypothesis Ha : fnode (PSub a l args out extra).
    Notation A := (fhome a ++ [a]).
    Lemma cross k : forall z q, List.length (hm z) <= k -> fnode z -> prefix A (hm z) -> In q (deps z) -> pdepth q <= List.length (fhome a) -> In q out.
    Proof.
      induction k as [|k IH]; intros z q Hk Hz [c Ec] Hq Hd; [rewrite Ec, !app_length in Hk; cbn in Hk; lia|].
      destruct (a_parent _ _ (forest_facts _ Hs Hnd _ Hz)) as [[E _]|(a2 & l2 & args2 & out2 & extra2 & H2 & E & Hin)]; [rewrite E in Ec; symmetry in Ec; apply app_eq_nil in Ec; destruct Ec as [Ec _]; apply app_eq_nil in Ec; destruct Ec; discriminate|].
      pose proof (a_step _ _ (forest_facts _ Hs Hnd _ H2)) as (_ & _ & Hout & _). assert (Hin' : In z (extra2 ++ [l2])) by (apply in_app_iff; destruct Hin as [<-|Hin]; [right; left; reflexivity|left; exact Hin]).
      rewrite E in Ec. destruct c as [|x c] using rev_ind.
      - rewrite app_nil_r in Ec. apply app_inj_tail in Ec. destruct Ec as [_ ->]. assert (X : PSub a l2 args2 out2 extra2 = PSub a l args out extra) by (apply (forest_addr _ Hnd); auto). injection X as -> -> -> ->. eauto.
      - rewrite app_assoc in Ec. apply app_inj_tail in Ec. destruct Ec as [Ec ->]. apply (IH (PSub x l2 args2 out2 extra2)); auto.
        + rewrite E, app_length in Hk. cbn [paddr]. cbn in Hk. lia.
        + exists c. exact Ec.
        + cbn [deps]. apply (Hout z q Hin' Hq). rewrite Ec, !app_length. lia.
    Qed.
    Lemma step_in z q : fnode z -> prefix A (hm z) -> In q (kids z) -> prefix A (hm q) \/ (In q (deps z) /\ pdepth q <= List.length (fhome a)).
    Proof.
      intros Hz Hp Hq. pose proof (forest_facts _ Hs Hnd _ Hz) as Fz. destruct (a_kids _ _ Fz q Hq) as [Gq _]. pose proof (a_depth _ _ (forest_facts _ Hs Hnd _ Gq)) as Dq. pose proof (a_depth _ _ Fz) as Dz.
      assert (Cmp : forall p, prefix (hm q) p -> prefix A p -> prefix A (hm q) \/ pdepth q <= List.length (fhome a)).
      { intros p H1 H2. destruct (prefix_cmp _ _ _ H2 H1) as [H|H]; [left; exact H|right]. rewrite app_length in H. cbn in H. lia. }
      pose proof (a_step _ _ Fz) as Sz. pose proof (Hown z Hz) as Oz. destruct z as [za id d t|za id d cl r ps sargs ds [p|]|za zl zargs zout zextra]; [destruct Hq| | |].
      - destruct (a_parent _ _ Fz) as [[E _]|(a2 & l2 & args2 & out2 & extra2 & H2 & E & Hin)]; [rewrite E in Hp; destruct Hp as [c Hp]; symmetry in Hp; apply app_eq_nil in Hp; destruct Hp as [Hp _]; apply app_eq_nil in Hp; destruct Hp; discriminate|].
        pose proof (a_step _ _ (forest_facts _ Hs Hnd _ H2)) as (_ & Hex & _ & al & id2 & d2 & cl2 & r2 & ps2 & sargs2 & ds2 & p2 & e & El & _ & Ee & _ & Hps).
        destruct Hin as [Hin|Hin]; [|destruct (Hex _ Hin) as [X _]; discriminate X]. rewrite El in Hin. injection Hin as -> -> -> -> -> -> -> -> ->. rewrite E in Hp. cbn [kids deps] in *.
        assert (Xe : forall w, In w extra2 -> prefix A (hm w)) by (intros w Hw; destruct (Hex _ Hw) as [_ ->]; exact Hp).
        rewrite !in_app_iff in Hq. destruct Hq as [Hq|[Hq|[<-|[]]]]; [| |left; apply Xe; rewrite Ee, in_app_iff; cbn; auto].
        + destruct (Hps q) as [_ [X|X]]; [apply in_app_iff; auto| |left; auto]. destruct (Cmp (fhome a2 ++ [a2])) as [Y|Y]; auto. apply (prefix_tr _ _ _ X). exists [a2]. reflexivity.
        + cbn [ownn] in Oz. specialize (Oz q Hq). cbn [pdepth] in Dz. rewrite E, app_length in Dz. cbn in Dz. destruct (Hps q) as [_ [[c X]|X]]; [apply in_app_iff; auto| |left; auto].
          exfalso. assert (List.length (fhome a2) = List.length (hm q) + List.length c) by (rewrite X, app_length; reflexivity). lia.
      - cbn [kids deps] in *. rewrite app_nil_r in Hq. destruct (Sz q Hq) as [_ X]. apply in_app_iff in Hq. destruct Hq as [Hq|Hq].
        + destruct (Cmp _ X Hp) as [Y|Y]; auto.
        + left. cbn [ownn] in Oz. specialize (Oz q Hq). cbn [pdepth paddr] in *. rewrite (prefix_len _ _ X); [exact Hp|lia].
      - destruct Sz as (So & Se & _ & al & id2 & d2 & cl2 & r2 & ps2 & sargs2 & ds2 & p2 & e & El & Hl & _). cbn [kids deps paddr] in *.
        assert (Hp' : prefix A (fhome za ++ [za])) by (apply (prefix_tr _ _ _ Hp); exists [za]; reflexivity).
        destruct Hq as [<-|Hq]; [left; rewrite Hl; exact Hp'|]. apply in_app_iff in Hq. destruct Hq as [Hq|Hq]; [|left; destruct (Se q Hq) as [_ ->]; exact Hp'].
        destruct (So q Hq) as [_ X]. destruct (Cmp _ X Hp) as [Y|Y]; auto.
    Qed.
    Lemma leave k : forall z x, nsize z <= k -> fnode z -> prefix A (hm z) -> In x (allnodes z) -> pdepth x <= List.length (fhome a) -> exists q, In q out /\ In x (allnodes q).
    Proof.
      induction k as [|k IH]; intros z x Hk Hz Hp Hx Hd; [destruct z; cbn in Hk; lia|]. apply kids_all in Hx. destruct Hx as [->|(q & Hq & Hx)].
      - exfalso. rewrite (a_depth _ _ (forest_facts _ Hs Hnd _ Hz)) in Hd. destruct Hp as [c E]. rewrite E, !app_length in Hd. cbn in Hd. lia.
      - destruct (step_in z q Hz Hp Hq) as [H|[H1 H2]].
        + apply (IH q); auto; [pose proof (kid_size _ _ Hq); lia|]. apply (a_kids _ _ (forest_facts _ Hs Hnd _ Hz) q Hq).
        + exists q. split; [|exact Hx]. apply (cross (List.length (hm z)) z); auto.
    Qed.
  End Leave.
  Theorem found n x : fnode n -> In x (allnodes n) -> pdepth x = 0 -> In x (subnodes n).
  Proof.
    assert (H : forall k n, nsize n <= k -> fnode n -> In x (allnodes n) -> pdepth x = 0 -> In x (subnodes n)).
    { induction k as [|k IH]; intros m Hm Hn Hx Hd; [destruct m; cbn in Hm; lia|]. destruct (kids_all _ _ Hx) as [->|(q & Hq & Hxq)]; [apply subnodes_self|].
      assert (Gq : forall q, In q (kids m) -> nsize q <= k /\ fnode q) by (intros q' Hq'; split; [pose proof (kid_size _ _ Hq'); lia|apply (a_kids _ _ (forest_facts _ Hs Hnd _ Hn) q' Hq')]).
      assert (Iq : forall q, In q (kids m) -> In x (allnodes q) -> In x (subnodes q)) by (intros q' Hq' Hx'; destruct (Gq q' Hq'); apply IH; auto).
      destruct m as [|a id d cl r ps args ds prev|a l args out extra]; [destruct Hq| |].
      - cbn [subnodes]. right. pose proof (Iq q Hq Hxq) as S1. cbn [kids] in Hq. rewrite !in_app_iff in *. destruct Hq as [Hq|[Hq|Hq]]; [left; apply in_flat_map; eauto|right; left; apply in_flat_map; eauto|].
        destruct prev as [p|]; [|destruct Hq]. destruct Hq as [<-|[]]. right. right. exact S1.
      - cbn [subnodes]. right. rewrite in_app_iff. destruct Hq as [<-|Hq]; [right; apply Iq; [left; reflexivity|exact Hxq]|]. left. apply in_app_iff in Hq. destruct Hq as [Hq|Hq].
        + apply in_flat_map. exists q. split; [exact Hq|]. apply Iq; [right; apply in_app_iff; auto|exact Hxq].
        + pose proof (a_step _ _ (forest_facts _ Hs Hnd _ Hn)) as (_ & Hex & _). destruct (Hex q Hq) as [_ Eq]. destruct (Gq q) as [_ Fq]; [right; apply in_app_iff; auto|].
          destruct (leave a l args out extra Hn (nsize q) q x) as (o & Ho & Hxo); auto; [rewrite Eq; exists []; symmetry; apply app_nil_r|lia|].
          apply in_flat_map. exists o. split; [exact Ho|]. apply Iq; [right; apply in_app_iff; auto|exact Hxo]. }
    apply (H (nsize n) n). lia.
  Qed.
End Own.
