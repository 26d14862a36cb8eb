(** The graph of an accepted proof is accepted node by node, where the nodes stand: the hypothesis of [graph_check]. *)
From Coq Require Import List String ZArith Bool Arith Lia.
From Verif Require Import Base Term Rules Checker CheckerSound Nodes ElabIds ElabSolver ElabSound ElabSolverSound GraphAccept GraphCheck GraphTree.
Import ListNotations.
Local Open Scope string_scope.
Local Open Scope nat_scope.
Local Open Scope list_scope.

Definition kids (n : pnode) : list pnode :=
  match n with
  | PAssume _ _ _ _ => []
  | PStep _ _ _ _ _ ps _ ds prev => ps ++ ds ++ match prev with Some p => [p] | None => [] end
  | PSub _ l _ out extra => l :: out ++ extra
  end.
Lemma kids_all n x : In x (allnodes n) -> x = n \/ exists k, In k (kids n) /\ In x (allnodes k).
Proof.
  destruct n as [a id d t|a id d cl r ps args ds prev|a l args out extra]; intros [H|H]; auto; right.
  - destruct H.
  - rewrite !in_app_iff in H. cbn [kids]. destruct H as [H|[H|H]].
    + apply in_flat_map in H. destruct H as (k & Hk & H). exists k. rewrite !in_app_iff. auto.
    + apply in_flat_map in H. destruct H as (k & Hk & H). exists k. rewrite !in_app_iff. auto.
    + destruct prev as [p|]; [|destruct H]. exists p. rewrite !in_app_iff. cbn. auto.
  - rewrite !in_app_iff in H. cbn [kids]. destruct H as [H|[H|H]]; [exists l; cbn; auto| |].
    + apply in_flat_map in H. destruct H as (k & Hk & H). exists k. cbn. rewrite !in_app_iff. auto.
    + apply in_flat_map in H. destruct H as (k & Hk & H). exists k. cbn. rewrite !in_app_iff. auto.
Qed.
Lemma walk_fst path n : map fst (walk path n) = map paddr (tree n).
Proof.
  revert path. induction n as [a id d t|a id d cl r ps args ds prev _ _ _|a l args out extra Hl _ He] using pnode_ind'; intros path; [reflexivity|reflexivity|].
  cbn [walk tree map fst]. f_equal. rewrite !map_app, Hl. f_equal. clear -He. induction He as [|x r Hx _ IH]; [reflexivity|]. cbn [flat_map]. rewrite !map_app, Hx, IH. reflexivity.
Qed.
Lemma find_key {A} (l : list (nat * A)) a p : NoDup (map fst l) -> In (a, p) l -> find (fun e => Nat.eqb (fst e) a) l = Some (a, p).
Proof.
  induction l as [|[b q] l IH]; intros Hn H; [destruct H|]. cbn [map fst] in Hn. inversion Hn as [|? ? H1 H2]; subst. cbn [find fst]. destruct H as [H|H].
  - injection H as -> ->. rewrite Nat.eqb_refl. reflexivity.
  - destruct (Nat.eqb_spec b a) as [->|_]; [|auto]. exfalso. apply H1. apply (in_map fst) in H. exact H.
Qed.
Lemma nodup_addr l x y : NoDup (map paddr l) -> In x l -> In y l -> paddr x = paddr y -> x = y.
Proof.
  induction l as [|z l IH]; intros Hn Hx Hy E; [destruct Hx|]. cbn [map] in Hn. inversion Hn as [|? ? H1 H2]; subst. destruct Hx as [<-|Hx], Hy as [<-|Hy]; auto.
  - exfalso. apply H1. rewrite E. apply in_map. exact Hy.
  - exfalso. apply H1. rewrite <- E. apply in_map. exact Hx.
Qed.
Lemma find_addr l x : NoDup (map paddr l) -> In x l -> find (fun y => Nat.eqb (paddr y) (paddr x)) l = Some x.
Proof.
  intros Hn Hx. destruct (find (fun y => Nat.eqb (paddr y) (paddr x)) l) as [y|] eqn:E.
  - apply find_some in E. destruct E as [E1 E2]. apply Nat.eqb_eq in E2. f_equal. eapply nodup_addr; eauto.
  - apply (find_none _ _ E) in Hx. rewrite Nat.eqb_refl in Hx. discriminate.
Qed.

Lemma disch_assumes : forall ds cl, disch_ok (map as_command ds) cl = ROk tt -> List.length ds <= List.length cl -> forall x, In x ds -> is_passume x = true.
Proof.
  induction ds as [|y ds IH]; intros cl H Hl x Hx; [destruct Hx|]. destruct cl as [|t cl]; [cbn in Hl; lia|]. cbn [map disch_ok] in H. destruct y; cbn [as_command] in H; try discriminate.
  apply obind_ok in H. destruct H as (t' & _ & H). apply obind_ok in H. destruct H as (? & _ & H). destruct Hx as [<-|Hx]; [reflexivity|]. eapply IH; [exact H|cbn in Hl; lia|exact Hx].
Qed.
Lemma subproof_assumes cl ps args cx prev ds : subproof (mkRA cl ps args cx prev (map as_command ds)) = ROk tt -> forall x, In x ds -> is_passume x = true.
Proof.
  unfold subproof. cbn [ra_prev ra_concl ra_disch]. intros H. apply obind_ok in H. destruct H as (pc & _ & H). apply obind_ok in H. destruct H as (u & Hl & H). apply obind_ok in H. destruct H as ([] & Hd & _).
  unfold rassert in Hl. destruct (Nat.eqb _ _) eqn:E; [|discriminate]. apply Nat.eqb_eq in E. rewrite map_length in E. eapply disch_assumes; [exact Hd|lia].
Qed.

Section Forest.
  Variable forest : list pnode.
  Hypothesis Hs : soks [] [] forest.
  Hypothesis Hnd : NoDup (map paddr (flat_map tree forest)).
  Definition fnode (x : pnode) : Prop := In x (flat_map tree forest).
  Definition fwalk : list (nat * list nat) := flat_map (walk []) forest.
  Definition fhome (a : nat) : list nat := match find (fun e => Nat.eqb (fst e) a) fwalk with Some e => snd e | None => [] end.
  Definition fanchor (a : nat) : list anchor := match find (fun x => Nat.eqb (paddr x) a) (flat_map tree forest) with Some (PSub _ _ args _ _) => args | _ => [] end.
  Notation hm n := (fhome (paddr n)).
  Lemma fwalk_nodup : NoDup (map fst fwalk).
  Proof. replace (map fst fwalk) with (map paddr (flat_map tree forest)); [exact Hnd|]. unfold fwalk. clear. induction forest as [|n f IH]; [reflexivity|]. cbn [flat_map]. rewrite !map_app, walk_fst, IH. reflexivity. Qed.
  Lemma home_walk a p : In (a, p) fwalk -> fhome a = p.
  Proof. intros H. unfold fhome. rewrite (find_key _ _ _ fwalk_nodup H). reflexivity. Qed.
  Lemma fanchor_sub a l args out extra : fnode (PSub a l args out extra) -> fanchor a = args.
  Proof. intros H. unfold fanchor. change a with (paddr (PSub a l args out extra)). rewrite (find_addr _ _ Hnd H). reflexivity. Qed.
  Lemma walk_self path n : In (paddr n, path) (walk path n). Proof. destruct n; left; reflexivity. Qed.
  Lemma tree_self n : In n (tree n). Proof. destruct n; left; reflexivity. Qed.

  Definition avok (path : list nat) (av : list (list pnode)) : Prop := List.length av = S (List.length path) /\
    forall j l m, nth_error av j = Some l -> In m l -> fnode m /\ plain_node m = true /\ hm m = firstn j path.
  Definition placed (path : list nat) (n : pnode) : Prop := incl (walk path n) fwalk /\ incl (tree n) (flat_map tree forest).
  Record fact (x : pnode) : Prop := {
    a_depth : pdepth x = List.length (hm x);
    a_path : forall b, In b (hm x) -> paddr x < b;
    a_kids : forall q, In q (kids x) -> fnode q /\ paddr q < paddr x;
    a_step : match x with
             | PAssume _ _ _ _ => True
             | PStep _ _ _ _ _ ps _ ds None => forall q, In q (ps ++ ds) -> plain_node q = true /\ prefix (hm q) (hm x)
             | PStep _ _ _ _ _ _ _ _ (Some _) => True
             | PSub a l _ out extra => (forall o, In o out -> plain_node o = true /\ prefix (hm o) (fhome a)) /\ (forall e, In e extra -> plain_node e = true /\ hm e = fhome a ++ [a]) /\
                 (forall y q, In y (extra ++ [l]) -> In q (deps y) -> pdepth q <= List.length (fhome a) -> In q out) /\
                 exists al id d cl r ps sargs ds p e, l = PStep al id d cl r ps sargs ds (Some p) /\ hm l = fhome a ++ [a] /\ extra = e ++ [p] /\ below (paddr p) e /\
                   (forall q, In q (ps ++ ds) -> plain_node q = true /\ (prefix (hm q) (fhome a) \/ In q extra))
             end;
    a_parent : (hm x = [] /\ In x forest) \/ exists a l args out extra, fnode (PSub a l args out extra) /\ hm x = fhome a ++ [a] /\ In x (l :: extra) }.

  Lemma av_in path av q : avok path av -> In q (List.concat av) -> fnode q /\ plain_node q = true /\ prefix (hm q) path.
  Proof.
    intros [_ H] Hq. apply in_concat in Hq. destruct Hq as (l & Hl & Hq). apply In_nth_error in Hl. destruct Hl as [j Hj]. destruct (H j l q Hj Hq) as (A & B & C). split; [exact A|]. split; [exact B|].
    rewrite C. exists (skipn j path). symmetry. apply firstn_skipn.
  Qed.
  Lemma av_push path a av pre : avok path av -> (forall m, In m pre -> fnode m /\ plain_node m = true /\ hm m = path ++ [a]) -> avok (path ++ [a]) (av ++ [pre]).
  Proof.
    intros [L H] Hp. split; [rewrite !app_length; cbn; lia|]. intros j l m Hj Hm. apply nth_snoc in Hj. destruct Hj as [Hj|[-> ->]].
    - destruct (H j l m Hj Hm) as (A & B & C). split; [exact A|]. split; [exact B|]. rewrite C. assert (j < List.length av) by (apply nth_error_Some; congruence).
      rewrite firstn_app. replace (j - List.length path) with 0 by lia. cbn. rewrite app_nil_r. reflexivity.
    - destruct (Hp m Hm) as (A & B & C). split; [exact A|]. split; [exact B|]. rewrite C, L. rewrite firstn_all2; [reflexivity|]. rewrite app_length. cbn. lia.
  Qed.
  Definition parent_ok (path : list nat) (x : pnode) : Prop := (path = [] /\ In x forest) \/ exists a l args out extra, fnode (PSub a l args out extra) /\ path = fhome a ++ [a] /\ In x (l :: extra).
  Lemma placed_self path n : placed path n -> fnode n /\ hm n = path.
  Proof. intros [H1 H2]. split; [apply H2; apply tree_self|]. apply home_walk. apply H1. apply walk_self. Qed.
  Lemma placed_kid path a l args out extra x : placed path (PSub a l args out extra) -> In x (l :: extra) -> placed (path ++ [a]) x.
  Proof.
    intros [H1 H2] Hx. split; intros y Hy.
    - apply H1. cbn [walk]. right. apply in_app_iff. destruct Hx as [<-|Hx]; [left; exact Hy|right; apply in_flat_map; eauto].
    - apply H2. cbn [tree]. right. apply in_app_iff. destruct Hx as [<-|Hx]; [left; exact Hy|right; apply in_flat_map; eauto].
  Qed.
  Definition factual (n : pnode) : Prop := forall path av, sok av n -> avok path av -> placed path n -> parent_ok path n -> (forall b x, In b path -> In x (tree n) -> paddr x < b) -> forall x, In x (tree n) -> fact x.
  Lemma soks_facts path av ex : forall pre, Forall factual ex -> soks av pre ex -> (forall p, In p pre -> exists q, In q pre) ->
    (forall pre', incl pre' (pre ++ ex) -> avok path (av ++ [pre'])) -> (forall y, In y ex -> placed path y /\ parent_ok path y /\ forall b x, In b path -> In x (tree y) -> paddr x < b) ->
    forall y x, In y ex -> In x (tree y) -> fact x.
  Proof.
    induction ex as [|z r IH]; intros pre HF Hsk _ Hav Hy y x Hin Hx; [destruct Hin|]. cbn [soks] in Hsk. destruct Hsk as (A & _ & C). inversion HF as [|? ? F1 F2]; subst. destruct Hin as [<-|Hin].
    - destruct (Hy z (or_introl eq_refl)) as (P1 & P2 & P3). apply (F1 path (av ++ [pre])); auto. apply Hav. intros m Hm. apply in_app_iff. auto.
    - apply (IH (pre ++ [z]) F2 C ltac:(eauto)) with (y := y); auto. intros pre' Hi. apply Hav. rewrite <- app_assoc in Hi. exact Hi. intros w Hw. apply Hy. right. exact Hw.
  Qed.
  Lemma soks_below av e p : forall pre, soks av pre (e ++ [p]) -> below (paddr p) (pre ++ e).
  Proof.
    induction e as [|z r IH]; intros pre H; cbn [soks app] in H.
    - rewrite app_nil_r. apply H.
    - destruct H as (_ & _ & H). specialize (IH _ H). rewrite <- app_assoc in IH. exact IH.
  Qed.
  Lemma soks_plain av ex : forall pre e, soks av pre ex -> In e ex -> plain_node e = true.
  Proof. induction ex as [|y r IH]; intros pre e Hex He; [destruct He|]. cbn [soks] in Hex. destruct Hex as (A & _ & C). destruct He as [<-|He]; [eapply sok_plain; eauto|eapply IH; eauto]. Qed.
  Lemma facts n : factual n.
  Proof.
    induction n as [a id d t|a id d cl r ps args ds prev _ _ _|a l args out extra Hl _ He] using pnode_ind'; intros path av Hk Hav Hp Hpar Hb x Hx; destruct (placed_self _ _ Hp) as [Gn En].
    - destruct Hx as [<-|[]]. cbn [sok] in Hk. split.
      + rewrite En. cbn [pdepth]. destruct Hav as [L _]. lia.
      + intros b Hin. rewrite En in Hin. apply (Hb b _ Hin). left. reflexivity.
      + intros q [].
      + exact Logic.I.
      + rewrite En. exact Hpar.
    - destruct Hx as [<-|[]]. cbn [sok] in Hk. destruct Hk as (Hd & -> & Hi & Hbl). split.
      + rewrite En. cbn [pdepth]. destruct Hav as [L _]. lia.
      + intros b Hin. rewrite En in Hin. apply (Hb b _ Hin). left. reflexivity.
      + intros q Hq. cbn [kids] in Hq. rewrite app_nil_r in Hq. split; [apply (av_in _ _ _ Hav (Hi q Hq))|apply Hbl; exact Hq].
      + intros q Hq. rewrite En. destruct (av_in _ _ _ Hav (Hi q Hq)) as (_ & A & B). auto.
      + rewrite En. exact Hpar.
    - rewrite sok_sub in Hk. destruct Hk as (Hout & Hbl & Hlast & Houts & Hex). change (fhome (paddr (PSub a l args out extra))) with (fhome a) in En.
      assert (Pk : forall y, In y (l :: extra) -> placed (path ++ [a]) y) by (intros y Hy; eapply placed_kid; eauto).
      assert (Gk : forall y, In y (l :: extra) -> fnode y /\ hm y = path ++ [a]) by (intros y Hy; apply placed_self; apply Pk; exact Hy).
      assert (Hpark : forall y, In y (l :: extra) -> parent_ok (path ++ [a]) y) by (intros y Hy; right; exists a, l, args, out, extra; rewrite En; auto).
      assert (Hbk : forall y, In y (l :: extra) -> forall b z, In b (path ++ [a]) -> In z (tree y) -> paddr z < b).
      { intros y Hy b z Hin Hz. assert (Hz' : In z (tree l ++ flat_map tree extra)) by (apply in_app_iff; destruct Hy as [<-|Hy]; [auto|right; apply in_flat_map; eauto]).
        apply in_app_iff in Hin. destruct Hin as [Hin|[<-|[]]]; [apply (Hb b z Hin); cbn [tree]; right; exact Hz'|]. apply Hbl. apply in_app_iff. auto. }
      assert (Pex : forall e, In e extra -> plain_node e = true) by (intros e; apply (soks_plain _ _ _ _ Hex)).
      destruct l as [|al lid ld lcl lr lps largs lds [p|]|]; try contradiction. set (l := PStep al lid ld lcl lr lps largs lds (Some p)) in *. cbn [last_ok l] in Hlast. destruct Hlast as (Hld & (e & Ee) & Hli & Hlb).
      assert (Hxs : (x = PSub a l args out extra) \/ x = l \/ exists y, In y extra /\ In x (tree y)).
      { destruct Hx as [<-|Hx]; [auto|]. cbn [tree l app] in Hx. destruct Hx as [<-|Hx]; [auto|]. right. right. apply in_flat_map in Hx. exact Hx. }
      assert (Hlq : forall q, In q (lps ++ lds) -> fnode q /\ plain_node q = true /\ (prefix (hm q) path \/ In q extra)).
      { intros q Hq. specialize (Hli q Hq). rewrite concat_snoc in Hli. apply in_app_iff in Hli. destruct Hli as [Hli|Hli]; [destruct (av_in _ _ _ Hav Hli) as (A & B & C); auto|]. split; [apply Gk; right; exact Hli|]. auto. }
      destruct Hxs as [->|[->|(y & Hy & Hxy)]].
      + split.
        * change (fhome (paddr (PSub a l args out extra))) with (fhome a). rewrite En. cbn [pdepth l]. destruct Hav as [L _]. lia.
        * intros b Hin. change (fhome (paddr (PSub a l args out extra))) with (fhome a) in Hin. rewrite En in Hin. apply (Hb b _ Hin). left. reflexivity.
        * intros q Hq. cbn [kids] in Hq. split.
          -- destruct Hq as [<-|Hq]; [apply Gk; left; reflexivity|]. apply in_app_iff in Hq. destruct Hq as [Hq|Hq]; [apply (av_in _ _ _ Hav (Hout q Hq))|apply Gk; right; exact Hq].
          -- cbn [paddr]. apply Hbl. destruct Hq as [<-|Hq]; [rewrite !in_app_iff; right; left; apply tree_self|]. rewrite !in_app_iff in *. destruct Hq as [Hq|Hq]; [auto|]. right. right. apply in_flat_map. exists q. split; [exact Hq|apply tree_self].
        * rewrite En. split; [intros o Ho; destruct (av_in _ _ _ Hav (Hout o Ho)) as (_ & A & B); auto|]. split; [intros z Hz; split; [apply Pex; exact Hz|apply Gk; right; exact Hz]|]. split.
          -- intros z q Hz Hq Hlen. apply (Houts z q Hz Hq). destruct Hav as [L _]. lia.
          -- exists al, lid, ld, lcl, lr, lps, largs, lds, p, e. split; [reflexivity|]. split; [apply Gk; left; reflexivity|]. split; [exact Ee|]. split.
             ++ rewrite Ee in Hex. exact (soks_below _ _ _ _ Hex).
             ++ intros q Hq. apply Hlq in Hq. tauto.
        * change (fhome (paddr (PSub a l args out extra))) with (fhome a). rewrite En. exact Hpar.
      + destruct (Gk l (or_introl eq_refl)) as [_ El]. split.
        * rewrite El, app_length. cbn [pdepth l List.length]. destruct Hav as [L _]. lia.
        * intros b Hin. rewrite El in Hin. apply (Hbk l (or_introl eq_refl) b l Hin). apply tree_self.
        * intros q Hq. cbn [kids l] in Hq. rewrite app_assoc, in_app_iff in Hq. destruct Hq as [Hq|[<-|[]]].
          -- split; [apply Hlq; exact Hq|]. cbn [paddr l]. apply Hlb. rewrite app_assoc, in_app_iff. auto.
          -- assert (Hpe : In p extra) by (rewrite Ee; apply in_app_iff; right; left; reflexivity). split; [apply Gk; right; exact Hpe|]. cbn [paddr l]. apply Hlb. rewrite !in_app_iff. auto.
        * exact Logic.I.
        * rewrite El. apply Hpark. left. reflexivity.
      + apply (soks_facts (path ++ [a]) av extra [] He Hex ltac:(intros ? [])) with (y := y); auto.
        * intros pre' Hi. apply av_push; [exact Hav|]. intros m Hm. destruct (Gk m (or_intror (Hi m Hm))). split; [assumption|]. split; [apply Pex; apply Hi; exact Hm|assumption].
        * intros z Hz. split; [apply Pk; right; exact Hz|]. split; [apply Hpark; right; exact Hz|apply Hbk; right; exact Hz].
  Qed.
  Theorem forest_facts x : fnode x -> fact x.
  Proof.
    intros Hx. apply in_flat_map in Hx. destruct Hx as (y & Hy & Hx).
    assert (P : forall z, In z forest -> placed [] z) by (intros z Hz; split; intros w Hw; apply in_flat_map; eauto).
    apply (soks_facts [] [] forest [] ltac:(apply Forall_forall; intros; apply facts) Hs ltac:(intros ? [])) with (y := y); auto.
    - intros pre' Hi. cbn [app] in *. split; [reflexivity|]. intros [|j] l m Hj Hm; [|destruct j; discriminate]. injection Hj as <-. destruct (placed_self _ _ (P m (Hi m Hm))) as [A B]. split; [exact A|]. split; [|exact B].
      exact (soks_plain _ _ _ _ Hs (Hi m Hm)).
    - intros z Hz. split; [apply P; exact Hz|]. split; [left; auto|intros b w []].
  Qed.
  Lemma forest_all n : forall x, fnode n -> In x (allnodes n) -> fnode x /\ paddr x <= paddr n.
  Proof.
    assert (H : forall k n, nsize n <= k -> forall x, fnode n -> In x (allnodes n) -> fnode x /\ paddr x <= paddr n).
    { induction k as [|k IH]; intros m Hm x Hn Hx; [destruct m; cbn in Hm; lia|]. apply kids_all in Hx. destruct Hx as [->|(q & Hq & Hx)]; [split; [exact Hn|lia]|].
      destruct (a_kids _ (forest_facts _ Hn) q Hq) as [A B]. assert (nsize q < nsize m).
      { destruct m as [|a id d cl r ps args ds prev|a l args out extra]; cbn [kids nsize] in *; [destruct Hq| |].
        - rewrite !in_app_iff in Hq. destruct Hq as [Hq|[Hq|Hq]]; [pose proof (sum_in ps q Hq); lia|pose proof (sum_in ds q Hq); lia|]. destruct prev as [p|]; [|destruct Hq]. destruct Hq as [<-|[]]. lia.
        - destruct Hq as [<-|Hq]; [lia|]. apply in_app_iff in Hq. destruct Hq as [Hq|Hq]; [pose proof (sum_in out q Hq); lia|pose proof (sum_in extra q Hq); lia]. }
      destruct (IH q ltac:(lia) x A Hx). split; [assumption|lia]. }
    intros x. apply (H (nsize n) n). lia.
  Qed.
  Lemma forest_addr x y : fnode x -> fnode y -> paddr x = paddr y -> x = y.
  Proof. apply nodup_addr. exact Hnd. Qed.

  (** ** Acceptance *)
  Section Ok.
    Variables (table : bool -> string -> option crule) (cfg : config) (prems : list term).
    Hypothesis Hsub : table (elaborated cfg) "subproof" = Some subproof.
    Hypothesis Hgok : Forall (gok (table (elaborated cfg)) []) forest.
    Hypothesis Hasm : forall a id d t, In (PAssume a id d t) forest -> check_assume cfg prems t false = ROk true.
    Variable R : string -> Prop.
    Hypothesis HR : forall a id d cl r ps args ds prev, fnode (PStep a id d cl r ps args ds prev) -> R r.
    Notation T := (table (elaborated cfg)).
    Lemma gok_tree n : forall path, placed path n -> gok T (cxof fanchor path) n -> forall x, In x (tree n) -> gok T (cxof fanchor (hm x)) x.
    Proof.
      induction n as [a id d t|a id d cl r ps args ds prev _ _ _|a l args out extra Hl _ He] using pnode_ind'; intros path Hp Hg x Hx; destruct (placed_self _ _ Hp) as [Gn En].
      - destruct Hx as [<-|[]]. rewrite En. exact Hg.
      - destruct Hx as [<-|[]]. rewrite En. exact Hg.
      - destruct Hx as [<-|Hx]; [rewrite En; exact Hg|]. cbn [gok] in Hg. destruct Hg as (G1 & G2 & _). apply fold_and_map in G2.
        assert (Ec : args :: cxof fanchor path = cxof fanchor (path ++ [a])) by (unfold cxof; rewrite map_app, rev_app_distr; cbn; rewrite (fanchor_sub _ _ _ _ _ Gn); reflexivity). rewrite Ec in G1, G2.
        apply in_app_iff in Hx. destruct Hx as [Hx|Hx].
        + apply (Hl (path ++ [a])); auto. eapply placed_kid; [exact Hp|left; reflexivity].
        + apply in_flat_map in Hx. destruct Hx as (y & Hy & Hx). rewrite Forall_forall in He, G2. apply (He y Hy (path ++ [a])); auto. eapply placed_kid; [exact Hp|right; exact Hy].
    Qed.
    Lemma gok_at x : fnode x -> gok T (cxof fanchor (hm x)) x.
    Proof.
      intros Hx. apply in_flat_map in Hx. destruct Hx as (y & Hy & Hx). apply (gok_tree y []); auto.
      - split; intros w Hw; apply in_flat_map; eauto.
      - rewrite Forall_forall in Hgok. apply Hgok. exact Hy.
    Qed.
    Theorem forest_wfg : wfg table cfg prems fnode fhome fanchor R.
    Proof.
      split.
      - intros n x Hn Hx. apply (forest_all n x Hn Hx).
      - exact forest_addr.
      - intros n Hn. apply (a_depth _ (forest_facts _ Hn)).
      - intros n Hn Hin. pose proof (a_path _ (forest_facts _ Hn) _ Hin). lia.
      - intros a id d t Hn Hh. destruct (a_parent _ (forest_facts _ Hn)) as [[_ H]|(a' & l & args & out & extra & _ & H & _)].
        + eapply Hasm. exact H.
        + exfalso. cbn [paddr] in H. rewrite Hh in H. destruct (fhome a'); discriminate.
      - intros a id d cl r ps args ds Hn. pose proof (forest_facts _ Hn) as F. pose proof (gok_at _ Hn) as Hg. cbn [gok] in Hg. destruct Hg as ((f & Hf & Hok) & Hds & _).
        assert (ds = []) as ->. { destruct Hds as [H|H]; [exact H|]. rewrite H, Hsub in Hf. injection Hf as <-. discriminate. }
        split; [reflexivity|]. split; [|split; [eapply HR; exact Hn|exists f; auto]]. intros p Hp. apply (a_step _ F). rewrite app_nil_r. exact Hp.
      - intros a l args out extra Hn. pose proof (forest_facts _ Hn) as F. pose proof (gok_at _ Hn) as Hg. destruct (a_step _ F) as (S1 & S2 & _ & al & id & d & cl & r & ps & sargs & ds & p & e & El & Ehl & Ee & Hbe & Hq).
        split; [apply (fanchor_sub _ _ _ _ _ Hn)|]. split; [exact S1|]. split; [intros z Hz; destruct (S2 z Hz) as [A ->]; split; [exact A|apply pre_refl]|].
        assert (Gl : fnode l) by (apply (a_kids _ F); left; reflexivity). assert (Fl := forest_facts _ Gl).
        assert (Hpe : In p extra) by (rewrite Ee; apply in_app_iff; right; left; reflexivity).
        exists al, id, d, cl, r, ps, sargs, ds, p. split; [exact El|]. split; [rewrite El in Ehl; exact Ehl|]. destruct (S2 p Hpe) as [A B]. split; [exact A|]. split; [exact B|].
        assert (Hq' : forall q, In q (ps ++ ds) -> plain_node q = true /\ prefix (hm q) (fhome a ++ [a])).
        { intros q Hin. destruct (Hq q Hin) as [X [Y|Y]]; split; auto; [eapply pre_trans; [exact Y|apply pre_app]|]. rewrite (proj2 (S2 q Y)). apply pre_refl. }
        split; [intros q Hin; apply Hq'; apply in_app_iff; auto|].
        assert (Ec : args :: cxof fanchor (fhome a) = cxof fanchor (fhome a ++ [a])) by (unfold cxof; rewrite map_app, rev_app_distr; cbn; rewrite (fanchor_sub _ _ _ _ _ Hn); reflexivity).
        cbn [gok] in Hg. change (fhome (paddr (PSub a l args out extra))) with (fhome a) in Hg. rewrite Ec in Hg. destruct Hg as (G1 & G2 & G3). rewrite El in G1. cbn [gok] in G1. destruct G1 as ((f & Hf & Hok) & Hds & _).
        assert (Has : forall x, In x ds -> is_passume x = true).
        { intros x Hx. destruct Hds as [->|Hds]; [destruct Hx|]. rewrite Hds, Hsub in Hf. injection Hf as <-. eapply subproof_assumes; eauto. }
        split; [intros x Hx; split; [apply Has; exact Hx|apply Hq'; apply in_app_iff; auto]|]. split; [exact Hds|]. split; [split; [eapply HR; rewrite El in Gl; exact Gl|exists f; auto]|]. split.
        + intros x Gx Hx Hhx. destruct (a_parent _ (forest_facts _ Gx)) as [[H _]|(a' & l' & args' & out' & extra' & Hn' & H & Hin)]; [rewrite Hhx in H; destruct (fhome a); discriminate|].
          rewrite Hhx in H. apply app_inj_tail in H. destruct H as [_ <-]. assert (E : PSub a l' args' out' extra' = PSub a l args out extra) by (apply forest_addr; auto). injection E as -> -> -> ->.
          destruct Hin as [<-|Hin]; [rewrite El in Hx; discriminate|].
          assert (Hdx : pdepth x = pdepth l) by (rewrite (a_depth _ (forest_facts _ Gx)), (a_depth _ Fl), Hhx, Ehl; reflexivity).
          assert (Hsc : In (paddr x) (map paddr ds)).
          { specialize (G3 x). assert (Em : match l with PStep _ _ _ _ _ _ _ ds _ => In (paddr x) (map paddr ds) | _ => False end -> In (paddr x) (map paddr ds)) by (rewrite El; auto). apply Em. apply G3.
            - apply in_app_iff. left. apply in_flat_map. exists x. split; [exact Hin|]. rewrite <- Hdx. destruct x; try discriminate. cbn [scope pdepth]. rewrite Nat.ltb_irrefl. left. reflexivity.
            - rewrite <- Hdx. destruct x; try discriminate. cbn [is_assume_at pdepth]. apply Nat.eqb_refl. }
          apply in_map_iff in Hsc. destruct Hsc as (y & Ey & Hy). assert (y = x) as <-; [|exact Hy]. apply forest_addr; auto. apply (a_kids _ Fl). rewrite El. cbn [kids]. rewrite !in_app_iff. auto.
        + left. exists e. split; [exact Ee|]. split.
          * intros Hin. apply in_map_iff in Hin. destruct Hin as (y & Ey & Hy). apply in_flat_map in Hy. destruct Hy as (z & Hz & Hy). assert (Gz : fnode z) by (apply (a_kids _ F); cbn [kids]; right; rewrite !in_app_iff, Ee; right; apply in_app_iff; auto).
            destruct (forest_all z y Gz Hy). specialize (Hbe z Hz). lia.
          * intros q Hin. destruct (Hq q Hin) as [_ [X|X]]; [left; apply pre_len in X; lia|auto].
    Qed.
  End Ok.
End Forest.
