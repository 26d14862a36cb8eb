(** A pass of the elaborator over the graph of an accepted proof, in which steps are replaced by trees of steps over their premises (elaborator/mod.rs,
    [mutate]): the list of commands made of the new graph is accepted. *)
From Coq Require Import List String ZArith Bool Arith Lia Cantor.
From Verif Require Import Base Term Rules Checker CheckerSound Nodes Elab ElabIds ElabSolver ElabSound ElabSolverSound GraphAccept GraphCheck GraphTree GraphWf GraphDone GraphReplace.
Import ListNotations.
Local Open Scope string_scope.
Local Open Scope nat_scope.
Local Open Scope list_scope.

Definition clause_eqb (c c' : clause) : bool := list_eqb term_eqb c c'.

(** ** The pass *)
Section Pass.
  (** The elaboration of a step, given its premises; the ids of the new steps; the new nodes have addresses from [K] on. *)
  Variables (estep : clause -> string -> list enode -> list term -> outcome enode) (nid : nat -> nat -> string) (K : nat).
  Definition fresh (a j : nat) : nat := K + Cantor.to_nat (a, j).
  (** The nodes of the result of the elaboration of a step with address [a] and depth [d] (StepNode { id: ids.next_id(), depth: step.depth, .. } in
      elaborator/transitivity.rs, congruence.rs and resolution.rs).  A premise is recognised by its clause, which is all that the rules look at.
      [acc]: the nodes made so far. *)
  Fixpoint graft (ps : list pnode) (a d : nat) (n : enode) (acc : list pnode) : outcome (list pnode * pnode) :=
    match n with
    | EPrem c => do p <- unwrap (find (fun p => clause_eqb (pclause p) c) ps) ; ROk (acc, p)
    | EStep c r es args =>
        do x <- (fix all (l : list enode) (acc : list pnode) : outcome (list pnode * list pnode) :=
                   match l with [] => ROk (acc, []) | e :: l => do u <- graft ps a d e acc ; do v <- all l (fst u) ; ROk (fst v, snd u :: snd v) end) es acc ;
        let z := PStep (fresh a (List.length (fst x))) (nid a (List.length (fst x))) d c r (snd x) args [] None in
        ROk (fst x ++ [z], z)
    | ESub _ _ _ _ _ _ => RPanic
    end.
  Definition stepped (cl : clause) (r : string) (ps : list pnode) (args : list term) (a d : nat) : outcome (list pnode * pnode) :=
    do e <- estep cl r (map (fun p => EPrem (pclause p)) ps) args ; graft ps a d e [].
  (** elaborator/mod.rs:420-421 and 435-438: the outbound premises of a subproof are collected again *)
  Definition collect (l : list pnode) : list pnode := fold_left (fun acc y => outbound (pdepth y) acc (deps y)) l [].
  (** mutate_impl, elaborator/mod.rs:343-443.  The cache is left out: the result for a node does not depend on how it is reached. The last step of a subproof
      keeps its rule (see ElabLocal.v). *)
  Fixpoint pass (n : pnode) : outcome pnode :=
    match n with
    | PAssume _ _ _ _ => ROk n
    | PStep a id d cl r ps args ds prev =>
        do ps' <- omap pass ps ; do ds' <- omap pass ds ;
        match prev with
        | None => do x <- stepped cl r ps' args a d ; ROk (snd x)
        | Some p => do p' <- pass p ; ROk (PStep a id d cl r ps' args ds' (Some p'))
        end
    | PSub a l args out extra =>
        do l' <- pass l ; do extra' <- omap pass extra ;
        ROk (PSub a l' args (collect (extra' ++ [l'])) extra')
    end.
End Pass.

(** ** Its result *)
Lemma clause_eqb_eq c c' : clause_eqb c c' = true <-> c = c'.
Proof. unfold clause_eqb. apply list_eqb_eq. apply term_eqb_eq. Qed.
Lemma omap_each {A B} (f : A -> outcome B) l : (forall x, In x l -> exists y, f x = ROk y) -> exists k, omap f l = ROk k.
Proof. induction l as [|x l IH]; intros H; [exists []; reflexivity|]. cbn [omap]. destruct (H x (or_introl eq_refl)) as [y ->]. destruct (IH (fun z Hz => H z (or_intror Hz))) as [k ->]. cbn. eauto. Qed.
Lemma omap_map {A B} (f : A -> outcome B) (g : A -> B) l : (forall x, In x l -> f x = ROk (g x)) -> omap f l = ROk (map g l).
Proof. induction l as [|x l IH]; intros H; [reflexivity|]. cbn [omap map]. rewrite H by (left; reflexivity). rewrite IH by (intros y Hy; apply H; right; exact Hy). reflexivity. Qed.
(** the nodes of a subproof stand in the order of their addresses *)
Lemma soks_ord av ex : forall pre, soks av pre ex -> forall k1 e k2, ex = k1 ++ e :: k2 -> below (paddr e) (pre ++ k1).
Proof.
  induction ex as [|x r IH]; intros pre H k1 e k2 E; [destruct k1; discriminate|]. cbn [soks] in H. destruct H as (_ & B & C). destruct k1 as [|y k1].
  - injection E as -> ->. rewrite app_nil_r. exact B.
  - injection E as -> ->. specialize (IH _ C k1 e k2 eq_refl). rewrite <- app_assoc in IH. exact IH.
Qed.
Definition in_order (l : list pnode) : Prop := forall k1 e k2 w, l = k1 ++ e :: k2 -> In w l -> paddr w < paddr e -> In w k1.
Lemma soks_in_order av ex : soks av [] ex -> in_order ex.
Proof.
  intros H k1 e k2 w E Hw Hl. rewrite E in Hw. apply in_app_iff in Hw. destruct Hw as [Hw|[->|Hw]]; [exact Hw|lia|]. apply in_split in Hw. destruct Hw as (u & v & ->).
  pose proof (soks_ord _ _ _ H (k1 ++ e :: u) w v) as B. rewrite <- app_assoc in B. specialize (B E e). cbn in B. rewrite in_app_iff in B. specialize (B (or_intror (or_introl eq_refl))). lia.
Qed.
Lemma last_in_order av extra l : soks av [] extra -> last_ok av extra l -> in_order (extra ++ [l]).
Proof.
  intros Hs Hl k1 e k2 w E Hw Hlt. assert (Hb : below (paddr l) extra).
  { destruct l as [|a id d cl r ps args ds [p|]|]; try contradiction. destruct Hl as (_ & _ & _ & B). intros x Hx. apply B. rewrite !in_app_iff. auto. }
  destruct k2 as [|y k2].
  - apply app_inj_tail in E. destruct E as [-> ->]. apply in_app_iff in Hw. destruct Hw as [Hw|[->|[]]]; [exact Hw|lia].
  - destruct (@exists_last _ (y :: k2) ltac:(discriminate)) as (k2' & z & E2). rewrite E2 in E. change (e :: k2' ++ [z]) with ((e :: k2') ++ [z]) in E. rewrite app_assoc in E. apply app_inj_tail in E. destruct E as [-> ->].
    apply in_app_iff in Hw. destruct Hw as [Hw|[<-|[]]]; [eapply (soks_in_order _ _ Hs); [reflexivity|exact Hw|exact Hlt]|].
    exfalso. assert (paddr e < paddr z); [apply Hb; apply in_app_iff; right; left; reflexivity|lia].
Qed.
Lemma soks_each av ex : forall pre n, soks av pre ex -> In n ex -> exists av', sok av' n.
Proof. induction ex as [|x r IH]; intros pre n H Hn; [destruct Hn|]. cbn [soks] in H. destruct H as (A & _ & C). destruct Hn as [<-|Hn]; eauto. Qed.
Lemma tree_in_order n : forall av, sok av n -> forall a l args out extra, In (PSub a l args out extra) (tree n) -> in_order (extra ++ [l]).
Proof.
  induction n as [a id d t|a id d cl r ps args ds prev _ _ _|a l args out extra _ _ He] using pnode_ind'; intros av Hk a' l' args' out' extra' Hx.
  - destruct Hx as [Hx|[]]; discriminate.
  - destruct Hx as [Hx|[]]; discriminate.
  - rewrite sok_sub in Hk. destruct Hk as (_ & _ & Hl & _ & Hs). cbn [tree] in Hx. destruct Hx as [Hx|Hx].
    + injection Hx as -> -> -> -> ->. eapply last_in_order; eauto.
    + apply in_app_iff in Hx. destruct Hx as [Hx|Hx].
      * destruct l as [|al id d cl r ps sargs ds prev|]; try contradiction. destruct Hx as [Hx|[]]; discriminate.
      * apply in_flat_map in Hx. destruct Hx as (y & Hy & Hx). rewrite Forall_forall in He. destruct (soks_each _ _ _ _ Hs Hy) as [av' Hy']. exact (He y Hy av' Hy' _ _ _ _ _ Hx).
Qed.
Lemma collect_in l : forall acc o, In o (fold_left (fun acc y => outbound (pdepth y) acc (deps y)) l acc) -> In o acc \/ exists e, In e l /\ In o (deps e) /\ pdepth o < pdepth e.
Proof.
  induction l as [|y l IH]; intros acc o H; [auto|]. cbn [fold_left] in H. apply IH in H. destruct H as [H|(e & A & B)]; [|right; exists e; split; [right; exact A|exact B]].
  assert (G : forall ps acc, In o (fold_left nset_insert ps acc) -> In o acc \/ In o ps).
  { induction ps as [|p ps IHp]; intros acc0 H0; [auto|]. cbn [fold_left] in H0. apply IHp in H0. destruct H0 as [H0|H0]; [|right; right; exact H0]. apply nset_insert_In in H0. destruct H0 as [H0| ->]; [auto|right; left; reflexivity]. }
  unfold outbound in H. apply G in H. destruct H as [H|H]; [auto|]. apply filter_In in H. destruct H as [H1 H2]. apply Nat.ltb_lt in H2. right. exists y. split; [left; reflexivity|auto].
Qed.

Section Result.
  Variables (table : bool -> string -> option crule) (cfgA cfg : config) (prems : list term) (R0 R : string -> Prop) (forest : list pnode).
  Variables (estep : clause -> string -> list enode -> list term -> outcome enode) (nid : nat -> nat -> string) (K : nat).
  Hypothesis Hso : soks [] [] forest.
  Hypothesis Hnd : NoDup (map paddr (flat_map tree forest)).
  Notation G := (fnode forest).
  Notation home := (fhome forest).
  Notation an := (fanchor forest).
  Notation hm n := (fhome forest (paddr n)).
  Hypothesis W : wfg table cfgA prems G home an R0.
  Hypothesis HK : forall x, G x -> paddr x < K.
  Hypothesis HP : forall x b, G x -> In b (hm x) -> b < K.
  (** a tree of accepted steps over premises with the clauses [L] *)
  Fixpoint egood (cx : list (list anchor)) (L : list clause) (n : enode) : Prop :=
    match n with
    | EPrem c => In c L
    | EStep c r es args => (R r /\ exists f, table (elaborated cfg) r = Some f /\ f (mkRA c (map eclause es) args cx None []) = ROk tt) /\
        (fix all (l : list enode) : Prop := match l with [] => True | x :: l => egood cx L x /\ all l end) es
    | ESub _ _ _ _ _ _ => False
    end.
  Definition is_estep (n : enode) : bool := match n with EStep _ _ _ _ => true | _ => false end.
  Hypothesis Hassume : forall a id d t, G (PAssume a id d t) -> home a = [] -> check_assume cfg prems t false = ROk true.
  Hypothesis Hstep : forall a id d cl r ps args, G (PStep a id d cl r ps args [] None) ->
    exists e, estep cl r (map (fun p => EPrem (pclause p)) ps) args = ROk e /\ eclause e = cl /\ is_estep e = true /\ egood (cxof an (home a)) (map pclause ps) e.
  Hypothesis Hlast : forall a id d cl r ps args ds p, G (PStep a id d cl r ps args ds (Some p)) ->
    R r /\ exists f, table (elaborated cfg) r = Some f /\ f (mkRA cl (map pclause ps) args (cxof an (home a)) (Some (pclause p)) (map as_command ds)) = ROk tt.
  Notation pass := (pass estep nid K).
  Notation fresh := (fresh K).
  Notation graft := (graft nid K).
  Notation stepped := (stepped estep nid K).

  (** *** A step *)
  Definition acc_ok (cx : list (list anchor)) (ps : list pnode) (a d : nat) (acc : list pnode) : Prop :=
    map paddr acc = map (fresh a) (seq 0 (List.length acc)) /\
    forall z, In z acc -> exists i id c r qs args, z = PStep (fresh a i) id d c r qs args [] None /\ (forall q, In q qs -> In q acc \/ In q ps) /\
      rule_ok table cfg R cx c r qs args [] None.
  Lemma graft_ok cx ps a d : forall n acc, egood cx (map pclause ps) n -> acc_ok cx ps a d acc ->
    exists acc' y, graft ps a d n acc = ROk (acc', y) /\ acc_ok cx ps a d acc' /\ incl acc acc' /\ pclause y = eclause n /\ (In y acc' \/ In y ps) /\ (is_estep n = true -> In y acc').
  Proof.
    fix IH 1. intros n acc Hg Ha. destruct n as [c|c r es args|]; [| |destruct Hg].
    - cbn [egood] in Hg. apply in_map_iff in Hg. destruct Hg as (p & Hp & Hin). cbn [GraphPass.graft]. destruct (find (fun p => clause_eqb (pclause p) c) ps) as [q|] eqn:E.
      + apply find_some in E. destruct E as [E1 E2]. apply clause_eqb_eq in E2. exists acc, q. split; [reflexivity|]. split; [exact Ha|]. split; [apply incl_refl|]. split; [exact E2|]. split; [auto|discriminate].
      + pose proof (find_none _ _ E p Hin) as H. cbn beta in H. rewrite (proj2 (clause_eqb_eq _ _) Hp) in H. discriminate.
    - cbn [egood] in Hg. destruct Hg as [Hr Hes].
      assert (HL : exists acc' ys, (fix all (l : list enode) (acc : list pnode) : outcome (list pnode * list pnode) :=
                   match l with [] => ROk (acc, []) | e :: l => do u <- graft ps a d e acc ; do v <- all l (fst u) ; ROk (fst v, snd u :: snd v) end) es acc = ROk (acc', ys) /\
        acc_ok cx ps a d acc' /\ incl acc acc' /\ map pclause ys = map eclause es /\ forall y, In y ys -> In y acc' \/ In y ps).
      { clear Hr. revert acc Ha Hes. induction es as [|e es IHe]; intros acc Ha Hes.
        - exists acc, []. split; [reflexivity|]. split; [exact Ha|]. split; [apply incl_refl|]. split; [reflexivity|intros y []].
        - destruct Hes as [H1 H2]. destruct (IH e acc H1 Ha) as (a1 & y & E1 & A1 & I1 & C1 & J1 & _). destruct (IHe a1 A1 H2) as (a2 & ys & E2 & A2 & I2 & C2 & J2).
          exists a2, (y :: ys). rewrite E1. cbn [obind fst snd]. rewrite E2. cbn [obind fst snd]. split; [reflexivity|]. split; [exact A2|]. split; [eapply incl_tran; eauto|]. split; [cbn; congruence|].
          intros z [<-|Hz]; [destruct J1; auto|auto]. }
      destruct HL as (acc' & ys & E & A & I & C & J). cbn [GraphPass.graft]. rewrite E. cbn [obind fst snd]. set (z := PStep _ _ _ _ _ _ _ _ _). exists (acc' ++ [z]), z. split; [reflexivity|]. destruct A as [A1 A2]. split; [split|].
      + rewrite app_length. cbn [List.length]. rewrite Nat.add_1_r, seq_S, !map_app. cbn [map]. rewrite A1. reflexivity.
      + intros x Hx. apply in_app_iff in Hx. destruct Hx as [Hx|[<-|[]]].
        * destruct (A2 x Hx) as (i & id & c' & r' & qs & args' & Ex & Hq & Ho). exists i, id, c', r', qs, args'. split; [exact Ex|]. split; [|exact Ho]. intros q Hq'. destruct (Hq q Hq'); [left; apply in_app_iff; auto|auto].
        * unfold z. do 6 eexists. split; [reflexivity|]. split; [intros q Hq; destruct (J q Hq); [left; apply in_app_iff; auto|auto]|]. unfold rule_ok. rewrite C. cbn [map]. exact Hr.
      + split; [intros x Hx; apply in_app_iff; left; apply I; exact Hx|]. split; [reflexivity|]. split; [left; apply in_app_iff; right; left; reflexivity|]. intros _. apply in_app_iff. right. left. reflexivity.
  Qed.
  Lemma acc_nil cx ps a d : acc_ok cx ps a d []. Proof. split; [reflexivity|intros z []]. Qed.

  (** *** All nodes *)
  Definition rep (x : pnode) : pnode := match pass x with ROk y => y | _ => x end.
  Definition made (x : pnode) : list pnode :=
    match x with PStep a _ d cl r ps args _ None => match stepped cl r (map rep ps) args a d with ROk u => fst u | _ => [] end | _ => [rep x] end.
  Lemma kid_G x q : G x -> In q (kids x) -> G q.
  Proof. intros Hx Hq. apply (a_kids _ _ (forest_facts _ Hso Hnd _ Hx) q Hq). Qed.
  Lemma step_shape a id d cl r ps args ds : G (PStep a id d cl r ps args ds None) -> ds = []. Proof. intros H. apply (w_step _ _ _ _ _ _ _ W _ _ _ _ _ _ _ _ H). Qed.
  Definition okpass (x : pnode) : Prop := exists y, pass x = ROk y /\ pclause y = pclause x /\ pdepth y = pdepth x /\ plain_node y = plain_node x.
  Lemma okpass_rep x : okpass x -> pass x = ROk (rep x) /\ pclause (rep x) = pclause x /\ pdepth (rep x) = pdepth x /\ plain_node (rep x) = plain_node x.
  Proof. intros (y & E & H). unfold rep. rewrite E. auto. Qed.
  Lemma stepped_ok a id d cl r ps args : G (PStep a id d cl r ps args [] None) -> (forall p, In p ps -> okpass p) ->
    exists acc y, stepped cl r (map rep ps) args a d = ROk (acc, y) /\ In y acc /\ pclause y = cl /\ acc_ok (cxof an (home a)) (map rep ps) a d acc.
  Proof.
    intros Hx Hp. destruct (Hstep _ _ _ _ _ _ _ Hx) as (e & Ee & Hc & Hs & Hg). unfold GraphPass.stepped.
    assert (Em : forall {B} (f : clause -> B), map (fun p => f (pclause p)) (map rep ps) = map (fun p => f (pclause p)) ps) by (intros B f; rewrite map_map; apply map_ext_in; intros p Hin; destruct (okpass_rep p (Hp p Hin)) as (_ & -> & _); reflexivity).
    rewrite (Em enode EPrem), Ee. cbn [obind]. destruct (graft_ok (cxof an (home a)) (map rep ps) a d e []) as (acc & y & E & A & _ & C & _ & I).
    - replace (map pclause (map rep ps)) with (map pclause ps); [exact Hg|]. symmetry. exact (Em clause (fun c => c)).
    - apply acc_nil.
    - exists acc, y. split; [exact E|]. split; [auto|]. split; [congruence|exact A].
  Qed.
  Lemma pass_total k : forall x, nsize x <= k -> G x -> okpass x.
  Proof.
    induction k as [|k IH]; intros x Hk Hx; [destruct x; cbn in Hk; lia|].
    assert (HQ : forall q, In q (kids x) -> okpass q) by (intros q Hq; apply IH; [pose proof (kid_size _ _ Hq); lia|eapply kid_G; eauto]).
    destruct x as [a id d t|a id d cl r ps args ds prev|a l args out extra].
    - exists (PAssume a id d t). repeat split.
    - assert (Eps : omap pass ps = ROk (map rep ps)) by (apply omap_map; intros q Hq; apply okpass_rep; apply HQ; cbn [kids]; rewrite !in_app_iff; auto).
      assert (Eds : omap pass ds = ROk (map rep ds)) by (apply omap_map; intros q Hq; apply okpass_rep; apply HQ; cbn [kids]; rewrite !in_app_iff; auto).
      unfold okpass. cbn [GraphPass.pass]. rewrite Eps. cbn [obind]. rewrite Eds. cbn [obind]. destruct prev as [p|].
      + destruct (okpass_rep p) as [-> _]; [apply HQ; cbn [kids]; rewrite !in_app_iff; cbn; auto|]. cbn [obind]. eexists. split; [reflexivity|]. repeat split.
      + pose proof (step_shape _ _ _ _ _ _ _ _ Hx) as ->. destruct (stepped_ok _ _ _ _ _ _ _ Hx) as (acc & y & -> & Hy & Hc & _ & A); [intros p Hp; apply HQ; cbn [kids]; rewrite !in_app_iff; auto|].
        cbn [obind snd]. exists y. split; [reflexivity|]. destruct (A y Hy) as (i & id' & c & r' & qs & args' & -> & _). split; [exact Hc|]. split; reflexivity.
    - destruct (okpass_rep l) as (El & Cl & Dl & _); [apply HQ; left; reflexivity|].
      assert (Eex : omap pass extra = ROk (map rep extra)) by (apply omap_map; intros q Hq; apply okpass_rep; apply HQ; cbn [kids]; right; apply in_app_iff; auto).
      unfold okpass. cbn [GraphPass.pass]. rewrite El. cbn [obind]. rewrite Eex. cbn [obind]. eexists. split; [reflexivity|]. split; [exact Cl|]. split; [cbn [pdepth]; rewrite Dl; reflexivity|reflexivity].
  Qed.
  Lemma pass_ok x : G x -> okpass x. Proof. apply (pass_total (nsize x)). lia. Qed.
  Lemma rep_clause x : G x -> pclause (rep x) = pclause x. Proof. intros Hx. apply (okpass_rep x (pass_ok x Hx)). Qed.
  Lemma rep_depth x : G x -> pdepth (rep x) = pdepth x. Proof. intros Hx. apply (okpass_rep x (pass_ok x Hx)). Qed.
  Lemma rep_plain x : G x -> plain_node (rep x) = plain_node x. Proof. intros Hx. apply (okpass_rep x (pass_ok x Hx)). Qed.
  Lemma rep_assume a id d t : rep (PAssume a id d t) = PAssume a id d t. Proof. reflexivity. Qed.
  Lemma rep_all l : (forall x, In x l -> G x) -> omap pass l = ROk (map rep l).
  Proof. intros H. apply omap_map. intros q Hq. apply okpass_rep. apply pass_ok. auto. Qed.
  Lemma rep_last a id d cl r ps args ds p : G (PStep a id d cl r ps args ds (Some p)) -> rep (PStep a id d cl r ps args ds (Some p)) = PStep a id d cl r (map rep ps) args (map rep ds) (Some (rep p)).
  Proof.
    intros Hx. unfold rep at 1. cbn [GraphPass.pass]. rewrite !rep_all by (intros q Hq; apply (kid_G _ _ Hx); cbn [kids]; rewrite !in_app_iff; auto). cbn [obind].
    destruct (okpass_rep p) as [-> _]; [apply pass_ok; apply (kid_G _ _ Hx); cbn [kids]; rewrite !in_app_iff; cbn; auto|]. reflexivity.
  Qed.
  Lemma rep_sub a l args out extra : G (PSub a l args out extra) -> rep (PSub a l args out extra) = PSub a (rep l) args (collect (map rep (extra ++ [l]))) (map rep extra).
  Proof.
    intros Hx. unfold rep at 1. cbn [GraphPass.pass]. destruct (okpass_rep l) as [-> _]; [apply pass_ok; apply (kid_G _ _ Hx); left; reflexivity|]. cbn [obind].
    rewrite rep_all by (intros q Hq; apply (kid_G _ _ Hx); cbn [kids]; right; apply in_app_iff; auto). cbn [obind]. rewrite map_app. reflexivity.
  Qed.
  Lemma made_step a id d cl r ps args : G (PStep a id d cl r ps args [] None) -> acc_ok (cxof an (home a)) (map rep ps) a d (made (PStep a id d cl r ps args [] None)) /\
    In (rep (PStep a id d cl r ps args [] None)) (made (PStep a id d cl r ps args [] None)).
  Proof.
    intros Hx. assert (Hp : forall p, In p ps -> G p) by (intros p Hp; apply (kid_G _ _ Hx); cbn [kids]; rewrite !in_app_iff; auto).
    destruct (stepped_ok _ _ _ _ _ _ _ Hx (fun p H => pass_ok p (Hp p H))) as (acc & y & E & Hy & _ & A). cbn [made]. unfold rep at 3. cbn [GraphPass.pass omap]. rewrite rep_all by exact Hp. cbn [obind]. rewrite E. cbn [obind fst snd]. auto.
  Qed.

  (** *** The new graph *)
  Definition own (n : nat) : nat := if n <? K then n else fst (Cantor.of_nat (n - K)).
  Definition home' (n : nat) : list nat := home (own n).
  Definition G' (y : pnode) : Prop := exists w, G w /\ In y (made w).
  Notation hm' n := (home' (paddr n)).
  Lemma own_small n : n < K -> own n = n. Proof. intros H. unfold own. apply Nat.ltb_lt in H. rewrite H. reflexivity. Qed.
  Lemma own_fresh a i : own (fresh a i) = a.
  Proof. unfold own, GraphPass.fresh. rewrite (proj2 (Nat.ltb_ge _ _)) by lia. replace (K + Cantor.to_nat (a, i) - K) with (Cantor.to_nat (a, i)) by lia. rewrite Cantor.cancel_of_to. reflexivity. Qed.
  Lemma fresh_inj a i j : fresh a i = fresh a j -> i = j.
  Proof. unfold GraphPass.fresh. intros H. assert (E : Cantor.to_nat (a, i) = Cantor.to_nat (a, j)) by lia. apply Cantor.to_nat_inj in E. congruence. Qed.
  Definition is_plain_step (x : pnode) : bool := match x with PStep _ _ _ _ _ _ _ _ None => true | _ => false end.
  Lemma made_other x : is_plain_step x = false -> made x = [rep x].
  Proof. destruct x as [|a id d cl r ps args ds [p|]|]; cbn; try reflexivity. discriminate. Qed.
  Lemma rep_other_addr x : G x -> is_plain_step x = false -> paddr (rep x) = paddr x.
  Proof. intros Hx H. destruct x as [a id d t|a id d cl r ps args ds [p|]|a l args out extra]; [reflexivity|rewrite rep_last by exact Hx; reflexivity|discriminate|rewrite rep_sub by exact Hx; reflexivity]. Qed.
  Lemma made_rep x : G x -> In (rep x) (made x).
  Proof.
    intros Hx. destruct (is_plain_step x) eqn:E; [|rewrite made_other by exact E; left; reflexivity]. destruct x as [a id d t|a id d cl r ps args ds [p|]|a l args out extra]; try discriminate.
    pose proof (step_shape _ _ _ _ _ _ _ _ Hx) as ->. apply (made_step _ _ _ _ _ _ _ Hx).
  Qed.
  Lemma rep_G x : G x -> G' (rep x). Proof. intros Hx. exists x. split; [exact Hx|apply made_rep; exact Hx]. Qed.
  Lemma made_own w y : G w -> In y (made w) -> own (paddr y) = paddr w.
  Proof.
    intros Hw Hy. destruct (is_plain_step w) eqn:E.
    - destruct w as [a id d t|a id d cl r ps args ds [p|]|a l args out extra]; try discriminate. pose proof (step_shape _ _ _ _ _ _ _ _ Hw) as ->. destruct (made_step _ _ _ _ _ _ _ Hw) as [[_ A] _].
      destruct (A y Hy) as (i & id' & c & r' & qs & args' & -> & _). apply own_fresh.
    - rewrite (made_other w E) in Hy. destruct Hy as [<-|[]]. rewrite rep_other_addr by assumption. apply own_small. apply HK. exact Hw.
  Qed.
  Lemma rep_own x : G x -> own (paddr (rep x)) = paddr x. Proof. intros Hx. apply made_own; [exact Hx|apply made_rep; exact Hx]. Qed.
  Lemma rep_home x : G x -> hm' (rep x) = hm x. Proof. intros Hx. unfold home'. rewrite rep_own by exact Hx. reflexivity. Qed.
  Lemma made_depth w y : G w -> In y (made w) -> pdepth y = pdepth w.
  Proof.
    intros Hw Hy. destruct (is_plain_step w) eqn:E.
    - destruct w as [a id d t|a id d cl r ps args ds [p|]|a l args out extra]; try discriminate. pose proof (step_shape _ _ _ _ _ _ _ _ Hw) as ->. destruct (made_step _ _ _ _ _ _ _ Hw) as [[_ A] _].
      destruct (A y Hy) as (i & id' & c & r' & qs & args' & -> & _). reflexivity.
    - rewrite (made_other w E) in Hy. destruct Hy as [<-|[]]. apply rep_depth. exact Hw.
  Qed.
  Lemma rep_inj x y : G x -> G y -> rep x = rep y -> x = y.
  Proof. intros Hx Hy E. apply (w_addr _ _ _ _ _ _ _ W); auto. rewrite <- (rep_own x Hx), <- (rep_own y Hy), E. reflexivity. Qed.
  Lemma made_nodup w : G w -> NoDup (map paddr (made w)).
  Proof.
    intros Hw. destruct (is_plain_step w) eqn:E.
    - destruct w as [a id d t|a id d cl r ps args ds [p|]|a l args out extra]; try discriminate. pose proof (step_shape _ _ _ _ _ _ _ _ Hw) as ->. destruct (made_step _ _ _ _ _ _ _ Hw) as [[A _] _].
      rewrite A. generalize (List.length (made (PStep a id d cl r ps args [] None))). clear. intros n. generalize (seq_NoDup n 0). generalize (seq 0 n). intros l. induction l as [|i l IH]; intros H; [constructor|].
      inversion H as [|? ? H1 H2]; subst. cbn [map]. constructor; [|apply IH; exact H2]. intros Hin. apply in_map_iff in Hin. destruct Hin as (j & Hj & Hin). apply fresh_inj in Hj. subst. contradiction.
    - rewrite (made_other w E). cbn. constructor; [intros []|constructor].
  Qed.
  Lemma new_addr x y : G' x -> G' y -> paddr x = paddr y -> x = y.
  Proof.
    intros (w & Hw & Hx) (v & Hv & Hy) E. assert (w = v) as <-.
    { apply (w_addr _ _ _ _ _ _ _ W); auto. rewrite <- (made_own w x), <- (made_own v y), E by assumption. reflexivity. }
    eapply nodup_addr; [apply made_nodup; exact Hw| | |]; eassumption.
  Qed.
  Lemma fact_of x : G x -> fact forest x. Proof. apply (forest_facts _ Hso Hnd). Qed.
  (** a node of the enclosing subproofs, made before *)
  Definition earlier (path : list nat) (k : nat) (o : pnode) : Prop := exists p, o = rep p /\ G p /\ plain_node p = true /\ prefix (hm p) path /\ paddr p < k.
  Lemma earlier_G path k o : earlier path k o -> G' o. Proof. intros (p & -> & Hp & _). apply rep_G. exact Hp. Qed.
  Lemma step_prem a id d cl r ps args p : G (PStep a id d cl r ps args [] None) -> In p ps -> earlier (home a) a (rep p).
  Proof.
    intros Hx Hp. exists p. split; [reflexivity|]. pose proof (fact_of _ Hx) as F. destruct (a_kids _ _ F p) as [A B]; [cbn [kids]; rewrite !in_app_iff; auto|].
    split; [exact A|]. destruct (a_step _ _ F p) as [X Y]; [apply in_app_iff; auto|]. auto.
  Qed.
  Lemma last_prem a args out extra al id d cl r ps sargs ds pr p : G (PSub a (PStep al id d cl r ps sargs ds (Some pr)) args out extra) -> In p (ps ++ ds) -> earlier (home a ++ [a]) a (rep p).
  Proof.
    intros Hx Hp. exists p. split; [reflexivity|]. pose proof (fact_of _ Hx) as F. destruct (a_step _ _ F) as (_ & S2 & _ & al' & id' & d' & cl' & r' & ps' & sargs' & ds' & p' & e & El & _ & _ & _ & Hq).
    injection El as <- <- <- <- <- <- <- <- <-. destruct (a_kids _ _ F (PStep al id d cl r ps sargs ds (Some pr))) as [Gl Ll]; [left; reflexivity|]. cbn [paddr] in Ll.
    destruct (a_kids _ _ (fact_of _ Gl) p) as [A B]; [cbn [kids]; rewrite !in_app_iff in *; tauto|]. cbn [paddr] in B. split; [exact A|]. destruct (Hq p Hp) as [X Y]. split; [exact X|]. split; [|lia].
    destruct Y as [Y|Y]; [eapply pre_trans; [exact Y|apply pre_app]|]. rewrite (proj2 (S2 p Y)). apply pre_refl.
  Qed.
  Lemma sub_member a l args out extra e : G (PSub a l args out extra) -> In e (extra ++ [l]) -> G e /\ hm e = home a ++ [a] /\ paddr e < a.
  Proof.
    intros Hx He. pose proof (fact_of _ Hx) as F. destruct (a_step _ _ F) as (_ & S2 & _ & al' & id' & d' & cl' & r' & ps' & sargs' & ds' & p' & e' & El & Hl & _). apply in_app_iff in He. destruct He as [He|[<-|[]]].
    - destruct (a_kids _ _ F e) as [A B]; [cbn [kids]; right; apply in_app_iff; auto|]. split; [exact A|]. split; [apply S2; exact He|exact B].
    - destruct (a_kids _ _ F l) as [A B]; [left; reflexivity|]. auto.
  Qed.
  Lemma shorter path a k o : earlier (path ++ [a]) k o -> pdepth o < S (List.length path) -> earlier path k o.
  Proof.
    intros (p & -> & Hp & Pl & Pr & Lt) Hd. exists p. split; [reflexivity|]. split; [exact Hp|]. split; [exact Pl|]. split; [|exact Lt]. rewrite rep_depth in Hd by exact Hp. rewrite (w_depth _ _ _ _ _ _ _ W _ Hp) in Hd.
    apply pre_snoc in Pr. destruct Pr as [Pr|Pr]; [exact Pr|]. rewrite Pr, app_length in Hd. cbn in Hd. lia.
  Qed.
  Lemma earlier_more path k k' o : k <= k' -> earlier path k o -> earlier path k' o.
  Proof. intros H (p & A & B & C & D & E). exists p. repeat (split; [assumption|]). lia. Qed.
  Lemma out_ok n : forall a l args out extra o, nsize (PSub a l args out extra) <= n -> G (PSub a l args out extra) -> In o (collect (map rep (extra ++ [l]))) -> earlier (home a) a o.
  Proof.
    induction n as [|n IH]; intros a l args out extra o Hn Hx Ho; [cbn in Hn; lia|]. unfold collect in Ho. apply collect_in in Ho. destruct Ho as [[]|(e' & He & Hd & Hlt)].
    apply in_map_iff in He. destruct He as (e & <- & He). destruct (sub_member _ _ _ _ _ _ Hx He) as (Ge & Ehm & Lt). rewrite rep_depth in Hlt by exact Ge. rewrite (w_depth _ _ _ _ _ _ _ W _ Ge), Ehm, app_length in Hlt. cbn [List.length] in Hlt.
    apply (shorter (home a) a); [|lia]. rewrite <- Ehm. destruct e as [a' id d t|a' id d cl r ps sargs ds [p|]|a' l' args' out' extra'].
    - destruct Hd.
    - rewrite rep_last in Hd by exact Ge. cbn [deps] in Hd. apply in_map_iff in Hd. destruct Hd as (q & <- & Hq). apply in_app_iff in He. destruct He as [He|[->|[]]].
      + exfalso. pose proof (fact_of _ Hx) as F. destruct (a_step _ _ F) as (_ & S2 & _). destruct (S2 _ He) as [S3 _]. discriminate.
      + rewrite Ehm. eapply last_prem; [exact Hx|]. apply in_app_iff. auto.
    - pose proof (step_shape _ _ _ _ _ _ _ _ Ge) as ->. destruct (made_step _ _ _ _ _ _ _ Ge) as [[_ A] B]. destruct (A _ B) as (i & id' & c & r' & qs & args'' & Er & Hq & _). rewrite Er in Hd. cbn [deps] in Hd. destruct (Hq _ Hd) as [H|H].
      + exfalso. pose proof (made_depth _ _ Ge H) as E. pose proof (w_depth _ _ _ _ _ _ _ W _ Ge) as E2. rewrite Ehm, app_length in E2. cbn [List.length] in E2. lia.
      + apply in_map_iff in H. destruct H as (q & <- & H). apply (earlier_more _ a'); [cbn [paddr] in Lt; lia|]. eapply step_prem; [exact Ge|exact H].
    - rewrite rep_sub in Hd by exact Ge. cbn [deps] in Hd. cbn [paddr] in *. apply (earlier_more _ a'); [lia|]. apply (IH a' l' args' out' extra'); [|exact Ge|exact Hd].
      assert (nsize (PSub a' l' args' out' extra') < nsize (PSub a l args out extra)); [|lia]. apply kid_size. cbn [kids]. apply in_app_iff in He. destruct He as [He|[He|[]]]; [right; apply in_app_iff; right; exact He|left; exact He].
  Qed.
  Lemma sub_out a l args out extra o : G (PSub a l args out extra) -> In o (collect (map rep (extra ++ [l]))) -> earlier (home a) a o.
  Proof. intros Hx. eapply out_ok; [apply le_n|exact Hx]. Qed.
  (** the nodes that a new node refers to *)
  Lemma made_kids w y q : G w -> In y (made w) -> In q (kids y) -> G' q /\ own (paddr q) <= paddr w.
  Proof.
    intros Hw Hy Hq. assert (HR : forall p, In p (kids w) -> G' (rep p) /\ own (paddr (rep p)) <= paddr w).
    { intros p Hp. destruct (a_kids _ _ (fact_of _ Hw) p Hp) as [A B]. split; [apply rep_G; exact A|]. rewrite rep_own by exact A. lia. }
    destruct (is_plain_step w) eqn:E.
    - destruct w as [a id d t|a id d cl r ps args ds [p|]|a l args out extra]; try discriminate. pose proof (step_shape _ _ _ _ _ _ _ _ Hw) as ->. destruct (made_step _ _ _ _ _ _ _ Hw) as [[_ A] _].
      destruct (A y Hy) as (i & id' & c & r' & qs & args' & -> & B & _). cbn [kids] in Hq. rewrite !app_nil_r in Hq. destruct (B q Hq) as [H|H].
      + split; [exists (PStep a id d cl r ps args [] None); auto|]. rewrite (made_own _ _ Hw H). apply le_n.
      + apply in_map_iff in H. destruct H as (p & <- & H). apply HR. cbn [kids]. rewrite !in_app_iff. auto.
    - rewrite (made_other w E) in Hy. destruct Hy as [<-|[]]. destruct w as [a id d t|a id d cl r ps args ds [p|]|a l args out extra]; [destruct Hq| |discriminate|].
      + rewrite rep_last in Hq by exact Hw. cbn [kids] in Hq. rewrite !in_app_iff in Hq. destruct Hq as [Hq|[Hq|[<-|[]]]]; [| |apply HR; cbn [kids]; rewrite !in_app_iff; cbn; auto];
          apply in_map_iff in Hq; destruct Hq as (z & <- & Hz); apply HR; cbn [kids]; rewrite !in_app_iff; auto.
      + rewrite rep_sub in Hq by exact Hw. cbn [kids] in Hq. destruct Hq as [<-|Hq]; [apply HR; left; reflexivity|]. apply in_app_iff in Hq. destruct Hq as [Hq|Hq].
        * pose proof (sub_out _ _ _ _ _ _ Hw Hq) as (z & -> & Gz & _ & _ & Lz). split; [apply rep_G; exact Gz|]. rewrite rep_own by exact Gz. cbn [paddr]. lia.
        * apply in_map_iff in Hq. destruct Hq as (z & <- & Hz). apply HR. cbn [kids]. right. apply in_app_iff. auto.
  Qed.
  Lemma new_all n : forall y x, nsize y <= n -> G' y -> In x (allnodes y) -> G' x /\ own (paddr x) <= own (paddr y).
  Proof.
    induction n as [|n IH]; intros y x Hn Hy Hx; [destruct y; cbn in Hn; lia|]. apply kids_all in Hx. destruct Hx as [->|(k & Hk & Hx)]; [auto|]. destruct Hy as (w & Hw & Hy). destruct (made_kids _ _ _ Hw Hy Hk) as [A B].
    destruct (IH k x) as [C D]; [pose proof (kid_size _ _ Hk); lia|exact A|exact Hx|]. split; [exact C|]. rewrite (made_own _ _ Hw Hy). lia.
  Qed.
  Lemma new_assume a id d t : G' (PAssume a id d t) -> G (PAssume a id d t).
  Proof.
    intros (w & Hw & Hy). destruct (is_plain_step w) eqn:E.
    - destruct w as [a' id' d' t'|a' id' d' cl r ps args ds [p|]|a' l args out extra]; try discriminate. pose proof (step_shape _ _ _ _ _ _ _ _ Hw) as ->. destruct (made_step _ _ _ _ _ _ _ Hw) as [[_ A] _].
      destruct (A _ Hy) as (i & id2 & c & r' & qs & args' & H & _). discriminate.
    - rewrite (made_other w E) in Hy. destruct Hy as [Hy|[]]. destruct w as [a' id' d' t'|a' id' d' cl r ps args ds [p|]|a' l args out extra]; [|rewrite rep_last in Hy by exact Hw; discriminate|discriminate|rewrite rep_sub in Hy by exact Hw; discriminate].
      rewrite rep_assume in Hy. rewrite <- Hy. exact Hw.
  Qed.
  Lemma new_sub a l' args out' extra' : G' (PSub a l' args out' extra') -> exists l out extra, G (PSub a l args out extra) /\ l' = rep l /\ out' = collect (map rep (extra ++ [l])) /\ extra' = map rep extra.
  Proof.
    intros (w & Hw & Hy). destruct (is_plain_step w) eqn:E.
    - destruct w as [a0 id' d' t'|a0 id' d' cl r ps args0 ds [p|]|a0 l args0 out extra]; try discriminate. pose proof (step_shape _ _ _ _ _ _ _ _ Hw) as ->. destruct (made_step _ _ _ _ _ _ _ Hw) as [[_ A] _].
      destruct (A _ Hy) as (i & id2 & c & r' & qs & args2 & H & _). discriminate.
    - rewrite (made_other w E) in Hy. destruct Hy as [Hy|[]]. destruct w as [a0 id' d' t'|a0 id' d' cl r ps args0 ds [p|]|a0 l args0 out extra]; [discriminate|rewrite rep_last in Hy by exact Hw; discriminate|discriminate|].
      rewrite rep_sub in Hy by exact Hw. injection Hy as -> <- -> <- <-. exists l, out, extra. auto.
  Qed.
  Lemma earlier_home path k o : earlier path k o -> plain_node o = true /\ prefix (hm' o) path.
  Proof. intros (p & -> & Hp & Pl & Pr & _). rewrite rep_plain, rep_home by exact Hp. auto. Qed.
  Lemma rep_clauses ps : (forall p, In p ps -> G p) -> map pclause (map rep ps) = map pclause ps.
  Proof. intros H. rewrite map_map. apply map_ext_in. intros p Hp. apply rep_clause. auto. Qed.
  Lemma rep_passume x : is_passume x = true -> rep x = x. Proof. destruct x; try discriminate. reflexivity. Qed.

  Theorem new_wfg : wfg table cfg prems G' home' an R.
  Proof.
    split.
    - intros n x Hn Hx. apply (new_all (nsize n) n x (le_n _) Hn Hx).
    - exact new_addr.
    - intros n (w & Hw & Hy). rewrite (made_depth _ _ Hw Hy). unfold home'. rewrite (made_own _ _ Hw Hy). apply (w_depth _ _ _ _ _ _ _ W). exact Hw.
    - intros n (w & Hw & Hy) Hin. unfold home' in Hin. rewrite (made_own _ _ Hw Hy) in Hin. destruct (is_plain_step w) eqn:E.
      + pose proof (HP _ _ Hw Hin) as Hlt. destruct w as [a id d t|a id d cl r ps args ds [p|]|a l args out extra]; try discriminate. pose proof (step_shape _ _ _ _ _ _ _ _ Hw) as ->. destruct (made_step _ _ _ _ _ _ _ Hw) as [[_ A] _].
        destruct (A _ Hy) as (i & id2 & c & r' & qs & args' & -> & _). cbn [paddr] in Hlt. unfold GraphPass.fresh in Hlt. lia.
      + rewrite (made_other w E) in Hy. destruct Hy as [<-|[]]. rewrite rep_other_addr in Hin by assumption. apply (w_fresh _ _ _ _ _ _ _ W _ Hw Hin).
    - intros a id d t Hn Hh. apply new_assume in Hn. unfold home' in Hh. rewrite own_small in Hh by (apply (HK _ Hn)). eapply Hassume; eauto.
    - intros a id d cl r ps args ds (w & Hw & Hy). destruct (is_plain_step w) eqn:E.
      + destruct w as [a0 id0 d0 t|a0 id0 d0 cl0 r0 ps0 args0 ds0 [p|]|a0 l args0 out extra]; try discriminate. pose proof (step_shape _ _ _ _ _ _ _ _ Hw) as ->. destruct (made_step _ _ _ _ _ _ _ Hw) as [[_ A] _].
        assert (Eo : home' a = home a0) by (unfold home'; exact (f_equal home (made_own _ _ Hw Hy))).
        destruct (A _ Hy) as (i & id2 & c & r' & qs & args' & H & B & C). injection H as _ _ _ -> -> -> -> ->. split; [reflexivity|]. rewrite Eo. split; [|exact C]. intros p Hp. destruct (B p Hp) as [H|H].
        * destruct (A p H) as (i' & id3 & c' & r3 & qs' & args3 & Ep & _). split; [rewrite Ep; reflexivity|]. unfold home'. rewrite (made_own _ _ Hw H). apply pre_refl.
        * apply in_map_iff in H. destruct H as (z & <- & H). eapply earlier_home. eapply step_prem; [exact Hw|exact H].
      + exfalso. rewrite (made_other w E) in Hy. destruct Hy as [Hy|[]]. destruct w as [a0 id' d' t'|a0 id' d' cl0 r0 ps0 args0 ds0 [p|]|a0 l args0 out extra]; [discriminate|rewrite rep_last in Hy by exact Hw; discriminate|discriminate|rewrite rep_sub in Hy by exact Hw; discriminate].
    - intros a l' args out' extra' Hn. destruct (new_sub _ _ _ _ _ Hn) as (l & out & extra & Hx & -> & -> & ->). pose proof (fact_of _ Hx) as F.
      destruct (w_sub _ _ _ _ _ _ _ W _ _ _ _ _ Hx) as (W1 & _ & _ & al & id & d & cl & r & ps & sargs & ds & p & -> & Hal & Pp & Hp & Hps & Hds & Hsp & _ & Has & _).
      destruct (a_step _ _ F) as (_ & S2 & _ & al' & id' & d' & cl' & r' & ps' & sargs' & ds' & p' & e & El & _ & Ee & Hbe & Hq). injection El as <- <- <- <- <- <- <- <- <-.
      assert (Ea : home' a = home a) by (unfold home'; rewrite own_small by (apply (HK _ Hx)); reflexivity). rewrite Ea.
      destruct (sub_member _ _ _ _ _ (PStep al id d cl r ps sargs ds (Some p)) Hx) as (Gl & _ & _); [apply in_app_iff; right; left; reflexivity|].
      assert (KG : forall q, In q (ps ++ ds ++ [p]) -> G q) by (intros q Hq'; apply (kid_G _ _ Gl); exact Hq').
      split; [exact W1|]. split; [intros o Ho; eapply earlier_home; eapply sub_out; [exact Hx|exact Ho]|].
      split. { intros z Hz. apply in_map_iff in Hz. destruct Hz as (y & <- & Hy). destruct (sub_member _ _ _ _ _ y Hx) as (Gy & Ey & _); [apply in_app_iff; auto|]. rewrite rep_plain, rep_home by exact Gy. split; [apply S2; exact Hy|]. rewrite Ey. apply pre_refl. }
      assert (Gp : G p) by (apply KG; rewrite !in_app_iff; cbn; auto).
      exists al, id, d, cl, r, (map rep ps), sargs, (map rep ds), (rep p). split; [apply rep_last; exact Gl|]. split; [unfold home'; rewrite own_small by (apply (HK _ Gl)); exact Hal|].
      split; [rewrite rep_plain by exact Gp; exact Pp|]. split; [rewrite rep_home by exact Gp; exact Hp|].
      split. { intros q Hq'. apply in_map_iff in Hq'. destruct Hq' as (z & <- & Hz). eapply earlier_home. eapply last_prem; [exact Hx|]. apply in_app_iff. auto. }
      split. { intros q Hq'. apply in_map_iff in Hq'. destruct Hq' as (z & <- & Hz). destruct (Hds z Hz) as [X Y]. rewrite rep_home by (apply KG; rewrite !in_app_iff; auto). rewrite rep_passume by exact X. auto. }
      split. { destruct Hsp as [->|Hsp]; [left; reflexivity|right; exact Hsp]. }
      split.
      { unfold rule_ok. destruct (Hlast _ _ _ _ _ _ _ _ _ Gl) as (HRr & f & Hf & Hok). split; [exact HRr|]. exists f. split; [exact Hf|]. rewrite Hal in Hok. rewrite rep_clauses by (intros q Hq'; apply KG; rewrite !in_app_iff; auto). rewrite rep_clause by exact Gp.
        replace (map as_command (map rep ds)) with (map as_command ds); [exact Hok|]. rewrite map_map. apply map_ext_in. intros z Hz. rewrite rep_passume by (apply Hds; exact Hz). reflexivity. }
      split.
      { intros x Hx' Hpa Hhx. destruct x as [ax idx dx tx| |]; try discriminate. apply new_assume in Hx'. unfold home' in Hhx. rewrite own_small in Hhx by (apply (HK _ Hx')). apply in_map_iff. exists (PAssume ax idx dx tx). split; [reflexivity|]. apply Has; auto. }
      left. exists (map rep e). split; [rewrite Ee, map_app; reflexivity|]. split.
      + intros Hin. apply in_map_iff in Hin. destruct Hin as (x & Ex & Hin). apply in_flat_map in Hin. destruct Hin as (y' & Hy & Hin). apply in_map_iff in Hy. destruct Hy as (y & <- & Hy).
        destruct (sub_member _ _ _ _ _ y Hx) as (Gy & _ & _); [rewrite Ee, !in_app_iff; auto|]. destruct (new_all _ _ _ (le_n _) (rep_G _ Gy) Hin) as [_ Hle]. rewrite Ex, !rep_own in Hle by assumption. specialize (Hbe y Hy). lia.
      + intros q Hq'. rewrite <- map_app in Hq'. apply in_map_iff in Hq'. destruct Hq' as (z & <- & Hz). destruct (Hq z Hz) as [_ [Y|Y]]; [left|right; apply in_map; exact Y].
        rewrite rep_home by (apply KG; rewrite !in_app_iff in *; tauto). apply pre_len in Y. lia.
  Qed.

  (** *** The order of the nodes *)
  Definition root (q : pnode) : Prop := exists w, G w /\ plain_node w = true /\ q = rep w.
  Definition rank (q : pnode) : nat := own (paddr q).
  Lemma split_map {A B} (f : A -> B) l : forall l1 e l2, map f l = l1 ++ e :: l2 -> exists k1 x k2, l = k1 ++ x :: k2 /\ l1 = map f k1 /\ e = f x.
  Proof.
    induction l as [|y l IH]; intros [|z l1] e l2 H; cbn in H; try discriminate.
    - injection H as <- _. exists [], y, l. auto.
    - injection H as <- H. destruct (IH _ _ _ H) as (k1 & x & k2 & -> & -> & ->). exists (y :: k1), x, k2. auto.
  Qed.
  Lemma sub_in_order a l args out extra : G (PSub a l args out extra) -> in_order (extra ++ [l]).
  Proof. intros Hx. apply in_flat_map in Hx. destruct Hx as (n & Hn & Hx). destruct (soks_each _ _ _ _ Hso Hn) as [av Hav]. eapply tree_in_order; eauto. Qed.
  Lemma sub_same a l args out extra a' l' args' out' extra' : G (PSub a l args out extra) -> G (PSub a' l' args' out' extra') -> home a ++ [a] = home a' ++ [a'] -> PSub a l args out extra = PSub a' l' args' out' extra'.
  Proof. intros H H' E. apply app_inj_tail in E. destruct E as [_ ->]. apply (w_addr _ _ _ _ _ _ _ W); auto. Qed.
  Theorem new_ordered : ordered G' home' root rank.
  Proof.
    split.
    - intros a l' args out' extra' y q Hn (w & Hw & Hy) Hh Hq. destruct (new_sub _ _ _ _ _ Hn) as (l & out & extra & Hx & -> & -> & ->).
      assert (Ea : home' a = home a) by (unfold home'; rewrite own_small by (apply (HK _ Hx)); reflexivity). rewrite Ea in *.
      assert (Er : rank (PSub a (rep l) args (collect (map rep (extra ++ [l]))) (map rep extra)) = a) by (unfold rank; cbn [paddr]; apply own_small; apply (HK _ Hx)). rewrite Er.
      unfold home' in Hh. rewrite (made_own _ _ Hw Hy) in Hh.
      assert (Lw : paddr w < a) by (apply (a_path _ _ (fact_of _ Hw)); rewrite Hh; apply in_app_iff; right; left; reflexivity).
      assert (KE : forall o k, k <= a -> earlier (home a ++ [a]) k o -> hm' o = home a ++ [a] \/ In o (collect (map rep (extra ++ [l]))) \/ root o /\ prefix (hm' o) (home a) /\ rank o < a).
      { intros o k Hk (p & -> & Gp & Pp & Pr & Lp). rewrite rep_home by exact Gp. apply pre_snoc in Pr. destruct Pr as [Pr|Pr]; [|auto]. right. right. split; [exists p; auto|]. split; [exact Pr|]. unfold rank. rewrite rep_own by exact Gp. lia. }
      destruct (is_plain_step w) eqn:E.
      + destruct w as [a0 id0 d0 t|a0 id0 d0 cl0 r0 ps0 args0 ds0 [p|]|a0 l0 args0 out0 extra0]; try discriminate. pose proof (step_shape _ _ _ _ _ _ _ _ Hw) as ->. destruct (made_step _ _ _ _ _ _ _ Hw) as [[_ A] _].
        destruct (A _ Hy) as (i & id2 & c & r' & qs & args' & -> & B & C). cbn [deps] in Hq. destruct (B q Hq) as [H|H].
        * left. unfold home'. rewrite (made_own _ _ Hw H). exact Hh.
        * apply in_map_iff in H. destruct H as (z & <- & H). apply (KE _ a0); [cbn [paddr] in Lw; lia|]. cbn [paddr] in Hh. rewrite <- Hh. eapply step_prem; [exact Hw|exact H].
      + rewrite (made_other w E) in Hy. destruct Hy as [<-|[]]. destruct w as [a0 id0 d0 t|a0 id0 d0 cl0 r0 ps0 args0 ds0 [p|]|a0 l0 args0 out0 extra0]; [destruct Hq| |discriminate|].
        * rewrite rep_last in Hq by exact Hw. cbn [deps] in Hq. apply in_map_iff in Hq. destruct Hq as (z & <- & Hz). destruct (a_parent _ _ (fact_of _ Hw)) as [[H _]|(a' & l2 & args2 & out2 & extra2 & G2 & H2 & I2)]; [rewrite Hh in H; destruct (home a); discriminate|].
          rewrite Hh in H2. pose proof (sub_same _ _ _ _ _ _ _ _ _ _ Hx G2 H2) as Es. injection Es as <- <- <- <- <-. destruct I2 as [I2|I2].
          -- subst l. apply (KE _ a (le_n _)). eapply last_prem; [exact Hx|]. apply in_app_iff. auto.
          -- exfalso. destruct (a_step _ _ (fact_of _ Hx)) as (_ & S2 & _). destruct (S2 _ I2) as [S3 _]. discriminate.
        * rewrite rep_sub in Hq by exact Hw. cbn [deps] in Hq. apply (KE _ a0); [cbn [paddr] in Lw; lia|]. cbn [paddr] in Hh. rewrite <- Hh. eapply sub_out; [exact Hw|exact Hq].
    - intros a l' args out' extra' e Hn He. destruct (new_sub _ _ _ _ _ Hn) as (l & out & extra & Hx & -> & -> & ->). apply in_map_iff in He. destruct He as (y & <- & Hy).
      destruct (sub_member _ _ _ _ _ y Hx) as (Gy & Ey & _); [apply in_app_iff; auto|]. rewrite rep_home by exact Gy. rewrite Ey. unfold home'. rewrite own_small by (apply (HK _ Hx)). reflexivity.
    - intros y q (w & Hw & Hy) Hq. unfold rank. rewrite (made_own _ _ Hw Hy). apply (made_kids _ _ _ Hw Hy Hq).
    - intros a l' args out' extra' l1 e l2 q Hn Hs (w & Hw & Pw & ->) _ Hh Hlt. destruct (new_sub _ _ _ _ _ Hn) as (l & out & extra & Hx & -> & -> & ->).
      rewrite rep_home in Hh by exact Hw. unfold home' in Hh. rewrite own_small in Hh by (apply (HK _ Hx)). change [rep l] with (map rep [l]) in Hs. rewrite <- map_app in Hs. destruct (split_map _ _ _ _ _ Hs) as (k1 & x & k2 & Ek & -> & ->).
      apply in_map. destruct (sub_member _ _ _ _ _ x Hx) as (Gx & _ & _); [rewrite Ek; apply in_app_iff; right; left; reflexivity|]. unfold rank in Hlt. rewrite !rep_own in Hlt by assumption.
      apply (sub_in_order _ _ _ _ _ Hx k1 x k2 w Ek); [|exact Hlt].
      destruct (a_parent _ _ (fact_of _ Hw)) as [[H _]|(a' & l3 & args3 & out3 & extra3 & G3 & H3 & I3)]; [rewrite Hh in H; destruct (home a); discriminate|]. rewrite Hh in H3.
      pose proof (sub_same _ _ _ _ _ _ _ _ _ _ Hx G3 H3) as Es. injection Es as <- <- <- <- <-. apply in_app_iff. destruct I3 as [->|I3]; [right; left; reflexivity|auto].
  Qed.

  (** *** The list *)
  Hypothesis Htop : forall n, In n forest -> G n /\ plain_node n = true /\ hm n = [].
  Hypothesis Hroot : exists n, In n forest /\ pclause n = [].
  Hypothesis Hal : allowed cfg = [].
  Theorem pass_list : exists forest' fuel out b, omap pass forest = ROk forest' /\ to_list fuel forest' = ROk out /\ check table cfg prems out = ROk b /\ forall s, In s (proof_steps out) -> R (s_rule s).
  Proof.
    assert (HF : forall n, In n (map rep forest) -> G' n /\ plain_node n = true /\ hm' n = []).
    { intros n Hn. apply in_map_iff in Hn. destruct Hn as (w & <- & Hw). destruct (Htop w Hw) as (A & B & C). rewrite rep_plain, rep_home by exact A. split; [apply rep_G; exact A|auto]. }
    destruct (ordered_done table cfg prems G' home' an R root rank new_wfg new_ordered (map rep forest) HF) as (fuel & out & Hout).
    { intros l1 n l2 q Hs (w & Hw & Pw & ->) _ Hh Hlt. destruct (split_map _ _ _ _ _ Hs) as (k1 & x & k2 & Ek & -> & ->). apply in_map. rewrite rep_home in Hh by exact Hw.
      destruct (Htop x) as (Gx & _ & _); [rewrite Ek; apply in_app_iff; right; left; reflexivity|]. unfold rank in Hlt. rewrite !rep_own in Hlt by assumption. apply (soks_in_order _ _ Hso k1 x k2 w Ek); [|exact Hlt].
      destruct (a_parent _ _ (fact_of _ Hw)) as [[_ H]|(a' & l3 & args3 & out3 & extra3 & G3 & H3 & I3)]; [exact H|]. rewrite Hh in H3. destruct (home a'); discriminate. }
    destruct (graph_check table cfg prems G' home' an R new_wfg Hal (map rep forest) fuel out HF) as [[b Hb] HR]; [|exact Hout|].
    - destruct Hroot as (n & Hn & Hc). exists (rep n). split; [apply in_map; exact Hn|]. rewrite rep_clause; [exact Hc|apply Htop; exact Hn].
    - exists (map rep forest), fuel, out, b. split; [|auto]. apply rep_all. intros x Hx. apply Htop. exact Hx.
  Qed.
End Result.
