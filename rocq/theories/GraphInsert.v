(** The proof of an external solver in the graph of an accepted proof (elaborator/lia_generic.rs, elaborator/hole.rs): the list made of the new graph is
    accepted. *)
From Coq Require Import List String ZArith Bool Arith Lia.
From Verif Require Import Base Term Rules Checker CheckerSound Table Nodes ElabIds ElabSolver ElabSound ElabSolverSound GraphAccept SolverInsert GraphCheck GraphTree GraphWf GraphDone GraphReplace.
Import ListNotations.
Local Open Scope string_scope.
Local Open Scope nat_scope.
Local Open Scope list_scope.

(** ** The graph of an accepted proof *)
Lemma tree_rules n : forall a id d cl r ps args ds prev, In (PStep a id d cl r ps args ds prev) (tree n) -> In r (rules_in n).
Proof.
  induction n as [a id d t|a id d cl r ps args ds prev _ _ _|a l args out extra Hl _ He] using pnode_ind'; intros a' id' d' cl' r' ps' args' ds' prev' H.
  - destruct H as [H|[]]; discriminate.
  - destruct H as [H|[]]. injection H as -> -> -> -> -> -> -> -> ->. left. reflexivity.
  - destruct H as [H|H]; [discriminate|]. cbn [rules_in]. apply in_app_iff. apply in_app_iff in H. destruct H as [H|H]; [left; eapply Hl; exact H|].
    right. apply in_flat_map in H. destruct H as (y & Hy & H). apply in_flat_map. exists y. split; [exact Hy|]. rewrite Forall_forall in He. eapply He; eauto.
Qed.
Record accepted_graph (table : bool -> string -> option crule) (cfg : config) (prems : list term) (R : string -> Prop) (lo hi : nat) (forest : list pnode) : Prop := {
  g_wfg : wfg table cfg prems (fnode forest) (fhome forest) (fanchor forest) R;
  g_top : forall n, In n forest -> fnode forest n /\ plain_node n = true /\ fhome forest (paddr n) = [];
  g_root : exists n, In n forest /\ pclause n = [];
  g_range : forall x, fnode forest x -> lo <= paddr x < hi;
  g_path : forall x b, fnode forest x -> In b (fhome forest (paddr x)) -> lo <= b < hi;
  g_known : forall a id d cl r ps args ds prev, fnode forest (PStep a id d cl r ps args ds prev) -> table (elaborated cfg) r <> None;
  g_complete : complete (fnode forest) (fhome forest);
  g_last : forall x, fnode forest x -> plain_node x = false -> fhome forest (paddr x) <> [] }.
Theorem proof_graph table cfg prems off proof b forest (R : string -> Prop) : allowed cfg = [] -> ignore_unknown cfg = false -> table (elaborated cfg) "subproof" = Some subproof ->
  forallb shape_ok proof = true -> check table cfg prems proof = ROk b -> nodes_from off proof = ROk forest ->
  (forall a id d cl r ps args ds prev, fnode forest (PStep a id d cl r ps args ds prev) -> R r) ->
  forall k, (forall x, fnode forest x -> paddr x < k) -> accepted_graph table cfg prems R off k forest.
Proof.
  intros Hal Hig Hsub Hsh Hch Hn HR k Hk. destruct (graph_accepted_from table cfg prems Hal Hig Hsub off proof b forest Hsh Hch Hn) as [Hm Hg].
  destruct (nodes_sok off proof forest Hn Hsh) as (Hso & k' & _ & Hnd & Hsp').
  assert (Hsp : forall x, fnode forest x -> off <= paddr x < k) by (intros x Hx; split; [apply (Hsp' x Hx)|apply Hk; exact Hx]). destruct (check_reaches table cfg prems proof b Hch Hsh) as (c & Hc & Hcl).
  split.
  - apply forest_wfg; auto.
    + eapply Forall_impl; [|exact Hg]. cbn beta. intros n H. apply H.
    + intros a id d t Hin. destruct (f2_nth _ _ _ Hm _ Hin) as (i & c0 & Hi & _ & _ & Hc0). destruct c0 as [id' t'|s|cs args z]; try discriminate.
      destruct Hc0 as (a' & d' & E). injection E as -> -> -> ->. rewrite check_eq in Hch. destruct (run_list table cfg prems proof [] proof 0 st0) as [st| |] eqn:Er; try discriminate.
      eapply run_list_assume; [exact Er|]. eapply nth_error_In. exact Hi.
  - intros n Hin. assert (Fn : fnode forest n) by (apply in_flat_map; exists n; split; [exact Hin|apply tree_self]). split; [exact Fn|]. split; [exact (soks_plain _ _ _ _ Hso Hin)|].
    apply home_walk; [exact Hnd|]. apply in_flat_map. exists n. split; [exact Hin|apply walk_self].
  - clear -Hm Hc Hcl. induction Hm as [|c0 n l m [H _] _ IH]; [destruct Hc|]. destruct Hc as [->|Hc]; [exists n; split; [left; reflexivity|congruence]|].
    destruct (IH Hc) as (m0 & H1 & H2). exists m0. split; [right; exact H1|exact H2].
  - exact Hsp.
  - assert (P : forall j x b0, List.length (fhome forest (paddr x)) <= j -> fnode forest x -> In b0 (fhome forest (paddr x)) -> off <= b0 < k).
    { induction j as [|j IH]; intros x b0 Hj Hx Hb; [destruct (fhome forest (paddr x)); [destruct Hb|cbn in Hj; lia]|].
      destruct (a_parent _ _ (forest_facts _ Hso Hnd _ Hx)) as [[E _]|(a & l & args & out & extra & Ha & E & _)]; rewrite E in Hb; [destruct Hb|]. apply in_app_iff in Hb.
      destruct Hb as [Hb|[<-|[]]]; [|apply (Hsp _ Ha)]. apply (IH (PSub a l args out extra)); auto. rewrite E, app_length in Hj. cbn [paddr] in *. cbn in Hj. lia. }
    intros x b0. apply (P (List.length (fhome forest (paddr x)))). lia.
  - intros a id d cl r ps args ds prev Hx. assert (Hgk : Forall (gok (table (elaborated cfg)) []) forest) by (eapply Forall_impl; [|exact Hg]; cbn beta; intros n H; apply H).
    pose proof (gok_at forest Hnd table cfg Hgk _ Hx) as H. cbn [gok] in H. destruct H as ((f & -> & _) & _). discriminate.
  - apply forest_complete; auto.
  - intros x Hx Hpl Hh. destruct (a_parent _ _ (forest_facts _ Hso Hnd _ Hx)) as [[_ E]|(a & l & args & out & extra & _ & E & _)]; [rewrite (soks_plain _ _ _ _ Hso E) in Hpl; discriminate|]. rewrite Hh in E. symmetry in E. apply app_eq_nil in E. destruct E. discriminate.
Qed.

(** ** The solver's nodes *)
Lemma sh_all delta pre n : allnodes (shift delta pre n) = map (shift delta pre) (allnodes n).
Proof.
  assert (F : forall l, Forall (fun n => allnodes (shift delta pre n) = map (shift delta pre) (allnodes n)) l -> flat_map allnodes (map (shift delta pre) l) = map (shift delta pre) (flat_map allnodes l)).
  { induction 1 as [|x r Hx _ IH]; [reflexivity|]. cbn [map flat_map]. rewrite Hx, IH, map_app. reflexivity. }
  induction n as [|a id d cl r ps args ds prev Hp Hd Hv|a l args out extra Hl Ho He] using pnode_ind'; [reflexivity| |].
  - cbn [shift allnodes map]. rewrite !map_app, !F by assumption. destruct prev; [rewrite Hv|]; reflexivity.
  - cbn [shift allnodes map]. rewrite !map_app, !F, Hl by assumption. reflexivity.
Qed.
Lemma deep_kid n q : deep n = true -> In q (kids n) -> deep q = true.
Proof.
  destruct n as [a id d t|a id d cl r ps args ds prev|a l args out extra]; cbn [deep kids]; [intros _ []| |]; rewrite !andb_true_iff, !forallb_forall.
  - intros [[A B] C]. rewrite !in_app_iff. intros [H|[H|H]]; auto. destruct prev as [p|]; [|destruct H]. destruct H as [<-|[]]. exact C.
  - intros [[[_ A] B] C]. intros [<-|H]; [exact A|]. apply in_app_iff in H. destruct H; auto.
Qed.
Lemma deep_all n : forall x, deep n = true -> In x (allnodes n) -> deep x = true.
Proof.
  assert (H : forall k n x, nsize n <= k -> deep n = true -> In x (allnodes n) -> deep x = true).
  { induction k as [|k IH]; intros m x Hm Hd Hx; [destruct m; cbn in Hm; lia|]. apply kids_all in Hx. destruct Hx as [->|(q & Hq & Hx)]; [exact Hd|].
    apply (IH q); auto; [pose proof (kid_size _ _ Hq); lia|eapply deep_kid; eauto]. }
  intros x. apply (H (nsize n)). lia.
Qed.
Lemma sh_plain delta pre n : plain_node (shift delta pre n) = plain_node n. Proof. destruct n as [| a id d cl r ps args ds [p|] |]; reflexivity. Qed.
Lemma sh_isa delta pre n : is_passume (shift delta pre n) = is_passume n. Proof. destruct n; reflexivity. Qed.
Lemma prefix_under {A} (p a b : list A) : prefix a b -> prefix (p ++ a) (p ++ b).
Proof. intros [c ->]. exists c. apply app_assoc. Qed.
Lemma prefix_self {A} (a : list A) : prefix a a. Proof. exists []. symmetry. apply app_nil_r. Qed.
Lemma prefix_more {A} (a b : list A) : prefix a (a ++ b). Proof. exists b. reflexivity. Qed.

Section Close.
  Variables (table : bool -> string -> option crule) (cfg : config) (prems : list term) (R : string -> Prop).
  Notation T := (table (elaborated cfg)).
  Hypothesis Hsub : T "subproof" = Some subproof.
  (** the context of the step *)
  Variables (home0 : nat -> list nat) (an0 : nat -> list anchor) (P : list nat) (K k0 : nat).
  Hypothesis HK : K <= k0.
  Hypothesis HP : forall b, In b P -> b < K.
  (** the solver's graph *)
  Variables (S : pnode -> Prop) (homeS : nat -> list nat) (anS : nat -> list anchor) (premsS : list term).
  Variable prf : pnode.
  Hypothesis WS : wfg table cfg premsS S homeS anS R.
  Hypothesis Hprf : S prf /\ plain_node prf = true /\ homeS (paddr prf) = [] /\ pclause prf = [] /\ deep prf = true.
  Hypothesis HSr : forall x, S x -> K <= paddr x < k0 /\ forall b, In b (homeS (paddr x)) -> K <= b < k0.
  Hypothesis Hfree : forall r, R r -> (exists a id d cl ps args ds prev, S (PStep a id d cl r ps args ds prev)) -> ctx_free T r.
  Hypothesis HR4 : R "resolution" /\ R "not_not" /\ R "false" /\ R "subproof".
  (** the assumptions *)
  Variables (pre : string) (F asms : list pnode) (concl : clause) (sid : string) (nid : nat -> string).
  Let d := List.length P.
  Let sh := shift (d + 1) pre.
  Let k := k0 + List.length F.
  Let b := k + 1.
  Let n := List.length concl.
  Hypothesis HF : map paddr F = seq k0 (List.length F).
  Hypothesis Hasms : Forall2 (assumes (d + 1)) asms (map tNot concl).
  Hypothesis HFa : incl F asms.
  Hypothesis Hfrom : forall y, In y asms -> In y F \/ exists x, In x (allnodes prf) /\ y = sh x /\ is_passume x = true /\ homeS (paddr x) = [].
  Hypothesis Hcover : forall x, In x (allnodes prf) -> is_passume x = true -> homeS (paddr x) = [] -> In (sh x) asms.
  Definition chome (a : nat) : list nat :=
    if Nat.ltb a K then home0 a else if Nat.ltb a k0 then (P ++ [b]) ++ homeS a else if Nat.leb a k then P ++ [b] else P.
  Definition canchor (a : nat) : list anchor := if Nat.ltb a K then an0 a else if Nat.ltb a k0 then anS a else [].
  Let cx := cxof canchor P.
  Hypothesis Hgok : gok T cx (close k d concl sid nid asms (sh prf)).
  Notation hm x := (chome (paddr x)).
  Definition c_last := PStep k sid (Datatypes.S d) (sub_clause concl) "subproof" [] [] asms (Some (sh prf)).
  Definition c_sub := PSub b c_last [] [] [].
  Definition c_nns := map (not_not_step (k + 2) d nid) (combine (seq 0 n) concl).
  Definition c_fls := PStep (k + 2 + n) (nid n) d [tNot tFalse] "false" [] [] [] None.
  Definition c_new := PStep (k + 3 + n) (nid (n + 1)) d concl "resolution" (c_sub :: c_nns ++ [c_fls]) [] [] None.
  Lemma c_close : close k d concl sid nid asms (sh prf) = c_new. Proof. reflexivity. Qed.
  Definition c_fresh : list pnode := F ++ [c_last; c_sub] ++ c_nns ++ [c_fls; c_new].
  Definition c_node (y : pnode) : Prop := (exists x, In x (allnodes prf) /\ y = sh x) \/ In y c_fresh.

  Lemma nns_addr : map paddr c_nns = seq (k + 2) n.
  Proof.
    unfold c_nns. rewrite map_map. unfold n. generalize (k + 2). intros m. cbn [not_not_step paddr]. 
    assert (H : forall (l : clause) j, map (fun x : nat * term => m + fst x) (combine (seq j (List.length l)) l) = seq (m + j) (List.length l)).
    { induction l as [|t l IH]; intros j; [reflexivity|]. cbn [List.length seq combine map fst]. f_equal. rewrite IH. f_equal. lia. }
    rewrite H. f_equal. lia.
  Qed.
  Lemma fresh_addr : map paddr c_fresh = seq k0 (List.length F + 2 + n + 2).
  Proof.
    unfold c_fresh. rewrite !map_app, HF, nns_addr. cbn [map paddr c_last c_sub c_fls c_new].
    replace (List.length F + 2 + n + 2) with (List.length F + (2 + (n + 2))) by lia. rewrite seq_app. f_equal. rewrite seq_app. fold k. cbn [seq app]. unfold b. replace (Datatypes.S k) with (k + 1) by lia. do 2 f_equal.
    rewrite seq_app. cbn [seq]. assert (E1 : k0 + List.length F + 2 = k + 2) by (unfold k; lia). rewrite ?E1. repeat f_equal; unfold k; lia.
  Qed.
  Lemma fresh_range y : In y c_fresh -> k0 <= paddr y.
  Proof. intros H. apply (in_map paddr) in H. rewrite fresh_addr in H. apply in_seq in H. lia. Qed.
  Lemma nodup_inj (l : list pnode) : NoDup (map paddr l) -> forall x y, In x l -> In y l -> paddr x = paddr y -> x = y.
  Proof.
    induction l as [|z l IH]; intros Hd x y Hx Hy E; [destruct Hx|]. cbn in Hd. inversion Hd as [|? ? Hz Hd']; subst. destruct Hx as [<-|Hx], Hy as [<-|Hy]; auto.
    - exfalso. apply Hz. rewrite E. apply in_map. exact Hy.
    - exfalso. apply Hz. rewrite <- E. apply in_map. exact Hx.
  Qed.
  Lemma S_all x : In x (allnodes prf) -> S x. Proof. apply (w_all _ _ _ _ _ _ _ WS). apply Hprf. Qed.
  Lemma S_below x y : In x (allnodes prf) -> In y (allnodes x) -> In y (allnodes prf). Proof. intros Hx Hy. exact (all_trans _ _ _ Hx Hy). Qed.
  Lemma home_sh x : In x (allnodes prf) -> hm (sh x) = (P ++ [b]) ++ homeS (paddr x).
  Proof.
    intros Hx. destruct (HSr x (S_all x Hx)) as [[A B] _]. unfold sh. rewrite sh_addr. unfold chome. destruct (Nat.ltb_spec (paddr x) K); [lia|]. destruct (Nat.ltb_spec (paddr x) k0); [reflexivity|lia].
  Qed.
  Lemma home_mid a : k0 <= a <= k -> chome a = P ++ [b].
  Proof. intros H. unfold chome. destruct (Nat.ltb_spec a K); [lia|]. destruct (Nat.ltb_spec a k0); [lia|]. destruct (Nat.leb_spec a k); [reflexivity|lia]. Qed.
  Lemma home_out a : k < a -> chome a = P.
  Proof. intros H. unfold chome. destruct (Nat.ltb_spec a K); [lia|]. destruct (Nat.ltb_spec a k0); [lia|]. destruct (Nat.leb_spec a k); [lia|reflexivity]. Qed.
  Lemma F_addr y : In y F -> k0 <= paddr y < k.
  Proof. intros H. apply (in_map paddr) in H. rewrite HF in H. apply in_seq in H. unfold k. lia. Qed.
  Lemma asm_in y : In y asms -> exists a id t, y = PAssume a id (d + 1) t.
  Proof. intros H. revert H. clear -Hasms. revert Hasms. generalize (map tNot concl). induction asms as [|z r IH]; intros l Hl [].
    - subst. inversion Hl as [|? ? ? ? (a & id & ->) Hr]; subst. eauto.
    - inversion Hl; subst. eauto.
  Qed.
  Lemma nn_in y : In y c_nns -> exists i t, y = not_not_step (k + 2) d nid (i, t).
  Proof. intros H. apply in_map_iff in H. destruct H as ([i t] & <- & _). eauto. Qed.
  (** the fresh nodes, by kind *)
  Lemma fresh_cases y : In y c_fresh -> (In y F /\ k0 <= paddr y < k /\ exists a id t, y = PAssume a id (d + 1) t) \/ y = c_last \/ y = c_sub \/ (exists i t, y = not_not_step (k + 2) d nid (i, t)) \/ y = c_fls \/ y = c_new.
  Proof.
    unfold c_fresh. rewrite !in_app_iff. intros [H|[H|[H|H]]].
    - left. split; [exact H|]. split; [apply F_addr; exact H|]. apply asm_in. apply HFa. exact H.
    - destruct H as [<-|[<-|[]]]; auto.
    - right. right. right. left. apply nn_in. exact H.
    - destruct H as [<-|[<-|[]]]; auto 7.
  Qed.
  Lemma asm_node y : In y asms -> c_node y.
  Proof. intros H. destruct (Hfrom y H) as [H'|(x & Hx & -> & _)]; [right; apply in_app_iff; left; exact H'|left; eauto]. Qed.
  Lemma asm_home y : In y asms -> hm y = P ++ [b].
  Proof.
    intros H. destruct (Hfrom y H) as [H'|(x & Hx & -> & _ & E)]; [apply home_mid; pose proof (F_addr y H'); lia|]. rewrite home_sh by exact Hx. rewrite E. apply app_nil_r.
  Qed.
  Lemma all_asm y z : In y asms -> In z (allnodes y) -> z = y.
  Proof. intros H Hz. destruct (asm_in y H) as (a & id & t & ->). destruct Hz as [<-|[]]. reflexivity. Qed.
  Lemma last_closed z : In z (allnodes c_last) -> c_node z.
  Proof.
    cbn [allnodes c_last flat_map app]. intros [<-|H]; [right; apply in_app_iff; right; left; reflexivity|]. apply in_app_iff in H. destruct H as [H|H].
    - apply in_flat_map in H. destruct H as (y & Hy & Hz). rewrite (all_asm y z Hy Hz). apply asm_node. exact Hy.
    - unfold sh in H. rewrite sh_all in H. apply in_map_iff in H. destruct H as (x & <- & Hx). left. eauto.
  Qed.
  Lemma sub_closed z : In z (allnodes c_sub) -> c_node z.
  Proof. cbn [allnodes c_sub flat_map]. rewrite !app_nil_r. intros [<-|H]; [right; apply in_app_iff; right; right; left; reflexivity|apply last_closed; exact H]. Qed.
  Lemma nns_all y z : In y c_nns -> In z (allnodes y) -> z = y.
  Proof. intros H Hz. destruct (nn_in y H) as (i & t & ->). destruct Hz as [<-|[]]. reflexivity. Qed.
  Lemma new_closed z : In z (allnodes c_new) -> c_node z.
  Proof.
    change (In z (c_new :: (allnodes c_sub ++ flat_map allnodes (c_nns ++ [c_fls])) ++ [] ++ []) -> c_node z). rewrite !app_nil_r. intros [<-|H].
    - right. unfold c_fresh. rewrite !in_app_iff. right. right. right. right. left. reflexivity.
    - apply in_app_iff in H. destruct H as [H|H]; [apply sub_closed; exact H|]. apply in_flat_map in H. destruct H as (y & Hy & Hz). apply in_app_iff in Hy. destruct Hy as [Hy|[<-|[]]].
      + rewrite (nns_all y z Hy Hz). right. unfold c_fresh. rewrite !in_app_iff. auto.
      + destruct Hz as [<-|[]]. right. unfold c_fresh. rewrite !in_app_iff. right. right. right. left. reflexivity.
  Qed.
  Lemma node_all y z : c_node y -> In z (allnodes y) -> c_node z.
  Proof.
    intros [(x & Hx & ->)|Hy] Hz.
    - unfold sh in Hz. rewrite sh_all in Hz. apply in_map_iff in Hz. destruct Hz as (w & <- & Hw). left. exists w. split; [eapply S_below; eauto|reflexivity].
    - destruct (fresh_cases y Hy) as [(A & _ & a & id & t & E)|[->|[->|[(i & t & ->)|[->| ->]]]]].
      + rewrite E in Hz. destruct Hz as [<-|[]]. right. rewrite <- E. exact Hy.
      + apply last_closed. exact Hz.
      + apply sub_closed. exact Hz.
      + destruct Hz as [<-|[]]. right. exact Hy.
      + destruct Hz as [<-|[]]. right. exact Hy.
      + apply new_closed. exact Hz.
  Qed.
  Lemma cx_sub : cxof canchor (P ++ [b]) = [] :: cx.
  Proof. unfold cxof. rewrite map_app, rev_app_distr. cbn [map rev app]. f_equal. unfold canchor. destruct (Nat.ltb_spec b K); [unfold b, k in *; lia|]. destruct (Nat.ltb_spec b k0); [unfold b, k in *; lia|]. reflexivity. Qed.
  Lemma b_out : ~ In b P. Proof. intros H. apply HP in H. unfold b, k in H. lia. Qed.
  Theorem close_wfg : wfg table cfg prems c_node chome canchor R.
  Proof.
    destruct HR4 as (R1 & R2 & R3 & R4). rewrite c_close in Hgok. cbn [gok c_new] in Hgok. destruct Hgok as (Gres & _ & Gps & _). cbn [map fold_right] in Gps. destruct Gps as [Gsub Gps].
    rewrite fold_and_map in Gps. apply Forall_app in Gps. destruct Gps as [Gnn Gf]. inversion_clear Gf as [|? ? Gf' _]. cbn [gok c_fls] in Gf'. destruct Gf' as (Gfls & _).
    cbn [gok c_sub pdepth c_last] in Gsub. destruct Gsub as [Glast _]. cbn [gok] in Glast. destruct Glast as (Glast & _). replace (d - (Datatypes.S d - 1)) with 0 in Glast by lia. cbn [skipn] in Glast.
    destruct Hprf as (Sp & Pp & Hp0 & Cp & Dp).
    assert (Hd : forall x, In x (allnodes prf) -> deep x = true) by (intros x; apply deep_all; exact Dp).


    assert (Dasm : forall y, c_node y -> is_passume y = true -> forall q, hm y = P ++ [b] ++ q -> (q = [] /\ In y asms) \/ exists x, In x (allnodes prf) /\ y = sh x /\ is_passume x = true /\ homeS (paddr x) = q).
    { intros y [(x & Hx & ->)|Hy] Hi q Hq.
      - right. exists x. split; [exact Hx|]. split; [reflexivity|]. unfold sh in Hi. rewrite sh_isa in Hi. split; [exact Hi|]. rewrite home_sh, <- app_assoc in Hq by exact Hx. apply app_inv_head in Hq. apply app_inv_head in Hq. exact Hq.
      - destruct (fresh_cases y Hy) as [(A & B & _)|[->|[->|[(i & t & ->)|[->| ->]]]]]; try discriminate Hi. left. rewrite home_mid in Hq by lia. split; [|apply HFa; exact A]. apply app_inv_head in Hq. injection Hq as <-. reflexivity. }
    assert (Cfree : forall r, R r -> (exists a id d cl ps args ds prev, S (PStep a id d cl r ps args ds prev)) -> forall f cl ps args cx1 cx2 prev ds, T r = Some f ->
      (ds = [] \/ r = "subproof") -> f (mkRA cl (map pclause ps) args cx1 (match prev with Some p => Some (pclause p) | None => None end) (map as_command ds)) = ROk tt ->
      f (mkRA cl (map pclause (map sh ps)) args cx2 (match prev with Some p => Some (pclause (sh p)) | None => None end) (map as_command (map sh ds))) = ROk tt).
    { intros r Hr Hex f cl ps args cx1 cx2 prev ds Hf Hds H. rewrite (Hfree r Hr Hex f _ _ _ _ cx2 _ _ Hf) in H. rewrite map_map. rewrite (map_ext (fun x => pclause (sh x)) pclause) by apply sh_clause.
      replace (match prev with Some p => Some (pclause (sh p)) | None => None end) with (match prev with Some p => Some (pclause p) | None => None end) by (destruct prev; [unfold sh; rewrite sh_clause|]; reflexivity).
      destruct Hds as [->|E]; [exact H|]. rewrite E, Hsub in Hf. injection Hf as <-. unfold subproof in *. cbn [ra_concl ra_prev ra_disch] in *. unfold sh. rewrite disch_shift. rewrite !map_length in *. exact H. }
    split.
    - intros y z. apply node_all.
    - intros x y [(x0 & Hx & ->)|Hx] [(y0 & Hy & ->)|Hy] E.
      + f_equal. unfold sh in E. rewrite !sh_addr in E. apply (w_addr _ _ _ _ _ _ _ WS); auto using S_all.
      + exfalso. unfold sh in E. rewrite sh_addr in E. pose proof (HSr x0 (S_all _ Hx)). pose proof (fresh_range y Hy). lia.
      + exfalso. unfold sh in E. rewrite sh_addr in E. pose proof (HSr y0 (S_all _ Hy)). pose proof (fresh_range x Hx). lia.
      + apply (nodup_inj c_fresh); auto. rewrite fresh_addr. apply seq_NoDup.
    - intros y [(x & Hx & ->)|Hy].
      + rewrite home_sh by exact Hx. unfold sh. rewrite sh_depth by auto. rewrite (w_depth _ _ _ _ _ _ _ WS x (S_all x Hx)), !app_length. cbn [List.length]. unfold d. lia.
      + destruct (fresh_cases y Hy) as [(A & B & a & id & t & ->)|[->|[->|[(i & t & ->)|[->| ->]]]]]; cbn [paddr pdepth c_last c_sub c_fls c_new not_not_step fst].
        * cbn [paddr] in B. rewrite home_mid, app_length by lia. cbn. unfold d. lia.
        * rewrite home_mid, app_length by lia. cbn. unfold d. lia.
        * rewrite home_out by (unfold b; lia). unfold d. lia.
        * rewrite home_out by lia. reflexivity.
        * rewrite home_out by lia. reflexivity.
        * rewrite home_out by lia. reflexivity.
    - intros y [(x & Hx & ->)|Hy].
      + rewrite home_sh by exact Hx. unfold sh. rewrite sh_addr. pose proof (HSr x (S_all x Hx)) as [Hr _]. rewrite !in_app_iff. intros [[H|[H|[]]]|H].
        * apply HP in H. lia.
        * unfold b, k in H. lia.
        * exact (w_fresh _ _ _ _ _ _ _ WS x (S_all x Hx) H).
      + pose proof (fresh_range y Hy) as Hr. assert (HnP : ~ In (paddr y) P) by (intros H; apply HP in H; lia).
        destruct (Nat.le_gt_cases (paddr y) k) as [Hl|Hl]; [rewrite home_mid by lia; rewrite in_app_iff; intros [H|[H|[]]]; [auto|unfold b in H; lia]|rewrite home_out by lia; exact HnP].
    - intros a id e t [(x & Hx & E)|Hy] Hh; exfalso.
      + pose proof (home_sh x Hx) as H. rewrite <- E in H. cbn [paddr] in H. rewrite Hh in H. symmetry in H. apply app_eq_nil in H. destruct H as [H _]. apply app_eq_nil in H. destruct H as [_ H]. discriminate.
      + destruct (fresh_cases _ Hy) as [(A & B & _)|[E|[E|[(i & u & E)|[E|E]]]]]; try discriminate E. cbn [paddr] in B. rewrite home_mid in Hh by lia. apply app_eq_nil in Hh. destruct Hh as [_ Hh]. discriminate.
    - intros a id e cl r ps args ds [(x & Hx & E)|Hy].
      + destruct x as [a0 id0 d0 t0|a0 id0 d0 cl0 r0 ps0 args0 ds0 [p0|]|a0 l0 args0 out0 extra0]; try discriminate. pose proof (home_sh _ Hx) as Hh. pose proof (S_all _ Hx) as Sx. unfold sh in E. cbn [shift] in E. fold sh in E. injection E as -> -> -> -> -> -> -> ->.
        unfold sh in Hh. cbn [shift paddr] in Hh. destruct (w_step _ _ _ _ _ _ _ WS _ _ _ _ _ _ _ _ Sx) as (-> & B & Rr & f & Hf & C).
        assert (Kps : forall q, In q ps0 -> In q (allnodes prf)) by (intros q Hq; eapply S_below; [exact Hx|]; apply kid_all; cbn [kids]; rewrite !in_app_iff; auto).
        split; [reflexivity|]. split.
        * intros p Hp. apply in_map_iff in Hp. destruct Hp as (q & <- & Hq). unfold sh at 1. rewrite sh_plain. split; [apply B; exact Hq|]. rewrite (home_sh q) by auto. rewrite Hh. apply prefix_under. apply B. exact Hq.
        * split; [exact Rr|]. exists f. split; [exact Hf|]. exact (Cfree r0 Rr ltac:(do 8 eexists; exact Sx) f cl0 ps0 args0 _ _ None [] Hf (or_introl eq_refl) C).
      + destruct (fresh_cases _ Hy) as [(_ & _ & a' & id' & t' & E)|[E|[E|[(i & t & E)|[E|E]]]]]; try discriminate E.
        * assert (Hin : In (not_not_step (k + 2) d nid (i, t)) c_nns).
          { rewrite <- E. unfold c_fresh in Hy. rewrite !in_app_iff in Hy. destruct Hy as [Hy|[Hy|[Hy|Hy]]]; [exfalso; destruct (asm_in _ (HFa _ Hy)) as (? & ? & ? & ?); discriminate| | exact Hy|]; exfalso; rewrite E in Hy; destruct Hy as [Hy|[Hy|[]]]; discriminate. }
          rewrite Forall_forall in Gnn. specialize (Gnn _ Hin). cbn [not_not_step gok pdepth fst snd] in Gnn. destruct Gnn as (G1 & _). replace (d - d) with 0 in G1 by lia. cbn [skipn] in G1.
          cbn [not_not_step fst snd] in E. injection E as -> -> -> -> -> -> -> ->. split; [reflexivity|]. split; [intros p []|]. rewrite home_out by lia. split; [exact R2|exact G1].
        * unfold c_fls in E. injection E as -> -> -> -> -> -> -> ->. split; [reflexivity|]. split; [intros p []|]. rewrite home_out by lia. cbn [pdepth c_fls] in Gfls. replace (d - d) with 0 in Gfls by lia. split; [exact R3|exact Gfls].
        * unfold c_new in E. injection E as -> -> -> -> -> -> -> ->. split; [reflexivity|]. rewrite home_out by lia. split; [|split; [exact R1|exact Gres]].
          intros p [<-|Hp]; [split; [reflexivity|]; cbn [paddr c_sub]; rewrite home_out by (unfold b; lia); apply prefix_self|].
          apply in_app_iff in Hp. destruct Hp as [Hp|[<-|[]]].
          -- destruct (nn_in p Hp) as (i & t & ->). split; [reflexivity|]. cbn [paddr not_not_step fst]. rewrite home_out by lia. apply prefix_self.
          -- split; [reflexivity|]. cbn [paddr c_fls]. rewrite home_out by lia. apply prefix_self.
    - intros a l args out extra [(x & Hx & E)|Hy].
      + destruct x as [a0 id0 d0 t0|a0 id0 d0 cl0 r0 ps0 args0 ds0 p0|a0 l0 args0 out0 extra0]; try discriminate. pose proof (home_sh _ Hx) as Hh. pose proof (S_all _ Hx) as Sx. unfold sh in E. cbn [shift] in E. fold sh in E. injection E as -> -> -> -> ->.
        unfold sh in Hh. cbn [shift paddr] in Hh. destruct (w_sub _ _ _ _ _ _ _ WS _ _ _ _ _ Sx) as (A1 & A2 & A3 & al & id & e & cl & r & ps & sargs & ds & p & B1 & B2 & B3 & B4 & B5 & B6 & B7 & (Rr & f & Hf & B8) & B9 & B10).
        assert (Kout : forall q, In q (out0 ++ extra0) -> In q (allnodes prf)) by (intros q Hq; eapply S_below; [exact Hx|]; apply kid_all; right; exact Hq).
        assert (Kl : In l0 (allnodes prf)) by (eapply S_below; [exact Hx|]; apply kid_all; left; reflexivity).
        assert (Kk : forall q, In q (ps ++ ds ++ [p]) -> In q (allnodes prf)) by (intros q Hq; eapply S_below; [exact Kl|]; rewrite B1; apply kid_all; exact Hq).
        assert (Ks : forall q, In q (ps ++ ds) -> In q (allnodes prf)) by (intros q Hq; apply Kk; rewrite app_assoc; apply in_app_iff; auto).
        assert (Kp : In p (allnodes prf)) by (apply Kk; rewrite !in_app_iff; cbn; auto).
        pose proof (HSr _ Sx) as [Hra _]. cbn [paddr] in Hra.
        split; [unfold canchor; destruct (Nat.ltb_spec a0 K); [lia|]; destruct (Nat.ltb_spec a0 k0); [exact A1|lia]|].
        assert (Up : forall q path, In q (allnodes prf) -> plain_node q = true /\ prefix (homeS (paddr q)) path -> plain_node (sh q) = true /\ prefix (hm (sh q)) ((P ++ [b]) ++ path)).
        { intros q path Hq [X Y]. unfold sh at 1. rewrite sh_plain. split; [exact X|]. rewrite home_sh by exact Hq. apply prefix_under. exact Y. }
        split; [intros o Ho; apply in_map_iff in Ho; destruct Ho as (q & <- & Hq); rewrite Hh; apply Up; [apply Kout; apply in_app_iff; auto|apply A2; exact Hq]|].
        rewrite Hh. rewrite <- app_assoc.
        split; [intros o Ho; apply in_map_iff in Ho; destruct Ho as (q & <- & Hq); apply Up; [apply Kout; apply in_app_iff; auto|apply A3; exact Hq]|].
        exists al, (pre ++ "." ++ id)%string, (e + (d + 1)), cl, r, (map sh ps), sargs, (map sh ds), (sh p). split; [rewrite B1; reflexivity|].
        split; [pose proof (home_sh l0 Kl) as Hl; rewrite B1 in Hl; unfold sh in Hl; cbn [shift paddr] in Hl; rewrite Hl, B2; reflexivity|].
        split; [unfold sh; rewrite sh_plain; exact B3|]. split; [rewrite home_sh, B4 by exact Kp; reflexivity|].
        split; [intros o Ho; apply in_map_iff in Ho; destruct Ho as (q & <- & Hq); apply Up; [apply Ks; apply in_app_iff; auto|apply B5; exact Hq]|].
        split; [intros o Ho; apply in_map_iff in Ho; destruct Ho as (q & <- & Hq); unfold sh at 1; rewrite sh_isa; split; [apply B6; exact Hq|]; rewrite home_sh by (apply Ks; apply in_app_iff; auto); apply prefix_under; apply B6; exact Hq|].
        split; [destruct B7 as [->|B7]; auto|].
        split; [split; [exact Rr|]; exists f; split; [exact Hf|]; apply (Cfree r Rr) with (cx1 := cxof anS (homeS a0 ++ [a0])) (prev := Some p); auto; rewrite B1 in Kl; do 8 eexists; apply S_all; exact Kl|].
        split.
        * intros y Hy Hi Hq. rewrite <- app_assoc in Hq. destruct (Dasm y Hy Hi _ Hq) as [[E _]|(x & Hx' & -> & Hi' & Hhx)]; [destruct (homeS a0); discriminate|]. apply in_map. apply B9; auto using S_all.
        * assert (Hall : forall l, map paddr (flat_map allnodes (map sh l)) = map paddr (flat_map allnodes l)).
          { intros l. induction l as [|q l IH]; [reflexivity|]. cbn [map flat_map]. rewrite !map_app, IH. unfold sh. rewrite sh_all, map_map. f_equal. apply map_ext. intros w. apply sh_addr. }
          destruct B10 as [(ex & Ee & Hpe & Hse)|Hpe].
          -- left. exists (map sh ex). split; [rewrite Ee, map_app; reflexivity|]. split; [rewrite Hall; unfold sh; rewrite sh_addr; exact Hpe|].
             rewrite <- map_app. intros q Hq. apply in_map_iff in Hq. destruct Hq as (q0 & <- & Hq). destruct (Hse q0 Hq) as [X|X]; [left; rewrite home_sh by (apply Ks; exact Hq); rewrite !app_length; lia|right; apply in_map; exact X].
          -- right. rewrite <- !map_app, Hall. unfold sh. rewrite sh_addr. exact Hpe.
      + destruct (fresh_cases _ Hy) as [(_ & _ & a' & id' & t' & E)|[E|[E|[(i & t & E)|[E|E]]]]]; try discriminate E. unfold c_sub in E. injection E as -> -> -> -> ->.
        assert (Hb : chome b = P) by (apply home_out; unfold b; lia). rewrite Hb.
        split; [unfold canchor; destruct (Nat.ltb_spec b K); [unfold b, k in *; lia|]; destruct (Nat.ltb_spec b k0); [unfold b, k in *; lia|reflexivity]|].
        split; [intros o []|]. split; [intros o []|].
        exists k, sid, (Datatypes.S d), (sub_clause concl), "subproof", [], [], asms, (sh prf). split; [reflexivity|]. split; [apply home_mid; unfold k; lia|].
        split; [unfold sh; rewrite sh_plain; exact Pp|]. split; [rewrite home_sh, Hp0 by apply all_self; apply app_nil_r|]. split; [intros q []|].
        split; [intros y Hy'; split; [destruct (asm_in y Hy') as (? & ? & ? & ->); reflexivity|rewrite asm_home by exact Hy'; apply prefix_self]|].
        split; [right; reflexivity|]. split; [split; [exact R4|]; rewrite cx_sub; exact Glast|]. split.
        * intros y Hn Hi Hq. destruct (Dasm y Hn Hi [] Hq) as [[_ X]|(x & Hx & -> & Hi' & Hhx)]; [exact X|]. apply Hcover; assumption.
        * right. cbn [app]. intros H. apply in_map_iff in H. destruct H as (z & Ez & Hz). apply in_flat_map in Hz. destruct Hz as (y & Hy' & Hz). rewrite (all_asm y z Hy' Hz) in *.
          destruct (Hfrom y Hy') as [H|(x & Hx & -> & Hi & _)].
          -- pose proof (F_addr y H). unfold sh in Ez. rewrite sh_addr in Ez. pose proof (HSr prf Sp). lia.
          -- unfold sh in Ez. rewrite !sh_addr in Ez. assert (x = prf) by (apply (w_addr _ _ _ _ _ _ _ WS); auto using S_all). subst x. destruct prf; try discriminate.
  Qed.
  (** ** Outbound premises *)
  Hypothesis CS : complete S homeS.
  Hypothesis HSl : forall x, S x -> plain_node x = false -> homeS (paddr x) <> [].
  Lemma fresh_sub a l args out extra : In (PSub a l args out extra) c_fresh -> a = b /\ out = [] /\ extra = [].
  Proof.
    intros H. destruct (fresh_cases _ H) as [(_ & _ & a' & id & t & E)|[E|[E|[(i & t & E)|[E|E]]]]]; try discriminate E. injection E as -> _ _ -> ->. auto.
  Qed.
  Lemma fresh_home y : In y c_fresh -> (hm y = P ++ [b] /\ deps y = []) \/ (hm y = P /\ forall q, In q (deps y) -> hm q = P).
  Proof.
    intros H. destruct (fresh_cases y H) as [(_ & B & a' & id & t & ->)|[->|[->|[(i & t & ->)|[->| ->]]]]].
    - left. split; [apply home_mid; cbn [paddr] in *; lia|reflexivity].
    - left. split; [apply home_mid; cbn [paddr c_last]; lia|reflexivity].
    - right. split; [apply home_out; cbn [paddr c_sub]; unfold b; lia|intros q []].
    - right. split; [apply home_out; cbn [paddr not_not_step fst]; lia|intros q []].
    - right. split; [apply home_out; cbn [paddr c_fls]; lia|intros q []].
    - right. split; [apply home_out; cbn [paddr c_new]; lia|]. cbn [deps c_new]. intros q [<-|Hq]; [apply home_out; cbn [paddr c_sub]; unfold b; lia|]. apply in_app_iff in Hq. destruct Hq as [Hq|[<-|[]]].
      + destruct (nn_in q Hq) as (i & t & ->). apply home_out. cbn [paddr not_not_step fst]. lia.
      + apply home_out. cbn [paddr c_fls]. lia.
  Qed.
  Lemma sh_deps x : deps (sh x) = map sh (deps x). Proof. destruct x; reflexivity. Qed.
  Lemma top_deps x q : In x (allnodes prf) -> homeS (paddr x) = [] -> In q (deps x) -> homeS (paddr q) = [].
  Proof.
    intros Hx Hh Hq. pose proof (S_all x Hx) as Sx. destruct (plain_node x) eqn:Ep; [|destruct (HSl x Sx Ep Hh)].
    assert (Hp : prefix (homeS (paddr q)) []).
    { rewrite <- Hh. destruct x as [a id e t|a id e cl r ps args ds [p|]|a l args out extra]; [destruct Hq|discriminate| |].
      - destruct (w_step _ _ _ _ _ _ _ WS _ _ _ _ _ _ _ _ Sx) as (_ & B & _). apply B. exact Hq.
      - destruct (w_sub _ _ _ _ _ _ _ WS _ _ _ _ _ Sx) as (_ & B & _). apply B. exact Hq. }
    apply pre_len in Hp. destruct (homeS (paddr q)); [reflexivity|cbn in Hp; lia].
  Qed.
  Lemma dep_below x q : In x (allnodes prf) -> In q (deps x) -> In q (allnodes prf).
  Proof. intros Hx Hq. eapply S_below; [exact Hx|]. apply kid_all. destruct x; cbn [deps kids] in *; [auto| |]; [apply in_app_iff; auto|right; apply in_app_iff; auto]. Qed.
  Lemma close_complete : complete c_node chome.
  Proof.
    split.
    - intros a l args out extra y q [(x0 & Hx0 & E0)|Hs] Hy Hh Hq.
      + destruct x0 as [|a0 id0 d0 cl0 r0 ps0 args0 ds0 p0|a0 l0 args0 out0 extra0]; try discriminate. pose proof (home_sh _ Hx0) as Ha. unfold sh in E0. cbn [shift] in E0. fold sh in E0. injection E0 as -> -> -> -> ->. unfold sh in Ha. cbn [shift paddr] in Ha. rewrite Ha in Hh |- *.
        destruct Hy as [(y0 & Hy0 & ->)|Hy].
        * rewrite home_sh in Hh by exact Hy0. rewrite <- (app_assoc (P ++ [b])) in Hh. apply app_inv_head in Hh. rewrite sh_deps in Hq. apply in_map_iff in Hq. destruct Hq as (q0 & <- & Hq). rewrite (home_sh q0) by (eapply dep_below; eauto).
          destruct (c_deps _ _ CS _ _ _ _ _ _ _ (S_all _ Hx0) (S_all _ Hy0) Hh Hq) as [H|H]; [left; rewrite H, app_assoc; reflexivity|right; apply in_map; exact H].
        * exfalso. assert (HL : List.length (hm y) <= List.length P + 1) by (destruct (fresh_home y Hy) as [[-> _]|[-> _]]; rewrite ?app_length; cbn; lia). rewrite Hh, !app_length in HL. cbn in HL. lia.
      + destruct (fresh_sub _ _ _ _ _ Hs) as (-> & -> & ->). rewrite (home_out b) in * by (unfold b; lia). left. destruct Hy as [(y0 & Hy0 & ->)|Hy].
        * rewrite home_sh in Hh by exact Hy0. rewrite <- (app_nil_r (P ++ [b])) in Hh at 2. apply app_inv_head in Hh. rewrite sh_deps in Hq. apply in_map_iff in Hq. destruct Hq as (q0 & <- & Hq). rewrite (home_sh q0) by (eapply dep_below; eauto).
          rewrite (top_deps y0 q0 Hy0 Hh Hq). apply app_nil_r.
        * destruct (fresh_home y Hy) as [[_ E]|[E _]]; [rewrite E in Hq; destruct Hq|]. rewrite E in Hh. apply (f_equal (@List.length nat)) in Hh. rewrite app_length in Hh. cbn in Hh. lia.
    - intros a l args out extra e [(x0 & Hx0 & E0)|Hs] He.
      + destruct x0 as [|a0 id0 d0 cl0 r0 ps0 args0 ds0 p0|a0 l0 args0 out0 extra0]; try discriminate. pose proof (home_sh _ Hx0) as Ha. unfold sh in E0. cbn [shift] in E0. fold sh in E0. injection E0 as -> -> -> -> ->. unfold sh in Ha. cbn [shift paddr] in Ha. rewrite Ha.
        apply in_map_iff in He. destruct He as (e0 & <- & He). rewrite (home_sh e0) by (eapply S_below; [exact Hx0|]; apply kid_all; cbn [kids]; right; apply in_app_iff; auto). rewrite (c_extra _ _ CS _ _ _ _ _ _ (S_all _ Hx0) He). apply app_assoc.
      + destruct (fresh_sub _ _ _ _ _ Hs) as (_ & _ & ->). destruct He.
  Qed.
End Close.

(** ** The step is replaced *)
Lemma wfg_ext table cfg prems G home an home' an' R K : wfg table cfg prems G home an R ->
  (forall x, G x -> paddr x < K) -> (forall x b, G x -> In b (home (paddr x)) -> b < K) -> (forall a, a < K -> home' a = home a) -> (forall a, a < K -> an' a = an a) ->
  wfg table cfg prems G home' an' R.
Proof.
  intros W Ha Hb Eh Ea.
  assert (Ehm : forall x, G x -> home' (paddr x) = home (paddr x)) by (intros x Hx; apply Eh; auto).
  assert (Ecx : forall p, (forall b, In b p -> b < K) -> cxof an' p = cxof an p) by (intros p Hp; unfold cxof; f_equal; apply map_ext_in; intros b Hin; apply Ea; auto).
  split.
  - exact (w_all _ _ _ _ _ _ _ W).
  - exact (w_addr _ _ _ _ _ _ _ W).
  - intros n Hn. rewrite Ehm by exact Hn. apply (w_depth _ _ _ _ _ _ _ W). exact Hn.
  - intros n Hn. rewrite Ehm by exact Hn. apply (w_fresh _ _ _ _ _ _ _ W). exact Hn.
  - intros a id d t Hn Hh. apply (w_assume _ _ _ _ _ _ _ W a id d t Hn). rewrite <- Hh. symmetry. apply (Ehm _ Hn).
  - intros a id d cl r ps args ds Hn. destruct (w_step _ _ _ _ _ _ _ W _ _ _ _ _ _ _ _ Hn) as (A & B & C). pose proof (Ehm _ Hn) as E. cbn [paddr] in E. rewrite E, Ecx by (intros b; apply (Hb _ _ Hn)).
    split; [exact A|]. split; [|exact C]. intros p Hp. rewrite Ehm; [apply B; exact Hp|]. apply (w_all _ _ _ _ _ _ _ W _ _ Hn). apply kid_all. cbn [kids]. rewrite !in_app_iff. auto.
  - intros a l args out extra Hn. destruct (w_sub _ _ _ _ _ _ _ W _ _ _ _ _ Hn) as (A1 & A2 & A3 & al & id & d & cl & r & ps & sargs & ds & p & B1 & B2 & B3 & B4 & B5 & B6 & B7 & B8 & B9 & B10).
    pose proof (Ehm _ Hn) as E. cbn [paddr] in E.
    assert (Gk : forall q, In q (l :: out ++ extra) -> G q) by (intros q Hq; apply (w_all _ _ _ _ _ _ _ W _ _ Hn); apply kid_all; exact Hq).
    assert (Gl : G l) by (apply Gk; left; reflexivity).
    assert (Gq : forall q, In q (ps ++ ds ++ [p]) -> G q) by (intros q Hq; apply (w_all _ _ _ _ _ _ _ W _ _ Gl); rewrite B1; apply kid_all; exact Hq).
    assert (Gp : G p) by (apply Gq; rewrite !in_app_iff; cbn; auto).
    rewrite E. split; [rewrite Ea; [exact A1|apply (Ha _ Hn)]|].
    split; [intros o Ho; rewrite Ehm; [auto|apply Gk; right; apply in_app_iff; auto]|]. split; [intros o Ho; rewrite Ehm; [auto|apply Gk; right; apply in_app_iff; auto]|].
    exists al, id, d, cl, r, ps, sargs, ds, p. split; [exact B1|]. split; [pose proof (Ehm _ Gl) as El; rewrite B1 in El; cbn [paddr] in El; rewrite El; exact B2|]. split; [exact B3|]. split; [rewrite Ehm by exact Gp; exact B4|].
    split; [intros q Hq; rewrite Ehm; [auto|apply Gq; apply in_app_iff; auto]|]. split; [intros q Hq; rewrite Ehm; [auto|apply Gq; rewrite !in_app_iff; auto]|]. split; [exact B7|].
    split; [rewrite Ecx; [exact B8|]; intros b Hin; apply in_app_iff in Hin; destruct Hin as [Hin|[<-|[]]]; [apply (Hb _ _ Hn); exact Hin|apply (Ha _ Hn)]|].
    split; [intros x Hx Hi Hq; apply B9; auto; rewrite <- Hq; symmetry; apply Ehm; exact Hx|].
    destruct B10 as [(ex & X & Y & Z)|X]; [left|right; exact X]. exists ex. split; [exact X|]. split; [exact Y|]. intros q Hq. rewrite Ehm; [auto|]. apply Gq. rewrite app_assoc. apply in_app_iff. auto.
Qed.

Section Insert.
  Variables (table : bool -> string -> option crule) (cfg : config) (prems premsS : list term) (R : string -> Prop).
  Notation T := (table (elaborated cfg)).
  Hypothesis Hal : allowed cfg = [].
  Hypothesis Hsub : T "subproof" = Some subproof.
  Hypothesis HR4 : R "resolution" /\ R "not_not" /\ R "false" /\ R "subproof".
  Variables (forest sforest : list pnode) (K lo k0 : nat).
  Hypothesis HM : accepted_graph table cfg prems (fun _ => True) 0 K forest.
  Hypothesis HS : accepted_graph table cfg premsS R lo k0 sforest.
  Hypothesis HKlo : K <= lo <= k0.
  Hypothesis Hfree : forall a id d cl r ps args ds prev, fnode sforest (PStep a id d cl r ps args ds prev) -> ctx_free T r.
  Variables (a : nat) (oid : string) (concl : clause) (orule : string) (ops : list pnode) (oargs : list term) (ods : list pnode).
  Notation P := (fhome forest a).
  Notation d := (List.length P).
  Notation old := (PStep a oid d concl orule ops oargs ods None).
  Hypothesis Hold : fnode forest old.
  Hypothesis HR : forall a' id d cl r ps args ds prev, fnode forest (PStep a' id d cl r ps args ds prev) -> a' <> a -> R r.
  Variable prf : pnode.
  Hypothesis Hprf : In prf sforest /\ pclause prf = [] /\ deep prf = true.
  Variables (pre : string) (F asms : list pnode) (sid : string) (nid : nat -> string).
  Hypothesis HF : map paddr F = seq k0 (List.length F).
  Hypothesis Hasms : Forall2 (assumes (d + 1)) asms (map tNot concl).
  Hypothesis HFa : incl F asms.
  Hypothesis Hfrom : forall y, In y asms -> In y F \/ exists x, In x (allnodes prf) /\ y = shift (d + 1) pre x /\ is_passume x = true /\ fhome sforest (paddr x) = [].
  Hypothesis Hcover : forall x, In x (allnodes prf) -> is_passume x = true -> fhome sforest (paddr x) = [] -> In (shift (d + 1) pre x) asms.
  Hypothesis Hgok : forall cx, List.length cx = d -> gok T cx (close (k0 + List.length F) d concl sid nid asms (shift (d + 1) pre prf)).
  Theorem insert_check : let final := map (replace_node a (close (k0 + List.length F) d concl sid nid asms (shift (d + 1) pre prf))) forest in
    (exists fuel out, to_list fuel final = ROk out) /\
    forall fuel out, to_list fuel final = ROk out -> (exists b, check table cfg prems out = ROk b) /\ forall s, In s (proof_steps out) -> R (s_rule s).
  Proof.
    cbv zeta. destruct HM as [W Mtop Mroot Mr Mp _ MC _], HS as [WS Stop Sroot Sr Spath _ SC Sl]. destruct Hprf as (Pin & Pcl & Pdeep). destruct (Stop prf Pin) as (Pf & Ppl & Phm).
    assert (HP : forall b, In b P -> b < lo) by (intros b Hb; destruct (Mp old b Hold Hb); lia).
    assert (Ha : a < K) by (apply (Mr _ Hold)).
    set (home := chome (fhome forest) P lo k0 (fhome sforest) F). set (an := canchor (fanchor forest) lo k0 (fanchor sforest)).
    set (N := c_node P k0 prf pre F asms concl sid nid).
    assert (Eh : forall x, x < K -> home x = fhome forest x) by (intros x Hx; unfold home, chome; destruct (Nat.ltb_spec x lo); [reflexivity|lia]).
    assert (Ea : forall x, x < K -> an x = fanchor forest x) by (intros x Hx; unfold an, canchor; destruct (Nat.ltb_spec x lo); [reflexivity|lia]).
    assert (WM : wfg table cfg prems (fnode forest) home an (fun _ => True)).
    { apply (wfg_ext table cfg prems (fnode forest) (fhome forest) (fanchor forest) home an (fun _ => True) K W); auto; [intros x Hx; apply (Mr x Hx)|intros x b Hx Hb; apply (Mp x b Hx Hb)]. }
    assert (WN : wfg table cfg prems N home an R).
    { apply close_wfg with (premsS := premsS) (S := fnode sforest); auto; try lia.
      - intros x Hx. split; [apply Sr; exact Hx|]. intros b. apply Spath. exact Hx.
      - intros r _ (a1 & id1 & d1 & cl1 & ps1 & args1 & ds1 & prev1 & H1). eapply Hfree; exact H1.
      - apply Hgok. unfold cxof. rewrite rev_length, map_length. reflexivity. }
    assert (Nr : forall y, N y -> lo <= paddr y).
    { intros y [(x & Hx & ->)|Hy]; [rewrite sh_addr; apply Sr; eapply (w_all _ _ _ _ _ _ _ WS); eauto|]. pose proof (fresh_range P lo k0 ltac:(lia) prf pre F asms concl sid nid HF y Hy). lia. }
    assert (Nh : forall y, N y -> is_passume y = true -> exists q, home (paddr y) = P ++ [k0 + List.length F + 1] ++ q).
    { intros y [(x & Hx & ->)|Hy] Hi.
      - exists (fhome sforest (paddr x)). rewrite app_assoc. unfold home. eapply home_sh; try exact concl; eauto; lia.
      - exists []. destruct (fresh_cases P lo k0 ltac:(lia) prf pre F asms concl sid nid HF Hasms HFa y Hy) as [(A & B & _)|[E|[E|[(i & t & E)|[E|E]]]]]; try (rewrite E in Hi; discriminate Hi). unfold home. cbn [app]. apply home_mid; [lia|exact concl|lia]. }
    assert (Nnew : N (c_new P k0 prf pre F asms concl sid nid)) by (right; unfold c_fresh; rewrite !in_app_iff; right; right; right; right; left; reflexivity).
    assert (Mh : forall x, fnode forest x -> home (paddr x) = fhome forest (paddr x)) by (intros x Hx; apply Eh; apply (Mr x Hx)).
    assert (Dis : forall a1 l1 args1 out1 extra1 x, fnode forest (PSub a1 l1 args1 out1 extra1) -> N x -> is_passume x = true -> home (paddr x) <> home a1 ++ [a1]).
    { intros a1 l1 args1 out1 extra1 x H1 Hx Hi E. destruct (Nh x Hx Hi) as (q & Eq). pose proof (Mh _ H1) as E1. cbn [paddr] in E1. rewrite Eq, E1 in E.
      assert (Hin : In (k0 + List.length F + 1) (fhome forest a1 ++ [a1])) by (rewrite <- E; rewrite !in_app_iff; cbn; auto). apply in_app_iff in Hin.
      pose proof (Mr _ H1) as H2. cbn [paddr] in H2. destruct Hin as [Hin|[Hin|[]]]; [|lia]. pose proof (Mp _ _ H1 Hin). lia. }
    assert (WU : wfg table cfg prems (ready (fnode forest) N old) home an R).
    { unfold ready. apply wfg_union with (G := fun x => fnode forest x /\ ~ In old (allnodes x)); auto.
      + apply (wfg_sub table cfg prems home an (fnode forest) _ (fun _ => True) R WM).
        * intros x H. apply H.
        * intros x y [A B] Hy. split; [apply (w_all _ _ _ _ _ _ _ WM x); auto|]. intros H. apply B. exact (all_trans _ _ _ Hy H).
        * intros a1 id1 d1 cl1 r1 ps1 args1 ds1 prev1 [A B]. eapply HR; [exact A|]. intros ->. apply B. assert (E : PStep a id1 d1 cl1 r1 ps1 args1 ds1 prev1 = old) by (apply (w_addr _ _ _ _ _ _ _ WM); auto). rewrite E. apply all_self.
      + intros x y [Hx _] Hy E. pose proof (Mr x Hx). pose proof (Nr y Hy). lia.
      + intros a1 l1 args1 out1 extra1 x [H1 _]. eapply Dis; exact H1.
      + intros a1 l1 args1 out1 extra1 x H1 [Hx _] Hi E. rewrite Mh in E by exact Hx. pose proof (Nr _ H1) as H2. cbn [paddr] in H2. assert (Hin : In a1 (fhome forest (paddr x))) by (rewrite E, in_app_iff; cbn; auto). pose proof (Mp _ _ Hx Hin). lia. }
    assert (HT : forall n, In n forest -> fnode forest n /\ plain_node n = true /\ home (paddr n) = []).
    { intros n Hn. destruct (Mtop n Hn) as (A & B & C). split; [exact A|]. split; [exact B|]. rewrite Mh by exact A. exact C. }
    assert (Hnw : N (c_new P k0 prf pre F asms concl sid nid) /\ plain_node (c_new P k0 prf pre F asms concl sid nid) = true /\ is_passume (c_new P k0 prf pre F asms concl sid nid) = false /\
      pclause (c_new P k0 prf pre F asms concl sid nid) = pclause old /\ home (paddr (c_new P k0 prf pre F asms concl sid nid)) = home (paddr old)).
    { split; [exact Nnew|]. split; [reflexivity|]. split; [reflexivity|]. split; [reflexivity|]. cbn [paddr c_new]. rewrite (Eh a Ha). unfold home. apply home_out; [lia|exact concl|lia]. }
    assert (Hfr : forall x y, N x -> fnode forest y -> paddr x <> paddr y).
    { intros x y Hx Hy E. pose proof (Mr y Hy). pose proof (Nr x Hx). lia. }
    assert (Hbe : forall y, In y (allnodes (c_new P k0 prf pre F asms concl sid nid)) -> fnode forest y -> In y (allnodes old)).
    { intros y Hy Gy. exfalso. assert (Ny : N y) by (apply (w_all _ _ _ _ _ _ _ WN _ _ Nnew Hy)). pose proof (Mr y Gy). pose proof (Nr y Ny). lia. }
    split.
    - apply (replace_done table cfg prems home an (fnode forest) N (fun _ => True) R old (c_new P k0 prf pre F asms concl sid nid)); auto.
      + split.
        * intros a1 l1 args1 out1 extra1 y q H1 Hy Hh Hq. assert (Gq : fnode forest q) by (apply (w_all _ _ _ _ _ _ _ W y); [exact Hy|]; apply kid_all; destruct y; cbn [deps kids] in *; [auto| |]; [apply in_app_iff; auto|right; apply in_app_iff; auto]).
          pose proof (Mh _ H1) as E1. cbn [paddr] in E1. rewrite E1, Mh in * by assumption. exact (c_deps _ _ MC _ _ _ _ _ _ _ H1 Hy Hh Hq).
        * intros a1 l1 args1 out1 extra1 e H1 He. pose proof (Mh _ H1) as E1. cbn [paddr] in E1. rewrite E1, Mh; [exact (c_extra _ _ MC _ _ _ _ _ _ H1 He)|]. apply (w_all _ _ _ _ _ _ _ W _ _ H1). apply kid_all. cbn [kids]. right. apply in_app_iff. auto.
      + apply close_complete with (S := fnode sforest) (premsS := premsS) (table := table) (cfg := cfg) (R := R) (anS := fanchor sforest); auto; try lia.
        intros x Hx. split; [apply Sr; exact Hx|]. intros b. apply Spath. exact Hx.
      + intros a1 l1 args1 out1 extra1 y q H1 Hy Hh Hq. pose proof (Mh _ H1) as E1. cbn [paddr] in E1. assert (Hb : ~ In (k0 + List.length F + 1) (home (paddr y))).
        { rewrite Hh, E1. intros Hin. apply in_app_iff in Hin. pose proof (Mr _ H1) as H2. cbn [paddr] in H2. destruct Hin as [Hin|[Hin|[]]]; [|lia]. pose proof (Mp _ _ H1 Hin). lia. }
        destruct Hy as [(x & Hx & ->)|Hy].
        * exfalso. apply Hb. assert (Eq : home (paddr (shift (d + 1) pre x)) = (P ++ [k0 + List.length F + 1]) ++ fhome sforest (paddr x)) by (unfold home; eapply home_sh; try exact concl; eauto; lia). rewrite Eq, !in_app_iff. cbn. auto.
        * destruct (fresh_home (fhome forest) P lo k0 ltac:(lia) (fhome sforest) prf pre F asms concl sid nid HF Hasms HFa y Hy) as [[E _]|[E Hd]].
          -- exfalso. apply Hb. unfold home. rewrite E, in_app_iff. cbn. auto.
          -- unfold home. rewrite E. apply Hd. exact Hq.
      + intros a1 l1 args1 out1 extra1 x H1 Hx E. rewrite Mh in E by exact Hx. pose proof (Nr _ H1) as H2. cbn [paddr] in H2. assert (Hin : In a1 (fhome forest (paddr x))) by (rewrite E, in_app_iff; cbn; auto). pose proof (Mp _ _ Hx Hin). lia.
    - intros fuel out Hrun. apply (replace_check table cfg prems home an (fnode forest) N (fun _ => True) R old (c_new P k0 prf pre F asms concl sid nid)) with (forest := forest) (fuel := fuel); auto.
  Qed.
End Insert.
