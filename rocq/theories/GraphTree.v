(** The structure of the graphs that [ProofNodeForest::from_commands] (ast/node.rs) makes: where the nodes are and what they refer to. *)
From Coq Require Import List String ZArith Bool Arith Lia.
From Verif Require Import Base Term Rules Checker CheckerSound Nodes ElabIds ElabSolver ElabSound ElabSolverSound GraphAccept GraphCheck.
Import ListNotations.
Local Open Scope string_scope.
Local Open Scope nat_scope.
Local Open Scope list_scope.

(** the nodes that stand for the commands of a node's command *)
Fixpoint tree (n : pnode) : list pnode := n :: match n with PSub _ l _ _ extra => tree l ++ flat_map tree extra | _ => [] end.
(** their addresses and the subproofs around them *)
Fixpoint walk (path : list nat) (n : pnode) : list (nat * list nat) :=
  (paddr n, path) :: match n with PSub a l _ _ extra => walk (path ++ [a]) l ++ flat_map (walk (path ++ [a])) extra | _ => [] end.
Definition below (b : nat) (l : list pnode) : Prop := forall x, In x l -> paddr x < b.
(** what a node needs, node.rs:292-297 and 335-340 *)
Definition deps (n : pnode) : list pnode := match n with PAssume _ _ _ _ => [] | PStep _ _ _ _ _ ps _ _ _ => ps | PSub _ _ _ out _ => out end.
(** the last step of a subproof with the other nodes [extra]; [av]: the nodes of the enclosing subproofs *)
Definition last_ok (av : list (list pnode)) (extra : list pnode) (l : pnode) : Prop :=
  match l with
  | PStep a _ d _ _ ps _ ds (Some p) => d = List.length av /\ (exists e, extra = e ++ [p]) /\ incl (ps ++ ds) (List.concat (av ++ [extra])) /\ below a (ps ++ ds ++ extra)
  | _ => False
  end.
(** a node that refers to the nodes [av], per depth *)
Fixpoint sok (av : list (list pnode)) (n : pnode) : Prop :=
  match n with
  | PAssume _ _ d _ => S d = List.length av
  | PStep a _ d _ _ ps _ ds prev => S d = List.length av /\ prev = None /\ incl (ps ++ ds) (List.concat av) /\ below a (ps ++ ds)
  | PSub a l _ out extra => incl out (List.concat av) /\ below a (out ++ tree l ++ flat_map tree extra) /\ last_ok av extra l /\
      (forall y q, In y (extra ++ [l]) -> In q (deps y) -> pdepth q < List.length av -> In q out) /\
      (fix go (pre ex : list pnode) {struct ex} : Prop := match ex with [] => True | x :: r => sok (av ++ [pre]) x /\ below (paddr x) pre /\ go (pre ++ [x]) r end) [] extra
  end.
Fixpoint soks (av : list (list pnode)) (pre ex : list pnode) : Prop :=
  match ex with [] => True | x :: r => sok (av ++ [pre]) x /\ below (paddr x) pre /\ soks av (pre ++ [x]) r end.
Lemma sok_sub av a l args out extra : sok av (PSub a l args out extra) = (incl out (List.concat av) /\ below a (out ++ tree l ++ flat_map tree extra) /\ last_ok av extra l /\
  (forall y q, In y (extra ++ [l]) -> In q (deps y) -> pdepth q < List.length av -> In q out) /\ soks av [] extra).
Proof.
  assert (H : forall ex pre, (fix go (pre ex : list pnode) {struct ex} : Prop := match ex with [] => True | x :: r => sok (av ++ [pre]) x /\ below (paddr x) pre /\ go (pre ++ [x]) r end) pre ex = soks av pre ex).
  { induction ex as [|x r IH]; intros pre; [reflexivity|]. cbn [soks]. rewrite <- IH. reflexivity. }
  rewrite <- H. reflexivity.
Qed.
Lemma sok_plain av n : sok av n -> plain_node n = true.
Proof. destruct n as [| a id d cl r ps args ds prev |]; auto. intros (_ & -> & _). reflexivity. Qed.

(** ** The conversion makes such nodes *)
Lemma NoDup_app_intro {A} (l m : list A) : NoDup l -> NoDup m -> (forall x, In x l -> ~ In x m) -> NoDup (l ++ m).
Proof.
  induction 1 as [|x l Hx Hl IH]; intros Hm H; [exact Hm|]. cbn. constructor.
  - rewrite in_app_iff. intros [E|E]; [auto|]. exact (H x (or_introl eq_refl) E).
  - apply IH; auto. intros y Hy. apply H. right. exact Hy.
Qed.
Definition span (k k' : nat) (l : list pnode) : Prop := NoDup (map paddr (flat_map tree l)) /\ forall x, In x (flat_map tree l) -> k <= paddr x < k'.
Lemma span_app k k1 k2 a b : k <= k1 <= k2 -> span k k1 a -> span k1 k2 b -> span k k2 (a ++ b).
Proof.
  intros Hk [A1 A2] [B1 B2]. split.
  - rewrite flat_map_app, map_app. apply NoDup_app_intro; auto. intros x Hx Hy. apply in_map_iff in Hx. destruct Hx as (u & <- & Hu). apply in_map_iff in Hy. destruct Hy as (v & E & Hv). specialize (A2 _ Hu). specialize (B2 _ Hv). lia.
  - intros x Hx. rewrite flat_map_app in Hx. apply in_app_iff in Hx. destruct Hx as [Hx|Hx]; [specialize (A2 _ Hx)|specialize (B2 _ Hx)]; lia.
Qed.
Definition fout (outer : list nframe) (f : nframe) : Prop := forall y q, In y (nf_acc f) -> In q (deps y) -> pdepth q < List.length outer -> In q (nf_out f).
Lemma nset_has l p : (forall x y, In x (p :: l) -> In y (p :: l) -> paddr x = paddr y -> x = y) -> In p (nset_insert l p) /\ incl l (nset_insert l p).
Proof.
  intros H. unfold nset_insert. destruct (memb Nat.eqb (paddr p) (map paddr l)) eqn:E.
  - split; [|apply incl_refl]. apply (memb_In Nat.eqb Nat.eqb_eq) in E. apply in_map_iff in E. destruct E as (x & E & Hx). assert (x = p) by (apply H; [right; exact Hx|left; reflexivity|exact E]). subst x. exact Hx.
  - split; [apply in_app_iff; right; left; reflexivity|]. intros x Hx. apply in_app_iff. auto.
Qed.
Lemma outbound_has d ps : forall l, (forall x y, In x (ps ++ l) -> In y (ps ++ l) -> paddr x = paddr y -> x = y) -> incl l (outbound d l ps) /\ forall q, In q ps -> pdepth q < d -> In q (outbound d l ps).
Proof.
  unfold outbound. induction ps as [|p r IH]; intros l H; cbn [filter fold_left]; [split; [apply incl_refl|intros q []]|].
  destruct (Nat.ltb (pdepth p) d) eqn:E; cbn [fold_left].
  - destruct (nset_has l p) as [A B]; [intros x y Hx Hy; apply H; cbn [app]; destruct Hx as [<-|Hx], Hy as [<-|Hy]; cbn; rewrite ?in_app_iff; auto|].
    destruct (IH (nset_insert l p)) as [C D].
    { intros x y Hx Hy. assert (G : forall z, In z (r ++ nset_insert l p) -> In z ((p :: r) ++ l)). { intros z Hz. apply in_app_iff in Hz. cbn. rewrite in_app_iff. destruct Hz as [Hz|Hz]; [auto|]. apply nset_insert_In in Hz. destruct Hz as [Hz| ->]; auto. } apply H; auto. }
    split; [eapply incl_tran; eauto|]. intros q [<-|Hq] Hd; [apply C; exact A|apply D; auto].
  - destruct (IH l) as [C D]; [intros x y Hx Hy; apply H; right; assumption|]. split; [exact C|]. intros q [<-|Hq] Hd; [apply Nat.ltb_ge in E; lia|apply D; auto].
Qed.

(** the frames of the open subproofs *)
Record frames (k : nat) (outer : list nframe) (cur : nframe) : Prop := {
  f_wf : wfst (outer ++ [cur]);
  f_below : below k (List.concat (map nf_acc (outer ++ [cur])));
  f_addr : forall x y, In x (List.concat (map nf_acc (outer ++ [cur]))) -> In y (List.concat (map nf_acc (outer ++ [cur]))) -> paddr x = paddr y -> x = y;
  f_out : fout outer cur }.
Definition is_last_step (b : bool) (outer : list nframe) (c : command) : bool := Nat.ltb 0 (List.length outer) && b && match c with CStep _ => true | _ => false end.
Definition nspec (c : command) : Prop := forall b k outer cur k' cur', node_cmd c b k outer cur = ROk (k', cur') -> shape_ok c = true -> frames k outer cur ->
  exists n, nf_acc cur' = nf_acc cur ++ [n] /\ k <= k' /\ span k k' [n] /\ k <= paddr n < k' /\ frames k' outer cur' /\
    (if is_last_step b outer c then last_ok (map nf_acc outer) (nf_acc cur) n else sok (map nf_acc (outer ++ [cur])) n).

Lemma map_acc outer cur : map nf_acc (outer ++ [cur]) = map nf_acc outer ++ [nf_acc cur]. Proof. apply map_app. Qed.
Lemma concat_snoc {A} (l : list (list A)) x : List.concat (l ++ [x]) = List.concat l ++ x. Proof. rewrite concat_app. cbn. rewrite app_nil_r. reflexivity. Qed.
Lemma fetch_all fs ps l : omap (fetch fs) l = ROk ps -> incl ps (List.concat (map nf_acc fs)).
Proof. intros H n Hn. destruct (fetched _ _ _ H n Hn) as (j & f & Hj & Hf). apply in_concat. exists (nf_acc f). split; [|exact Hf]. apply in_map. eapply nth_error_In; eauto. Qed.
Lemma in_outer fs p : wfst fs -> In p (List.concat (map nf_acc fs)) -> exists f, nth_error fs (pdepth p) = Some f /\ In p (nf_acc f).
Proof.
  intros Hw H. apply in_concat in H. destruct H as (l & Hl & Hp). apply in_map_iff in Hl. destruct Hl as (f & <- & Hf). apply In_nth_error in Hf. destruct Hf as [j Hj].
  exists f. split; [|exact Hp]. rewrite (wfst_depth _ _ _ _ Hw Hj Hp). exact Hj.
Qed.
Lemma out_in k outer cur q : frames k outer cur -> In q (nf_out cur) -> In q (List.concat (map nf_acc outer)).
Proof.
  intros F Hq. destruct (f_wf _ _ _ F _ _ (nth_last outer cur)) as [_ H]. rewrite Forall_forall in H. destruct (H q Hq) as (d & f & Hd & Hf & Hin).
  rewrite nth_error_app1 in Hf by exact Hd. apply in_concat. exists (nf_acc f). split; [|exact Hin]. apply in_map. eapply nth_error_In; eauto.
Qed.
(** the frames with one more node *)
Lemma frames_add k k' outer cur n : frames k outer cur -> k <= paddr n < k' -> pdepth n = List.length outer -> incl (deps n) (List.concat (map nf_acc (outer ++ [cur]))) ->
  frames k' outer (mkNF (nf_acc cur ++ [n]) (outbound (List.length outer) (nf_out cur) (deps n))).
Proof.
  intros F Hk Hd Hi. set (cur' := mkNF _ _).
  assert (G : forall x, In x (List.concat (map nf_acc (outer ++ [cur']))) -> x = n \/ In x (List.concat (map nf_acc (outer ++ [cur])))).
  { intros x. rewrite !map_acc, !concat_snoc. unfold cur'. cbn [nf_acc]. rewrite !in_app_iff. cbn. intuition. }
  destruct (outbound_has (List.length outer) (deps n) (nf_out cur)) as [O1 O2].
  { assert (G' : forall z, In z (deps n ++ nf_out cur) -> In z (List.concat (map nf_acc (outer ++ [cur])))).
    { intros z Hz. apply in_app_iff in Hz. destruct Hz as [Hz|Hz]; [apply Hi; exact Hz|]. rewrite map_acc, concat_snoc. apply in_app_iff. left. eapply out_in; eauto. }
    intros x y Hx Hy. apply (f_addr _ _ _ F); auto. }
  split.
  - eapply wfst_cur with (cur := cur) (n := n) (ps := deps n); [apply (f_wf _ _ _ F)|reflexivity|exact Hd| |reflexivity].
    intros p Hp. destruct (in_outer _ p (f_wf _ _ _ F) (Hi p Hp)) as (f & H1 & H2). eauto.
  - intros x Hx. destruct (G x Hx) as [->|Hx']; [lia|]. pose proof (f_below _ _ _ F x Hx'). lia.
  - intros x y Hx Hy E. destruct (G x Hx) as [->|Hx'], (G y Hy) as [->|Hy']; auto.
    + pose proof (f_below _ _ _ F y Hy'). lia.
    + pose proof (f_below _ _ _ F x Hx'). lia.
    + apply (f_addr _ _ _ F); auto.
  - intros y q Hy Hq Hl. unfold cur' in *. cbn [nf_acc nf_out] in *. apply in_app_iff in Hy. destruct Hy as [Hy|[<-|[]]]; [apply O1; eapply (f_out _ _ _ F); eauto|apply O2; auto].
Qed.
Lemma span_one k n : (match n with PSub _ _ _ _ _ => False | _ => True end) -> paddr n = k -> span k (S k) [n].
Proof.
  intros H E. assert (T : flat_map tree [n] = [n]) by (destruct n; [reflexivity|reflexivity|destruct H]). split; rewrite T.
  - constructor; [intros []|constructor].
  - intros x [<-|[]]. lia.
Qed.
Lemma nspec_assume id t : nspec (CAssume id t).
Proof.
  intros b k outer cur k' cur' Hn _ F. cbn [node_cmd] in Hn. injection Hn as <- <-. set (n := PAssume k id (List.length outer) t).
  exists n. split; [reflexivity|]. split; [lia|]. split; [apply span_one; [exact Logic.I|reflexivity]|]. split; [cbn; lia|]. split.
  - apply (frames_add k (S k) outer cur n F); [cbn; lia|reflexivity|intros x []].
  - unfold is_last_step. rewrite andb_false_r. cbn [sok n]. rewrite map_length, app_length. cbn. lia.
Qed.
Lemma nspec_step s : nspec (CStep s).
Proof.
  intros b k outer cur k' cur' Hn _ F. cbn [node_cmd] in Hn. apply obind_ok in Hn. destruct Hn as (ps & Eps & Hn). apply obind_ok in Hn. destruct Hn as (ds & Eds & Hn). apply obind_ok in Hn. destruct Hn as (prev & Ep & Hn). injection Hn as <- <-.
  apply fetch_all in Eps. apply fetch_all in Eds. set (n := PStep k (s_id s) (List.length outer) (s_clause s) (s_rule s) ps (s_args s) ds prev).
  assert (Hi : incl (ps ++ ds) (List.concat (map nf_acc (outer ++ [cur])))) by (apply incl_app; assumption).
  exists n. split; [reflexivity|]. split; [lia|]. split; [apply span_one; [exact Logic.I|reflexivity]|]. split; [cbn; lia|]. split.
  - apply (frames_add k (S k) outer cur n F); [cbn; lia|reflexivity|exact Eps].
  - unfold is_last_step. rewrite andb_true_r. destruct (Nat.ltb 0 (List.length outer) && b).
    + apply obind_ok in Ep. destruct Ep as (p & Hp & Ep). injection Ep as <-. apply unwrap_ok in Hp. cbn [last_ok n]. rewrite map_length. split; [reflexivity|]. split.
      * assert (Hne : nf_acc cur <> []) by (destruct (nf_acc cur); [discriminate|discriminate]). destruct (exists_last Hne) as (e & x & E). rewrite E, app_length in Hp. cbn in Hp. rewrite nth_error_app2 in Hp by lia.
        replace (List.length e + 1 - 1 - List.length e) with 0 in Hp by lia. injection Hp as ->. eauto.
      * rewrite <- map_acc. split; [exact Hi|]. intros x Hx. rewrite app_assoc, in_app_iff in Hx. apply (f_below _ _ _ F). destruct Hx as [Hx|Hx]; [apply Hi; exact Hx|]. rewrite map_acc, concat_snoc. apply in_app_iff. auto.
    + injection Ep as <-. cbn [sok n]. rewrite map_length, app_length. cbn [List.length]. split; [lia|]. split; [reflexivity|]. split; [exact Hi|]. intros x Hx. apply (f_below _ _ _ F). apply Hi. exact Hx.
Qed.
Lemma nspec_list cs : Forall nspec cs -> forall k outer fr k' fr', node_list cs k outer fr = ROk (k', fr') -> forallb shape_ok cs = true -> frames k outer fr -> (outer = [] \/ exists a s, cs = a ++ [CStep s]) ->
  exists ns, nf_acc fr' = nf_acc fr ++ ns /\ k <= k' /\ span k k' ns /\ frames k' outer fr' /\
    (outer = [] -> soks (map nf_acc outer) (nf_acc fr) ns) /\ (outer <> [] -> exists ns0 l, ns = ns0 ++ [l] /\ soks (map nf_acc outer) (nf_acc fr) ns0 /\ last_ok (map nf_acc outer) (nf_acc fr ++ ns0) l).
Proof.
  induction 1 as [|c cs Hc _ IH]; intros k outer fr k' fr' Hn Hs F Hl; cbn [node_list] in Hn.
  - injection Hn as <- <-. exists []. rewrite app_nil_r. split; [reflexivity|]. split; [lia|]. split; [split; [constructor|intros x []]|]. split; [exact F|]. split; [intros _; exact Logic.I|]. intros Ho. destruct Hl as [Hl|(a & s & E)]; [contradiction|destruct a; discriminate].
  - cbn [forallb] in Hs. apply andb_true_iff in Hs. destruct Hs as [Hs1 Hs2]. apply obind_ok in Hn. destruct Hn as ([k1 fr1] & H1 & Hn). cbn [fst snd] in Hn.
    destruct (Hc _ _ _ _ _ _ H1 Hs1 F) as (n & A1 & A2 & A3 & A4 & A5 & A6).
    assert (Hb : below (paddr n) (nf_acc fr)) by (intros x Hx; assert (paddr x < k); [apply (f_below _ _ _ F); rewrite map_acc, concat_snoc; apply in_app_iff; auto|lia]).
    destruct cs as [|c2 cs].
    + cbn [node_list] in Hn. injection Hn as <- <-. exists [n]. split; [exact A1|]. split; [lia|]. split; [exact A3|]. split; [exact A5|]. unfold is_last_step in A6. rewrite andb_true_r in A6. rewrite map_acc in A6. split.
      * intros ->. cbn [List.length Nat.ltb Nat.leb andb] in A6. cbn [soks]. auto.
      * intros Ho. destruct Hl as [Hl|(a & s & E)]; [contradiction|]. destruct a as [|a0 a]; [|destruct a; discriminate]. injection E as ->. exists [], n. split; [reflexivity|]. split; [exact Logic.I|]. rewrite app_nil_r.
        destruct outer; [contradiction|]. exact A6.
    + unfold is_last_step in A6. rewrite andb_false_r in A6. cbn [andb] in A6. rewrite map_acc in A6.
      destruct (IH _ _ _ _ _ Hn Hs2 A5) as (ns & B1 & B2 & B3 & B4 & B5 & B6).
      { destruct Hl as [Hl|(a & s & E)]; [auto|]. right. destruct a as [|a0 a]; [discriminate|]. injection E as _ E. eauto. }
      exists (n :: ns). split; [rewrite B1, A1, <- app_assoc; reflexivity|]. split; [lia|]. split; [apply (span_app k k1 k' [n] ns); auto; lia|]. split; [exact B4|]. split.
      * intros Ho. cbn [soks]. split; [exact A6|]. split; [exact Hb|]. rewrite <- A1. apply B5. exact Ho.
      * intros Ho. destruct (B6 Ho) as (ns0 & l & -> & C1 & C2). exists (n :: ns0), l. split; [reflexivity|]. split; [cbn [soks]; rewrite <- A1; auto|]. rewrite A1, <- app_assoc in C2. exact C2.
Qed.
Lemma frames_push k outer cur : frames k outer cur -> frames k (outer ++ [cur]) (mkNF [] []).
Proof.
  intros F. assert (E : List.concat (map nf_acc ((outer ++ [cur]) ++ [mkNF [] []])) = List.concat (map nf_acc (outer ++ [cur]))) by (rewrite map_acc, concat_snoc; cbn [nf_acc]; apply app_nil_r).
  split; rewrite ?E; try apply F.
  - intros d f Hf. apply nth_snoc in Hf. destruct Hf as [Hf|[_ ->]]; [|split; constructor]. destruct (f_wf _ _ _ F _ _ Hf) as [H1 H2]. split; auto.
    eapply Forall_impl; [|exact H2]. intros p (d' & f' & Hd & Hf' & Hp). exists d', f'. auto using nth_app_l.
  - intros y q [].
Qed.
Lemma nspec_sub cs args z : Forall nspec cs -> nspec (CSub cs args z).
Proof.
  intros HF b k outer cur k' cur' Hn Hsh F. rewrite node_sub in Hn. apply obind_ok in Hn. destruct Hn as ([k2 fr] & En & Hn). cbn [fst snd] in Hn. apply obind_ok in Hn. destruct Hn as (l & El & Hn). injection Hn as <- <-. apply unwrap_ok in El.
  cbn [shape_ok] in Hsh. rewrite !andb_true_iff in Hsh. destruct Hsh as [[Hl2 Hls] Hsh]. apply Nat.leb_le in Hl2.
  assert (Hne : cs <> []) by (destruct cs; [cbn in Hl2; lia|discriminate]).
  destruct (last cs (CAssume "" tTrue)) as [|s|] eqn:Elast; try discriminate.
  assert (Ecs : cs = removelast cs ++ [CStep s]) by (rewrite <- Elast; apply app_removelast_last; exact Hne).
  destruct (nspec_list cs HF _ _ _ _ _ En Hsh (frames_push _ _ _ F) ltac:(right; eauto)) as (ns & A1 & A2 & A3 & A4 & _ & A6).
  destruct A6 as (ns0 & l' & -> & B1 & B2); [intros E; apply (f_equal (@List.length _)) in E; rewrite app_length in E; cbn in E; lia|].
  cbn [nf_acc Datatypes.app] in *. rewrite A1 in El |- *. rewrite app_length in El. cbn in El. replace (List.length ns0 + 1 - 1) with (List.length ns0) in El by lia. rewrite nth_last in El. injection El as <-. rewrite removelast_last.
  set (n := PSub k2 l' args (nf_out fr) ns0).
  assert (Hout : incl (nf_out fr) (List.concat (map nf_acc (outer ++ [cur])))) by (intros q Hq; eapply out_in; [exact A4|exact Hq]).
  assert (Hd : pdepth n = List.length outer).
  { cbn [pdepth n]. destruct l' as [|la lid ld lcl lr lps largs lds [lp|]|]; try contradiction. cbn [pdepth]. destruct B2 as [-> _]. rewrite map_length, app_length. cbn. lia. }
  destruct A3 as [S1 S2].
  assert (Htree : tree n = n :: tree l' ++ flat_map tree ns0) by reflexivity.
  assert (Hperm : forall x, In x (tree l' ++ flat_map tree ns0) -> In x (flat_map tree (ns0 ++ [l']))) by (intros x; rewrite flat_map_app, !in_app_iff; cbn; rewrite app_nil_r; tauto).
  exists n. split; [reflexivity|]. split; [lia|]. split; [|split; [cbn; lia|split]].
  - split; cbn [flat_map]; rewrite app_nil_r, Htree.
    + cbn [map]. constructor.
      * intros H. apply in_map_iff in H. destruct H as (x & E & Hx). specialize (S2 x (Hperm x Hx)). cbn in E. lia.
      * rewrite flat_map_app, map_app in S1. cbn [flat_map] in S1. rewrite app_nil_r in S1. rewrite map_app. eapply Permutation.Permutation_NoDup; [apply Permutation.Permutation_app_comm|exact S1].
    + intros x [<-|Hx]; [cbn; lia|]. specialize (S2 x (Hperm x Hx)). lia.
  - apply (frames_add k (S k2) outer cur n F); [cbn; lia|exact Hd|exact Hout].
  - unfold is_last_step. rewrite andb_false_r. unfold n. rewrite sok_sub. split; [exact Hout|]. split; [|split; [exact B2|split; [|exact B1]]].
    + intros x Hx. apply in_app_iff in Hx. destruct Hx as [Hx|Hx]; [|specialize (S2 x (Hperm x Hx)); lia]. pose proof (f_below _ _ _ F x (Hout x Hx)). lia.
    + intros y q Hy Hq Hlt. rewrite map_length in Hlt. eapply (f_out _ _ _ A4); [rewrite A1; exact Hy|exact Hq|exact Hlt].
Qed.
Lemma nspec_all c : nspec c.
Proof. induction c as [id t|s|cs args z IH] using command_ind'; [apply nspec_assume|apply nspec_step|apply nspec_sub; exact IH]. Qed.
Theorem nodes_sok off proof forest : nodes_from off proof = ROk forest -> forallb shape_ok proof = true ->
  soks [] [] forest /\ exists k, off <= k /\ span off k forest.
Proof.
  intros Hn Hs. unfold nodes_from in Hn. apply obind_ok in Hn. destruct Hn as ([k fr] & Hn & E). injection E as <-. cbn [snd].
  destruct (nspec_list proof ltac:(apply Forall_forall; intros c _; apply nspec_all) _ _ _ _ _ Hn Hs) as (ns & A1 & A2 & A3 & _ & A5 & _); [|auto|].
  - split; [intros d f Hd; destruct d as [|d]; [injection Hd as <-; split; constructor|destruct d; discriminate]|intros x []|intros x y []|intros y q []].
  - cbn in A1. rewrite A1. split; [apply A5; reflexivity|]. exists k. auto.
Qed.
