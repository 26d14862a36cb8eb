(** The converse of GraphAccept.v: if the nodes of a graph are accepted where they stand, the list of commands that
    [ProofNodeForest::into_commands] (ast/node.rs) makes of the graph is accepted by the checker. *)
From Coq Require Import List String ZArith Bool Arith Lia.
From Verif Require Import Base Term Rules Checker CheckerSound Nodes ElabIds ElabSolver ElabSound ElabSolverSound GraphAccept.
Import ListNotations.
Local Open Scope string_scope.
Local Open Scope nat_scope.
Local Open Scope list_scope.

Definition prefix {A} (a b : list A) : Prop := exists c, b = a ++ c.
Definition optl {A} (o : option A) : list A := match o with Some x => [x] | None => [] end.
(** all nodes of a graph, including those of its subproofs that nothing depends on *)
Fixpoint allnodes (n : pnode) : list pnode :=
  n :: match n with
       | PAssume _ _ _ _ => []
       | PStep _ _ _ _ _ ps _ ds prev => flat_map allnodes ps ++ flat_map allnodes ds ++ match prev with Some p => allnodes p | None => [] end
       | PSub _ l _ out extra => allnodes l ++ flat_map allnodes out ++ flat_map allnodes extra
       end.
(** all nodes but the last steps of subproofs *)
Definition plain_node (n : pnode) : bool := match n with PStep _ _ _ _ _ _ _ _ (Some _) => false | _ => true end.
(** the command stands for the node *)
Definition corr (c : command) (n : pnode) : Prop :=
  cmd_clause c = Some (pclause n) /\ match n with PAssume _ id _ t => c = CAssume id t | _ => is_assume c = false end.

Section Graph.
  Variables (table : bool -> string -> option crule) (cfg : config) (prems : list term).
  (** the nodes; the subproofs around a node, outermost first; the anchor of a subproof *)
  Variables (G : pnode -> Prop) (home : nat -> list nat) (an : nat -> list anchor).
  (** the rules of the steps *)
  Variable R : string -> Prop.
  Notation hm n := (home (paddr n)).
  Definition cxof (path : list nat) : list (list anchor) := rev (map an path).
  Definition rule_ok (cx : list (list anchor)) (cl : clause) (r : string) (ps : list pnode) (args : list term) (ds : list pnode) (prev : option pnode) : Prop :=
    R r /\ exists f, table (elaborated cfg) r = Some f /\
      f (mkRA cl (map pclause ps) args cx (match prev with Some p => Some (pclause p) | None => None end) (map as_command ds)) = ROk tt.
  (** the last step of a subproof is preceded by the node it refers to *)
  Definition prev_last (extra ps ds : list pnode) (p : pnode) (k : nat) : Prop :=
    (exists e, extra = e ++ [p] /\ ~ In (paddr p) (map paddr (flat_map allnodes e)) /\ forall q, In q (ps ++ ds) -> List.length (hm q) < k \/ In q extra) \/
    ~ In (paddr p) (map paddr (flat_map allnodes (extra ++ ps ++ ds))).
  Record wfg : Prop := mkWfg {
    w_all : forall n x, G n -> In x (allnodes n) -> G x;
    w_addr : forall x y, G x -> G y -> paddr x = paddr y -> x = y;
    w_depth : forall n, G n -> pdepth n = List.length (hm n);
    w_fresh : forall n, G n -> ~ In (paddr n) (hm n);
    w_assume : forall a id d t, G (PAssume a id d t) -> home a = [] -> check_assume cfg prems t false = ROk true;
    w_step : forall a id d cl r ps args ds, G (PStep a id d cl r ps args ds None) -> ds = [] /\ (forall p, In p ps -> plain_node p = true /\ prefix (hm p) (home a)) /\
      rule_ok (cxof (home a)) cl r ps args ds None;
    w_sub : forall a l args out extra, G (PSub a l args out extra) -> an a = args /\
      (forall o, In o out -> plain_node o = true /\ prefix (hm o) (home a)) /\ (forall e, In e extra -> plain_node e = true /\ prefix (hm e) (home a ++ [a])) /\
      exists al id d cl r ps sargs ds p, l = PStep al id d cl r ps sargs ds (Some p) /\ home al = home a ++ [a] /\
        plain_node p = true /\ hm p = home a ++ [a] /\ (forall q, In q ps -> plain_node q = true /\ prefix (hm q) (home a ++ [a])) /\
        (forall x, In x ds -> is_passume x = true /\ prefix (hm x) (home a ++ [a])) /\ (ds = [] \/ r = "subproof") /\
        rule_ok (cxof (home a ++ [a])) cl r ps sargs ds (Some p) /\
        (forall x, G x -> is_passume x = true -> hm x = home a ++ [a] -> In x ds) /\
        prev_last extra ps ds p (S (List.length (home a))) }.
  Hypothesis W : wfg.
  Hypothesis Hal : allowed cfg = [].

  (** ** Lists *)
  Lemma pre_refl {A} (a : list A) : prefix a a. Proof. exists []. rewrite app_nil_r. reflexivity. Qed.
  Lemma pre_trans {A} (a b c : list A) : prefix a b -> prefix b c -> prefix a c.
  Proof. intros [x ->] [y ->]. exists (x ++ y). rewrite app_assoc. reflexivity. Qed.
  Lemma pre_app {A} (a b : list A) : prefix a (a ++ b). Proof. exists b. reflexivity. Qed.
  Lemma pre_len {A} (a b : list A) : prefix a b -> List.length a <= List.length b. Proof. intros [x ->]. rewrite app_length. lia. Qed.
  Lemma pre_eq {A} (a b : list A) : prefix a b -> List.length a = List.length b -> a = b.
  Proof. intros [x ->] H. rewrite app_length in H. destruct x; [rewrite app_nil_r; reflexivity|cbn in H; lia]. Qed.
  Lemma pre_firstn {A} (a b : list A) : prefix a b -> firstn (List.length a) b = a.
  Proof. intros [x ->]. rewrite firstn_app, Nat.sub_diag, firstn_all. cbn. apply app_nil_r. Qed.
  Lemma pre_snoc {A} (a b : list A) x : prefix a (b ++ [x]) -> prefix a b \/ a = b ++ [x].
  Proof.
    intros [c H]. destruct c as [|z c]; [right; rewrite app_nil_r in H; auto|]. left. destruct (@exists_last _ (z :: c) ltac:(discriminate)) as (c' & y & E). rewrite E in H. rewrite app_assoc in H.
    apply app_inj_tail in H. destruct H as [H _]. exists c'. exact H.
  Qed.
  Definition grows (a b : list (list command)) : Prop := Forall2 prefix a b.
  Lemma grows_refl a : grows a a. Proof. induction a; constructor; auto. apply pre_refl. Qed.
  Lemma grows_trans a b c : grows a b -> grows b c -> grows a c.
  Proof. intros H. revert c. induction H as [|x y a b Hx _ IH]; intros c Hc; inversion Hc; subst; constructor; [eapply pre_trans; eauto|apply IH; assumption]. Qed.
  Lemma grows_firstn k a b : grows a b -> grows (firstn k a) (firstn k b).
  Proof. intros H. revert k. induction H as [|x y a b Hx _ IH]; intros [|k]; cbn; constructor; auto. apply IH. Qed.
  Lemma grows_nth a b j fr : grows a b -> nth_error a j = Some fr -> exists fr', nth_error b j = Some fr' /\ prefix fr fr'.
  Proof. intros H. revert j. induction H as [|x y a b Hx _ IH]; intros [|j] Hj; cbn in *; try discriminate; [injection Hj as <-; eauto|eauto]. Qed.
  Lemma grows_len a b : grows a b -> List.length a = List.length b. Proof. apply f2_length. Qed.
  Lemma push_at_spec (c : command) : forall d S S', push_at d c S = ROk S' -> exists y, nth_error S d = Some y /\ nth_error S' d = Some (y ++ [c]) /\ grows S S' /\
    (forall j, j <> d -> nth_error S' j = nth_error S j).
  Proof.
    induction d as [|d IH]; intros [|y r] S' H; cbn [push_at] in H; try discriminate.
    - injection H as <-. exists y. split; [reflexivity|]. split; [reflexivity|]. split; [constructor; [apply pre_app|apply grows_refl]|]. intros [|j] Hj; [lia|reflexivity].
    - apply obind_ok in H. destruct H as (r' & Hr & H). injection H as <-. destruct (IH _ _ Hr) as (z & H1 & H2 & H3 & H4). exists z. split; [exact H1|]. split; [exact H2|].
      split; [constructor; [apply pre_refl|exact H3]|]. intros [|j] Hj; [reflexivity|]. cbn. apply H4. lia.
  Qed.
  Lemma pre_nth {A} (a b : list A) i x : prefix a b -> nth_error a i = Some x -> nth_error b i = Some x.
  Proof. intros [c ->] H. rewrite nth_error_app1; [exact H|]. apply nth_error_Some. congruence. Qed.
  Lemma pre_nth_firstn {A} (a b : list A) : prefix a b -> firstn (List.length a) b = a. Proof. apply pre_firstn. Qed.

  (** ** Nodes *)
  Fixpoint nsize (n : pnode) : nat :=
    match n with
    | PAssume _ _ _ _ => 1
    | PStep _ _ _ _ _ ps _ ds prev => S (list_sum (map nsize ps) + list_sum (map nsize ds) + match prev with Some p => nsize p | None => 0 end)
    | PSub _ l _ out extra => S (nsize l + list_sum (map nsize out) + list_sum (map nsize extra))
    end.
  Lemma sum_in l n : In n l -> nsize n <= list_sum (map nsize l).
  Proof. induction l as [|x r IH]; [intros []|]. cbn. intros [->|H]; [lia|]. specialize (IH H). unfold list_sum in IH. lia. Qed.
  Lemma all_le n : forall x, In x (allnodes n) -> nsize x <= nsize n.
  Proof.
    induction n as [a id d t|a id d cl r ps args ds prev Hp Hd Hv|a l args out extra Hl Ho He] using pnode_ind'; intros x [<-|H]; auto.
    - destruct H.
    - cbn [nsize]. rewrite !in_app_iff in H. destruct H as [H|[H|H]].
      + apply in_flat_map in H. destruct H as (y & Hy & H). rewrite Forall_forall in Hp. specialize (Hp y Hy x H). pose proof (sum_in ps y Hy). lia.
      + apply in_flat_map in H. destruct H as (y & Hy & H). rewrite Forall_forall in Hd. specialize (Hd y Hy x H). pose proof (sum_in ds y Hy). lia.
      + destruct prev as [p|]; [|destruct H]. specialize (Hv x H). lia.
    - cbn [nsize]. rewrite !in_app_iff in H. destruct H as [H|[H|H]].
      + specialize (Hl x H). lia.
      + apply in_flat_map in H. destruct H as (y & Hy & H). rewrite Forall_forall in Ho. specialize (Ho y Hy x H). pose proof (sum_in out y Hy). lia.
      + apply in_flat_map in H. destruct H as (y & Hy & H). rewrite Forall_forall in He. specialize (He y Hy x H). pose proof (sum_in extra y Hy). lia.
  Qed.
  Lemma all_self n : In n (allnodes n). Proof. destruct n; left; reflexivity. Qed.
  Lemma all_trans n : forall y x, In y (allnodes n) -> In x (allnodes y) -> In x (allnodes n).
  Proof.
    induction n as [a id d t|a id d cl r ps args ds prev Hp Hd Hv|a l args out extra Hl Ho He] using pnode_ind'; intros y x [<-|H] Hx; auto.
    - destruct H.
    - cbn [allnodes]. right. rewrite !in_app_iff in *. destruct H as [H|[H|H]].
      + left. apply in_flat_map in H. destruct H as (z & Hz & H). apply in_flat_map. exists z. split; [exact Hz|]. rewrite Forall_forall in Hp. eapply Hp; eauto.
      + right. left. apply in_flat_map in H. destruct H as (z & Hz & H). apply in_flat_map. exists z. split; [exact Hz|]. rewrite Forall_forall in Hd. eapply Hd; eauto.
      + right. right. destruct prev as [p|]; [|destruct H]. eapply Hv; eauto.
    - cbn [allnodes]. right. rewrite !in_app_iff in *. destruct H as [H|[H|H]].
      + left. eapply Hl; eauto.
      + right. left. apply in_flat_map in H. destruct H as (z & Hz & H). apply in_flat_map. exists z. split; [exact Hz|]. rewrite Forall_forall in Ho. eapply Ho; eauto.
      + right. right. apply in_flat_map in H. destruct H as (z & Hz & H). apply in_flat_map. exists z. split; [exact Hz|]. rewrite Forall_forall in He. eapply He; eauto.
  Qed.
  (** a node does not occur below its children *)
  Lemma acyclic n kids : G n -> (forall k, In k kids -> In k (allnodes n) /\ nsize k < nsize n) -> ~ In (paddr n) (map paddr (flat_map allnodes kids)).
  Proof.
    intros Hn Hk H. apply in_map_iff in H. destruct H as (x & Hx & H). apply in_flat_map in H. destruct H as (k & Hin & H). destruct (Hk k Hin) as [H1 H2].
    assert (G x) by (eapply (w_all W); [eapply (w_all W); eauto|exact H]). assert (x = n) by (apply (w_addr W); auto). subst x. apply all_le in H. lia.
  Qed.

  (** ** The state *)
  Definition keys (seen : list (nat * (nat * nat))) : list nat := map fst seen.
  Lemma seen_some seen n : In (paddr n) (keys seen) <-> exists p, seen_get seen n = Some p.
  Proof.
    unfold seen_get, keys. induction seen as [|[a p] r IH]; cbn [map fst find In].
    - split; [intros []|intros [p H]; discriminate].
    - destruct (Nat.eqb a (paddr n)) eqn:E; [split; [eauto|intros _; left; apply Nat.eqb_eq; exact E]|]. apply Nat.eqb_neq in E. rewrite <- IH. split; [intros [H|H]; [congruence|exact H]|auto].
  Qed.
  Lemma seen_none seen n : ~ In (paddr n) (keys seen) -> seen_get seen n = None.
  Proof. intros H. destruct (seen_get seen n) eqn:E; [|reflexivity]. exfalso. apply H. apply seen_some. eauto. Qed.
  Lemma seen_cons a p seen n : seen_get ((a, p) :: seen) n = if Nat.eqb a (paddr n) then Some p else seen_get seen n.
  Proof. unfold seen_get. cbn [find fst]. destruct (Nat.eqb a (paddr n)); reflexivity. Qed.
  Lemma seen_addr seen n m : paddr n = paddr m -> seen_get seen n = seen_get seen m.
  Proof. unfold seen_get. intros ->. reflexivity. Qed.

  (** a command that is accepted in every proof whose frames start with [fs], unless it is the last of a subproof *)
  Definition good (c : command) (fs : list (list command)) (cx : list (list anchor)) : Prop :=
    forall stk st, grows fs (rev (map snd stk)) -> is_end_step stk = false -> st_ctx st = cx ->
    exists st', run table cfg prems c stk st = ROk st' /\ st_ctx st' = cx /\ (st_reached st = true \/ (cmd_clause c = Some [] /\ cx = []) -> st_reached st' = true).
  Lemma good_grows c fs fs' cx : grows fs fs' -> good c fs cx -> good c fs' cx.
  Proof. intros Hg H stk st Hs. apply H. eapply grows_trans; eauto. Qed.

  Record inv (path : list nat) (S : list (list command)) (seen : list (nat * (nat * nat))) : Prop := mkInv {
    i_len : List.length S = Datatypes.S (List.length path);
    i_good : forall j fr c, nth_error S j = Some fr -> In c fr -> good c (firstn (Datatypes.S j) S) (cxof (firstn j path)) /\ (forall s, In s (cmd_steps c) -> R (s_rule s));
    i_seen : forall n p, G n -> prefix (hm n) path -> seen_get seen n = Some p ->
      plain_node n = true /\ fst p = List.length (hm n) /\ exists fr c, nth_error S (fst p) = Some fr /\ nth_error fr (snd p) = Some c /\ corr c n;
    i_from : forall j fr i c, nth_error S j = Some fr -> nth_error fr i = Some c -> exists n, G n /\ hm n = firstn j path /\ corr c n /\ seen_get seen n = Some (j, i) }.
  Definition homes (path : list nat) (seen : list (nat * (nat * nat))) : Prop :=
    forall n a, G n -> In (paddr n) (keys seen) -> In a (hm n) -> In a path \/ In a (keys seen).

  (** adding a command *)
  Lemma inv_emit path S seen n c S' fr : inv path S seen -> G n -> plain_node n = true -> prefix (hm n) path -> ~ In (paddr n) (keys seen) ->
    nth_error S (pdepth n) = Some fr -> push_at (pdepth n) c S = ROk S' -> corr c n -> (forall s, In s (cmd_steps c) -> R (s_rule s)) ->
    good c (firstn (Datatypes.S (pdepth n)) S) (cxof (hm n)) -> inv path S' ((paddr n, (pdepth n, List.length fr)) :: seen).
  Proof.
    intros [I1 I2 I3 I4] Hn Hp Hpre Hnew Hfr Hpush Hc HR Hg. rewrite (w_depth W n Hn) in *. destruct (push_at_spec _ _ _ _ Hpush) as (y & Y1 & Y2 & Y3 & Y4). rewrite Hfr in Y1. injection Y1 as <-.
    split.
    - rewrite <- (grows_len _ _ Y3). exact I1.
    - intros j f c' Hj Hin. assert (Gr : grows (firstn (Datatypes.S j) S) (firstn (Datatypes.S j) S')) by (apply grows_firstn; exact Y3). destruct (Nat.eq_dec j (List.length (hm n))) as [->|Hne].
      + rewrite Y2 in Hj. injection Hj as <-. apply in_app_iff in Hin. destruct Hin as [Hin|[<-|[]]].
        * destruct (I2 _ _ _ Hfr Hin) as [A B]. split; [eapply good_grows; eauto|exact B].
        * split; [|exact HR]. rewrite pre_firstn by exact Hpre. eapply good_grows; eauto.
      + rewrite (Y4 j Hne) in Hj. destruct (I2 _ _ _ Hj Hin) as [A B]. split; [eapply good_grows; eauto|exact B].
    - intros m p Hm Hpm Hs. rewrite seen_cons in Hs. destruct (Nat.eqb (paddr n) (paddr m)) eqn:E.
      + apply Nat.eqb_eq in E. apply (w_addr W) in E; auto. subst m. injection Hs as <-. cbn [fst snd]. split; [exact Hp|]. split; [reflexivity|]. exists (fr ++ [c]), c. split; [exact Y2|]. split; [|exact Hc].
        rewrite nth_error_app2, Nat.sub_diag by lia. reflexivity.
      + destruct (I3 m p Hm Hpm Hs) as (A & B & f & c' & C & D & F). split; [exact A|]. split; [exact B|]. destruct (grows_nth _ _ _ _ Y3 C) as (f' & C' & D'). exists f', c'. split; [exact C'|]. split; [eapply pre_nth; eauto|exact F].
    - intros j f i c' Hj Hi. destruct (Nat.eq_dec j (List.length (hm n))) as [->|Hne].
      + rewrite Y2 in Hj. injection Hj as <-. destruct (Nat.lt_ge_cases i (List.length fr)) as [Hlt|Hge].
        * rewrite nth_error_app1 in Hi by exact Hlt. destruct (I4 _ _ _ _ Hfr Hi) as (m & A & B & C & D). exists m. split; [exact A|]. split; [exact B|]. split; [exact C|]. rewrite seen_cons.
          destruct (Nat.eqb (paddr n) (paddr m)) eqn:E; [|exact D]. exfalso. apply Hnew. apply Nat.eqb_eq in E. rewrite E. apply seen_some. eauto.
        * rewrite nth_error_app2 in Hi by exact Hge. destruct (i - List.length fr) as [|k] eqn:Ek; [|destruct k; discriminate]. injection Hi as <-. exists n. split; [exact Hn|]. split; [symmetry; apply pre_firstn; exact Hpre|]. split; [exact Hc|].
          rewrite seen_cons, Nat.eqb_refl. do 2 f_equal. lia.
      + rewrite (Y4 j Hne) in Hj. destruct (I4 _ _ _ _ Hj Hi) as (m & A & B & C & D). exists m. split; [exact A|]. split; [exact B|]. split; [exact C|]. rewrite seen_cons.
        destruct (Nat.eqb (paddr n) (paddr m)) eqn:E; [|exact D]. exfalso. apply Hnew. apply Nat.eqb_eq in E. rewrite E. apply seen_some. eauto.
  Qed.

  (** ** Commands that are accepted *)
  Lemma look path S seen n pos k stk : inv path S seen -> G n -> prefix (hm n) path -> List.length (hm n) <= k -> seen_get seen n = Some pos ->
    grows (firstn (Datatypes.S k) S) (rev (map snd stk)) -> exists c, get_command stk pos = ROk c /\ corr c n.
  Proof.
    intros I Hn Hp Hk Hs Hg. destruct (i_seen _ _ _ I n pos Hn Hp Hs) as (_ & Hd & fr & c & Hf & Hc & Hcorr). exists c. split; [|exact Hcorr].
    assert (Hf' : nth_error (firstn (Datatypes.S k) S) (fst pos) = Some fr).
    { rewrite <- (firstn_skipn (Datatypes.S k) S) in Hf. rewrite nth_error_app1 in Hf; [exact Hf|]. rewrite firstn_length. assert (fst pos < List.length S) by (rewrite <- (firstn_skipn (Datatypes.S k) S); apply nth_error_Some; congruence). lia. }
    destruct (grows_nth _ _ _ _ Hg Hf') as (fr' & H1 & H2). unfold get_command. rewrite <- map_rev, nth_error_map in H1. destruct (nth_error (rev stk) (fst pos)) as [e|]; [|discriminate]. cbn in H1. injection H1 as H1.
    cbn [unwrap obind]. rewrite H1, (pre_nth _ _ _ _ H2 Hc). reflexivity.
  Qed.
  Lemma look_prems path S seen k stk : inv path S seen -> grows (firstn (Datatypes.S k) S) (rev (map snd stk)) -> forall ps ps', (forall q, In q ps -> G q /\ prefix (hm q) path /\ List.length (hm q) <= k) ->
    omap (fun q => unwrap (seen_get seen q)) ps = ROk ps' -> omap (get_premise stk) ps' = ROk (map pclause ps).
  Proof.
    intros I Hg. induction ps as [|q ps IH]; intros ps' Hq H; cbn [omap map] in H.
    - injection H as <-. reflexivity.
    - apply obind_ok in H. destruct H as (x & Hx & H). apply obind_ok in H. destruct H as (r & Hr & H). injection H as <-. cbn [omap map]. destruct (Hq q (or_introl eq_refl)) as (H1 & H2 & H3). apply unwrap_ok in Hx.
      destruct (look path S seen q x k stk I H1 H2 H3 Hx Hg) as (c & Hc & Hcorr & _). unfold get_premise at 1. rewrite Hc. cbn [obind]. rewrite Hcorr. cbn [unwrap obind]. rewrite (IH r); [reflexivity|intros; apply Hq; right; assumption|exact Hr].
  Qed.
  Lemma look_disch path S seen k stk : inv path S seen -> grows (firstn (Datatypes.S k) S) (rev (map snd stk)) -> forall ps ps', (forall q, In q ps -> G q /\ is_passume q = true /\ prefix (hm q) path /\ List.length (hm q) <= k) ->
    omap (fun q => unwrap (seen_get seen q)) ps = ROk ps' -> omap (get_command stk) ps' = ROk (map as_command ps).
  Proof.
    intros I Hg. induction ps as [|q ps IH]; intros ps' Hq H; cbn [omap map] in H.
    - injection H as <-. reflexivity.
    - apply obind_ok in H. destruct H as (x & Hx & H). apply obind_ok in H. destruct H as (r & Hr & H). injection H as <-. cbn [omap map]. destruct (Hq q (or_introl eq_refl)) as (H1 & H2 & H3 & H4). apply unwrap_ok in Hx.
      destruct (look path S seen q x k stk I H1 H3 H4 Hx Hg) as (c & Hc & _ & Hcorr). rewrite Hc. cbn [obind]. rewrite (IH r); [|intros; apply Hq; right; assumption|exact Hr]. cbn [obind]. destruct q; try discriminate. rewrite Hcorr. reflexivity.
  Qed.
  Lemma good_assume a id d t fs cx : G (PAssume a id d t) -> List.length fs = Datatypes.S (List.length (home a)) -> good (CAssume id t) fs cx.
  Proof.
    intros Hn Hlen stk st Hg He Hc. cbn [run do_command]. exists st. pose proof (grows_len _ _ Hg) as HL. rewrite rev_length, map_length, Hlen in HL.
    assert (E : check_assume cfg prems t (in_subproof stk) = ROk true).
    { unfold in_subproof, depth. rewrite <- HL. cbn [Nat.sub]. rewrite Nat.sub_0_r. destruct (home a) eqn:Eh; [apply (w_assume W _ _ _ _ Hn Eh)|reflexivity]. }
    rewrite E. cbn [obind]. split; [reflexivity|]. split; [exact Hc|]. intros [H|[H _]]; [exact H|discriminate].
  Qed.
  Lemma not_allowed r : memb String.eqb r (allowed cfg) = false. Proof. rewrite Hal. reflexivity. Qed.
  Lemma good_step path S seen a id d cl r ps args ps' : inv path S seen -> G (PStep a id d cl r ps args [] None) -> prefix (home a) path ->
    omap (fun q => unwrap (seen_get seen q)) ps = ROk ps' -> good (CStep (mkStep id cl r ps' args [])) (firstn (Datatypes.S (List.length (home a))) S) (cxof (home a)).
  Proof.
    intros I Hn Hp Hps stk st Hg He Hc. destruct (w_step W _ _ _ _ _ _ _ _ Hn) as (_ & Hk & _ & f & Hf & Hok). cbn [run do_command]. unfold do_step, mk_rargs, previous_command. rewrite He. cbn [obind s_prems s_disch s_clause s_args].
    rewrite (look_prems path S seen _ stk I Hg ps ps'); [|intros q Hq; split; [|split]|exact Hps].
    - cbn [obind omap]. unfold step_core. cbn [s_rule s_disch List.length Nat.eqb negb andb]. rewrite not_allowed, Hf. rewrite Hc. cbn [map] in Hok. rewrite Hok. cbn [obind]. eexists. split; [reflexivity|]. cbn [st_ctx st_reached].
      split; [reflexivity|]. intros [H|[H1 H2]]; [rewrite H; reflexivity|]. cbn in H1. injection H1 as ->. rewrite H2. cbn. apply orb_true_r.
    - eapply (w_all W); [exact Hn|]. cbn [allnodes]. right. rewrite in_app_iff. left. apply in_flat_map. exists q. split; [exact Hq|apply all_self].
    - eapply pre_trans; [apply Hk; exact Hq|exact Hp].
    - apply pre_len. apply Hk. exact Hq.
  Qed.
  Lemma discharge_ok d ds : forall cs i, (forall j c, nth_error cs j = Some c -> is_assume c = true -> In (d, i + j) ds) -> check_discharge i cs d ds = ROk tt.
  Proof.
    induction cs as [|c cs IH]; intros i H; [reflexivity|]. cbn [check_discharge]. destruct (is_assume c && negb (memb pair_eqb (d, i) ds)) eqn:E.
    - exfalso. apply andb_true_iff in E. destruct E as [E1 E2]. apply negb_true_iff in E2. assert (Hin : In (d, i) ds) by (rewrite <- (Nat.add_0_r i); apply (H 0 c); [reflexivity|exact E1]).
      assert (memb pair_eqb (d, i) ds = true) by (apply (memb_In pair_eqb); [|exact Hin]; intros [x y] [u v]; unfold pair_eqb; cbn; rewrite andb_true_iff, !Nat.eqb_eq; split; [intros [-> ->]; reflexivity|intros [= -> ->]; auto]). congruence.
    - apply IH. intros j c' Hj Ha. replace (Datatypes.S i + j) with (i + Datatypes.S j) by lia. apply (H (Datatypes.S j) c'); auto.
  Qed.
  Lemma run_goods sub stk fs cx : grows fs (rev (map snd stk) ++ [sub]) -> 0 < List.length stk -> forall l i st, (forall x, In x l -> good x fs cx) -> i + List.length l < List.length sub -> st_ctx st = cx ->
    exists st', run_list table cfg prems sub stk l i st = ROk st' /\ st_ctx st' = cx /\ (st_reached st = true -> st_reached st' = true).
  Proof.
    intros Hg Hs. induction l as [|x l IH]; intros i st Hx Hlen Hc; cbn [run_list].
    - exists st. auto.
    - cbn [List.length] in Hlen. destruct (Hx x (or_introl eq_refl) ((Datatypes.S i, sub) :: stk) st) as (st1 & E1 & C1 & R1); [cbn [map snd rev]; exact Hg| |exact Hc|].
      { unfold is_end_step. replace (Nat.eqb (Datatypes.S i) (List.length sub)) with false by (symmetry; apply Nat.eqb_neq; lia). apply andb_false_r. }
      rewrite E1. cbn [obind]. destruct (IH (Datatypes.S i) st1) as (st2 & E2 & C2 & R2); [intros; apply Hx; right; assumption|lia|exact C1|]. exists st2. split; [exact E2|]. split; [exact C2|]. intros H. apply R2, R1. left. exact H.
  Qed.
  Lemma clause_last cs x args k : cmd_clause (CSub (cs ++ [x]) args k) = cmd_clause x.
  Proof. cbn [cmd_clause]. induction cs as [|c cs IH]; [reflexivity|]. cbn [app]. destruct (cs ++ [x]) eqn:E; [destruct cs; discriminate|]. exact IH. Qed.
  Lemma good_sub outer init seen a args out extra al id d cl r ps sargs ds p ps' ds' i0 c0 :
    inv (home a ++ [a]) (outer ++ [init]) seen -> G (PSub a (PStep al id d cl r ps sargs ds (Some p)) args out extra) ->
    omap (fun q => unwrap (seen_get seen q)) ps = ROk ps' -> omap (fun q => unwrap (seen_get seen q)) ds = ROk ds' -> init = i0 ++ [c0] -> corr c0 p ->
    good (CSub (init ++ [CStep (mkStep id cl r ps' sargs ds')]) args 0) outer (cxof (home a)).
  Proof.
    intros I Hn Hps Hds Hinit Hc0 stk st Hg He Hc. destruct (w_sub W _ _ _ _ _ Hn) as (Han & _ & _ & al' & id' & d' & cl' & r' & ps'' & sargs' & ds'' & p' & El & Hal' & Hpl & Hph & Hpsk & Hdsk & Hr & Hok & HD & _).
    injection El as <- <- <- <- <- <- <- <- <-. set (cs := CStep (mkStep id cl r ps' sargs ds')). set (sub := init ++ [cs]).
    assert (HLo : List.length outer = Datatypes.S (List.length (home a))) by (pose proof (i_len _ _ _ I) as HL; rewrite !app_length in HL; cbn in HL; lia).
    pose proof (grows_len _ _ Hg) as HL. rewrite rev_length, map_length in HL.
    assert (Hg' : grows (outer ++ [init]) (rev (map snd stk) ++ [sub])) by (apply Forall2_app; [exact Hg|]; constructor; [apply pre_app|constructor]).
    assert (Gl : forall x, In x (ps ++ ds ++ [p]) -> G x).
    { intros x Hx. eapply (w_all W); [exact Hn|]. cbn [allnodes]. right. rewrite in_app_iff. left. right. rewrite !in_app_iff in *. destruct Hx as [H|[H|[<-|[]]]].
      - left. apply in_flat_map. exists x. split; [exact H|apply all_self].
      - right. left. apply in_flat_map. exists x. split; [exact H|apply all_self].
      - right. right. apply all_self. }
    rewrite run_sub. fold sub. unfold sub at 2. rewrite run_list_app.
    destruct (run_goods sub stk (outer ++ [init]) (args :: cxof (home a)) Hg' ltac:(lia) init 0 (mkSt (args :: st_ctx st) (st_reached st) (st_holey st))) as (st1 & E1 & C1 & R1).
    { intros x Hx. destruct (i_good _ _ _ I (List.length outer) init x) as [A _]; [rewrite nth_error_app2, Nat.sub_diag by lia; reflexivity|exact Hx|]. rewrite HLo in A.
      rewrite firstn_all2 in A by (rewrite app_length, HLo; cbn; lia). rewrite firstn_all2 in A by (rewrite app_length; cbn; lia). unfold cxof in A |- *. rewrite map_app, rev_app_distr in A. cbn in A. rewrite Han in A. exact A. }
    { unfold sub. rewrite app_length. cbn. lia. } { cbn. rewrite Hc. reflexivity. }
    rewrite E1. cbn [obind]. cbn [st_reached] in R1. cbn [run_list run do_command]. unfold cs at 1. cbn [run do_command]. rewrite Nat.add_0_l.
    assert (He' : is_end_step ((Datatypes.S (List.length init), sub) :: stk) = true).
    { unfold is_end_step, in_subproof, depth. cbn [List.length]. unfold sub. rewrite app_length. cbn [List.length]. rewrite Nat.add_1_r, Nat.eqb_refl, andb_true_r. apply Nat.ltb_lt. lia. }
    assert (Hlen : List.length sub = List.length i0 + 2) by (unfold sub; rewrite Hinit, !app_length; cbn; lia).
    assert (Hfull : grows (firstn (Datatypes.S (List.length outer)) (outer ++ [init])) (rev (map snd ((Datatypes.S (List.length init), sub) :: stk)))).
    { rewrite firstn_all2 by (rewrite app_length; cbn; lia). cbn [map snd rev]. exact Hg'. }
    unfold do_step, mk_rargs, previous_command. rewrite He'. replace (Nat.ltb (List.length sub) 2) with false by (symmetry; apply Nat.ltb_ge; lia).
    replace (nth_error sub (List.length sub - 2)) with (Some c0) by (rewrite Hlen; unfold sub; rewrite Hinit, <- app_assoc; rewrite nth_error_app2 by lia; replace (List.length i0 + 2 - 2 - List.length i0) with 0 by lia; reflexivity).
    rewrite (proj1 Hc0). cbn [unwrap obind s_prems s_disch s_clause s_args].
    rewrite (look_prems _ _ _ (List.length outer) _ I Hfull ps ps'); [|intros q Hq; split; [apply Gl; rewrite in_app_iff; auto|]; destruct (Hpsk q Hq) as [_ Hq2]; split; [exact Hq2|]; apply pre_len in Hq2; rewrite app_length in Hq2; cbn in Hq2; lia|exact Hps].
    cbn [obind]. rewrite (look_disch _ _ _ (List.length outer) _ I Hfull ds ds'); [|intros q Hq; destruct (Hdsk q Hq) as [Hq1 Hq2]; split; [apply Gl; rewrite !in_app_iff; auto|]; split; [exact Hq1|]; split; [exact Hq2|apply pre_len in Hq2; rewrite app_length in Hq2; cbn in Hq2; lia]|exact Hds].
    cbn [obind]. rewrite C1. destruct Hok as (_ & f & Hf & Hok).
    assert (Hcx : args :: cxof (home a) = cxof (home a ++ [a])) by (unfold cxof; rewrite map_app, rev_app_distr; cbn; rewrite Han; reflexivity). rewrite Hcx.
    unfold step_core. cbn [s_rule s_disch]. rewrite not_allowed.
    replace (negb (Nat.eqb (List.length ds') 0) && negb (String.eqb r "subproof")) with false.
    2: { symmetry. destruct Hr as [->| ->]; [cbn in Hds; injection Hds as <-; reflexivity|apply andb_false_r]. }
    rewrite Hf, Hok. cbn [obind]. assert (Hin : in_subproof ((Datatypes.S (List.length init), sub) :: stk) = true) by (unfold is_end_step in He'; apply andb_true_iff in He'; tauto). rewrite Hin.
    rewrite discharge_ok.
    - cbn [obind]. eexists. split; [reflexivity|]. cbn [st_ctx st_reached tl]. rewrite <- Hcx. cbn [tl]. split; [reflexivity|]. intros [H|[H1 H2]]; [rewrite (R1 H); reflexivity|].
      unfold sub in H1; rewrite clause_last in H1. cbn in H1. injection H1 as ->. rewrite H2. cbn. apply orb_true_r.
    - intros j c Hj Ha. rewrite Nat.add_0_l. unfold sub in Hj. destruct (Nat.lt_ge_cases j (List.length init)) as [Hlt|Hge].
      + rewrite nth_error_app1 in Hj by exact Hlt. destruct (i_from _ _ _ I (List.length outer) init j c) as (x & X1 & X2 & X3 & X4); [rewrite nth_error_app2, Nat.sub_diag by lia; reflexivity|exact Hj|].
        rewrite firstn_all2 in X2 by (rewrite app_length; cbn; lia). assert (Hpx : is_passume x = true) by (destruct X3 as [_ X3]; destruct x; [reflexivity|congruence|congruence]).
        specialize (HD x X1 Hpx X2). eapply omap_In2; [exact Hds|exact HD|]. cbn beta. rewrite X4. cbn [unwrap]. unfold depth. cbn [List.length]. do 2 f_equal. lia.
      + rewrite nth_error_app2 in Hj by exact Hge. destruct (j - List.length init) as [|k]; [|destruct k; discriminate]. injection Hj as <-. discriminate.
  Qed.

  (** ** The conversion *)
  Record ext (T : list pnode) (S : list (list command)) (seen : list (nat * (nat * nat))) (S' : list (list command)) (seen' : list (nat * (nat * nat))) : Prop := mkExt {
    e_stack : grows S S';
    e_seen : forall n q, seen_get seen n = Some q -> seen_get seen' n = Some q;
    e_new : forall x, In x (keys seen') -> In x (keys seen) \/ In x (map paddr (flat_map allnodes T));
    e_frame : forall j, (forall n, In n T -> List.length (hm n) < j \/ In (paddr n) (keys seen)) -> nth_error S' j = nth_error S j;
    e_done : forall n, In n T -> In (paddr n) (keys seen') }.
  Lemma ext_nil S seen : ext [] S seen S seen.
  Proof. split; auto; try (intros n []). apply grows_refl. Qed.
  Lemma keys_mono seen seen' : (forall n q, seen_get seen n = Some q -> seen_get seen' n = Some q) -> forall n, In (paddr n) (keys seen) -> In (paddr n) (keys seen').
  Proof. intros H n Hn. apply seen_some in Hn. destruct Hn as [q Hq]. apply seen_some. eauto. Qed.
  Lemma ext_app T1 T2 S0 s0 S1 s1 S2 s2 : ext T1 S0 s0 S1 s1 -> ext T2 S1 s1 S2 s2 -> ext (T1 ++ T2) S0 s0 S2 s2.
  Proof.
    intros [A1 A2 A3 A4 A5] [B1 B2 B3 B4 B5]. split.
    - eapply grows_trans; eauto.
    - auto.
    - intros x Hx. rewrite flat_map_app, map_app, in_app_iff. destruct (B3 x Hx) as [H|H]; [|auto]. destruct (A3 x H); auto.
    - intros j Hj. rewrite B4, A4; [reflexivity| |]; intros n Hn; destruct (Hj n) as [H|H]; try (apply in_app_iff; auto); auto. right. eapply keys_mono; [exact A2|exact H].
    - intros n Hn. apply in_app_iff in Hn. destruct Hn as [Hn|Hn]; [|auto]. eapply keys_mono; [exact B2|]. auto.
  Qed.
  (** the result of taking the node [n] from the list of nodes to convert *)
  Definition processed (n : pnode) (r : list (pnode * bool)) (path : list nat) (out : list command) (F : nat) (S : list (list command)) (seen : list (nat * (nat * nat))) : Prop :=
    exists f' S' seen' did', f' < F /\ tl_run f' (mkTS S' seen' r did') = ROk out /\ inv path S' seen' /\ homes path seen' /\ ext [n] S seen S' seen' /\
      (~ In (paddr n) (keys seen) -> exists fr c, nth_error S' (List.length (hm n)) = Some (fr ++ [c]) /\ corr c n).
  Definition works (F : nat) : Prop := forall n r S seen did path out, inv path S seen -> homes path seen -> G n -> plain_node n = true -> prefix (hm n) path ->
    tl_run F (mkTS S seen ((n, false) :: r) did) = ROk out -> processed n r path out F S seen.
  Lemma seg F : (forall f, f < F -> works f) -> forall T r S seen did path out f, f < F -> inv path S seen -> homes path seen ->
    (forall n, In n T -> G n /\ plain_node n = true /\ prefix (hm n) path) -> tl_run f (mkTS S seen (map (fun p => (p, false)) T ++ r) did) = ROk out ->
    exists f' S' seen' did', f' <= f /\ tl_run f' (mkTS S' seen' r did') = ROk out /\ inv path S' seen' /\ homes path seen' /\ ext T S seen S' seen'.
  Proof.
    intros HF. induction T as [|n T IH]; intros r S seen did path out f Hf I H HT Hrun; cbn [map app] in Hrun.
    - exists f, S, seen, did. split; [lia|]. split; [exact Hrun|]. split; [exact I|]. split; [exact H|apply ext_nil].
    - destruct (HT n (or_introl eq_refl)) as (G1 & P1 & Q1). destruct (HF f Hf _ _ _ _ _ _ _ I H G1 P1 Q1 Hrun) as (f1 & S1 & s1 & d1 & L1 & R1 & I1 & H1 & E1 & _).
      destruct (IH r S1 s1 d1 path out f1 ltac:(lia) I1 H1 (fun m Hm => HT m (or_intror Hm)) R1) as (f2 & S2 & s2 & d2 & L2 & R2 & I2 & H2 & E2).
      exists f2, S2, s2, d2. split; [lia|]. split; [exact R2|]. split; [exact I2|]. split; [exact H2|]. apply (ext_app [n] T _ _ _ _ _ _ E1 E2).
  Qed.
  Lemma homes_emit path seen n p : homes path seen -> G n -> prefix (hm n) path -> homes path ((paddr n, p) :: seen).
  Proof.
    intros H Hn [c Hp] m a Hm Hin Ha. cbn [keys map fst] in *. destruct Hin as [E|Hin].
    - apply (w_addr W) in E; auto. subst m. left. rewrite Hp. apply in_app_iff. auto.
    - destruct (H m a Hm Hin Ha); [auto|]. right. right. assumption.
  Qed.
  (** the effect of emitting a node that is new *)
  Lemma ext_emit S seen n c S' fr : G n -> ~ In (paddr n) (keys seen) -> nth_error S (pdepth n) = Some fr -> push_at (pdepth n) c S = ROk S' ->
    ext [n] S seen S' ((paddr n, (pdepth n, List.length fr)) :: seen) /\ nth_error S' (List.length (hm n)) = Some (fr ++ [c]).
  Proof.
    intros Hn Hnew Hfr Hp. rewrite (w_depth W n Hn) in *. destruct (push_at_spec _ _ _ _ Hp) as (y & Y1 & Y2 & Y3 & Y4). rewrite Hfr in Y1. injection Y1 as <-. split; [|exact Y2]. split.
    - exact Y3.
    - intros m q Hq. rewrite seen_cons. destruct (Nat.eqb (paddr n) (paddr m)) eqn:E; [|exact Hq]. exfalso. apply Hnew. apply Nat.eqb_eq in E. rewrite E. apply seen_some. eauto.
    - intros x [<-|Hx]; [right; cbn [fst]|left; exact Hx]. cbn [flat_map]. rewrite app_nil_r. apply in_map. apply all_self.
    - intros j Hj. apply Y4. destruct (Hj n (or_introl eq_refl)); [lia|contradiction].
    - intros m [<-|[]]. left. reflexivity.
  Qed.
  Lemma ext_weaken T T' S seen S' seen' n : ext T S seen S' seen' -> T = T' ++ [n] -> ~ In (paddr n) (keys seen) -> incl (flat_map allnodes T') (allnodes n) ->
    (forall m, In m T' -> List.length (hm m) <= List.length (hm n)) -> ext [n] S seen S' seen'.
  Proof.
    intros [A1 A2 A3 A4 A5] -> Hnew Hincl Hlen. split; auto.
    - intros x Hx. destruct (A3 x Hx) as [H|H]; [auto|]. right. cbn [flat_map] in *. rewrite app_nil_r. rewrite flat_map_app, map_app, in_app_iff in H. cbn [flat_map] in H. rewrite app_nil_r in H. destruct H as [H|H]; [|exact H].
      apply in_map_iff in H. destruct H as (y & <- & H). apply in_map. apply Hincl. exact H.
    - intros j Hj. apply A4. intros m Hm. apply in_app_iff in Hm. destruct (Hj n (or_introl eq_refl)) as [H|H]; [|contradiction]. destruct Hm as [Hm|[<-|[]]]; [|auto]. left. specialize (Hlen m Hm). lia.
    - intros m [<-|[]]. apply A5. apply in_app_iff. right. left. reflexivity.
  Qed.
  Lemma emit_inv n c S seen r did st' : emit n c (mkTS S seen r did) = ROk st' ->
    exists fr S', nth_error S (pdepth n) = Some fr /\ push_at (pdepth n) c S = ROk S' /\ st' = mkTS S' ((paddr n, (pdepth n, List.length fr)) :: seen) r did.
  Proof.
    unfold emit. cbn [t_stack t_seen t_todo t_did]. intros H. apply obind_ok in H. destruct H as (fr & Hfr & H). apply unwrap_ok in Hfr. apply obind_ok in H. destruct H as (S' & HS & H). injection H as <-. eauto.
  Qed.
  Lemma seen_skip seen n : (match seen_get seen n with Some _ => true | None => false end) = true <-> In (paddr n) (keys seen).
  Proof. rewrite seen_some. destruct (seen_get seen n); split; eauto; try discriminate. intros [p H]. discriminate. Qed.

  Lemma firstn_app_le {A} k (a b : list A) : k <= List.length a -> firstn k (a ++ b) = firstn k a.
  Proof. intros H. rewrite firstn_app. replace (k - List.length a) with 0 by lia. cbn. apply app_nil_r. Qed.
  Lemma inv_restrict path a outer init s3 l q : inv (path ++ [a]) (outer ++ [init]) s3 -> List.length outer = S (List.length path) -> G l -> hm l = path ++ [a] -> inv path outer ((paddr l, q) :: s3).
  Proof.
    intros [I1 I2 I3 I4] HL Gl Hl.
    assert (Hj : forall j fr, nth_error outer j = Some fr -> nth_error (outer ++ [init]) j = Some fr /\ j <= List.length path).
    { intros j fr H. assert (j < List.length outer) by (apply nth_error_Some; congruence). split; [rewrite nth_error_app1; auto|lia]. }
    assert (Hne : forall n j, prefix (hm n) path -> Nat.eqb (paddr l) (paddr n) = j -> j = false).
    { intros n j Hp <-. apply Nat.eqb_neq. intros E. rewrite <- E, Hl in Hp. apply pre_len in Hp. rewrite app_length in Hp. cbn in Hp. lia. }
    split.
    - exact HL.
    - intros j fr c Hf Hc. destruct (Hj j fr Hf) as [Hf' Hle]. destruct (I2 j fr c Hf' Hc) as [A B]. split; [|exact B]. rewrite firstn_app_le in A by lia. rewrite firstn_app_le in A by lia. exact A.
    - intros n p Hn Hp Hs. rewrite seen_cons, (Hne n _ Hp eq_refl) in Hs. destruct (I3 n p Hn) as (A & B & fr & c & C & D & E); [eapply pre_trans; [exact Hp|apply pre_app]|exact Hs|]. split; [exact A|]. split; [exact B|]. exists fr, c. split; [|auto].
      apply pre_len in Hp. rewrite nth_error_app1 in C by lia. exact C.
    - intros j fr k c Hf Hc. destruct (Hj j fr Hf) as [Hf' Hle]. destruct (I4 j fr k c Hf' Hc) as (n & A & B & C & D). rewrite firstn_app_le in B by lia. exists n. split; [exact A|]. split; [exact B|]. split; [exact C|].
      rewrite seen_cons, (Hne n _) with (2 := eq_refl); [exact D|]. rewrite B. exists (skipn j path). symmetry. apply firstn_skipn.
  Qed.
  Lemma push_at_last (c : command) : forall outer init, push_at (List.length outer) c (outer ++ [init]) = ROk (outer ++ [init ++ [c]]).
  Proof. induction outer as [|x r IH]; intros init; [reflexivity|]. cbn [List.length app push_at]. rewrite IH. reflexivity. Qed.
  Lemma sub_kids a l args out extra x : In x (allnodes l) \/ In x (flat_map allnodes out) \/ In x (flat_map allnodes extra) -> In x (allnodes (PSub a l args out extra)).
  Proof. intros H. cbn [allnodes]. right. rewrite !in_app_iff. exact H. Qed.
  Lemma finish_sub a l args out extra al id d cl r ps sargs ds p f3 S3 s3 d3 rest res i0 c0 :
    l = PStep al id d cl r ps sargs ds (Some p) -> G (PSub a l args out extra) -> inv (home a ++ [a]) S3 s3 -> homes (home a ++ [a]) s3 ->
    nth_error S3 (S (List.length (home a))) = Some (i0 ++ [c0]) -> corr c0 p -> ~ In a (keys s3) ->
    tl_run f3 (mkTS S3 s3 ((l, true) :: (PSub a l args out extra, true) :: rest) d3) = ROk res ->
    exists f' S' q1 q2 fr c, f' < f3 /\ tl_run f' (mkTS S' ((a, q1) :: (al, q2) :: s3) rest d3) = ROk res /\ inv (home a) S' ((a, q1) :: (al, q2) :: s3) /\ homes (home a) ((a, q1) :: (al, q2) :: s3) /\
      nth_error S' (List.length (home a)) = Some (fr ++ [c]) /\ corr c (PSub a l args out extra) /\ grows (firstn (S (List.length (home a))) S3) S'.
  Proof.
    intros El Hn I H Hlast Hc0 Hnew Hrun. set (n := PSub a l args out extra) in *.
    destruct (w_sub W _ _ _ _ _ Hn) as (_ & _ & _ & al' & id' & d' & cl' & r' & ps'' & sargs' & ds'' & p' & El' & Hal' & _ & _ & _ & _ & _ & (HR & _) & _).
    rewrite El in El'. injection El' as <- <- <- <- <- <- <- <- <-.
    assert (Gl : G l) by (eapply (w_all W); [exact Hn|]; apply sub_kids; left; apply all_self).
    assert (Hal0 : hm l = home a ++ [a]) by (rewrite El; exact Hal').
    pose proof (i_len _ _ _ I) as HL. rewrite app_length in HL. cbn in HL.
    destruct (@exists_last _ S3) as (outer & init & ->); [destruct S3; [discriminate|discriminate]|]. rewrite app_length in HL. cbn in HL.
    assert (HLo : List.length outer = S (List.length (home a))) by lia. rewrite nth_error_app2 in Hlast by lia. replace (S (List.length (home a)) - List.length outer) with 0 in Hlast by lia. cbn in Hlast. injection Hlast as ->.
    rewrite firstn_app_le by lia. rewrite firstn_all2 by lia.
    destruct f3 as [|f3]; [discriminate|]. cbn [tl_run t_todo t_stack t_seen t_did] in Hrun. apply obind_ok in Hrun. destruct Hrun as (st1 & Hst1 & Hrun). rewrite El in Hst1. cbn [tl_node negb andb] in Hst1. apply obind_ok in Hst1. destruct Hst1 as (ps' & Hps & Hst1). apply obind_ok in Hst1. destruct Hst1 as (ds' & Hds & Hst1). cbn [t_seen] in Hps, Hds.
    rewrite <- El in Hst1. apply emit_inv in Hst1. destruct Hst1 as (fr1 & S1 & Hfr1 & HS1 & ->). rewrite (w_depth W l Gl), Hal0, app_length in Hfr1, HS1. cbn [List.length] in Hfr1, HS1. rewrite Nat.add_1_r, <- HLo in Hfr1, HS1. rewrite push_at_last in HS1. injection HS1 as <-.
    destruct f3 as [|f3]; [discriminate|]. cbn [tl_run t_todo t_stack t_seen t_did] in Hrun. apply obind_ok in Hrun. destruct Hrun as (st2 & Hst2 & Hrun). unfold n in Hst2. cbn [tl_node negb andb t_stack] in Hst2. rewrite rev_app_distr in Hst2. cbn [rev app] in Hst2.
    rewrite rev_length in Hst2. destruct (Nat.eqb (List.length outer) 0); [discriminate|]. destruct (Nat.ltb _ 2); [discriminate|]. rewrite rev_involutive in Hst2. cbn [t_seen t_todo t_did] in Hst2. fold n in Hst2. apply emit_inv in Hst2. destruct Hst2 as (fr & S' & Hfr & HS' & ->).
    assert (Ir : inv (home a) outer ((paddr l, (pdepth l, List.length fr1)) :: s3)) by (eapply inv_restrict; eauto).
    assert (Hnew' : ~ In (paddr n) (keys ((paddr l, (pdepth l, List.length fr1)) :: s3))).
    { cbn [keys map fst]. intros [E|E]; [|exact (Hnew E)]. apply (w_addr W) in E; auto. apply (f_equal nsize) in E. unfold n in E. cbn [nsize] in E. lia. }
    assert (Cn : corr (CSub ((i0 ++ [c0]) ++ [CStep (mkStep id cl r ps' sargs ds')]) args 0) n) by (unfold corr, n; split; [rewrite clause_last, El; reflexivity|reflexivity]).
    assert (Hst : forall s, In s (cmd_steps (CSub ((i0 ++ [c0]) ++ [CStep (mkStep id cl r ps' sargs ds')]) args 0)) -> R (s_rule s)).
    { intros s Hs. cbn [cmd_steps] in Hs. rewrite flat_map_app, in_app_iff in Hs. destruct Hs as [Hs|[<-|[]]]; [|exact HR]. apply in_flat_map in Hs. destruct Hs as (c & Hc & Hs).
      destruct (i_good _ _ _ I (List.length outer) (i0 ++ [c0]) c) as [_ B]; [rewrite nth_error_app2, Nat.sub_diag by lia; reflexivity|exact Hc|]. apply B. exact Hs. }
    assert (Gd : good (CSub ((i0 ++ [c0]) ++ [CStep (mkStep id cl r ps' sargs ds')]) args 0) outer (cxof (home a))) by (pose proof Hn as Hn2; unfold n in Hn2; rewrite El in Hn2; exact (good_sub outer (i0 ++ [c0]) s3 a args out extra al id d cl r ps sargs ds p ps' ds' i0 c0 I Hn2 Hps Hds eq_refl Hc0)).
    pose proof (w_depth W n Hn) as Hdn. change (paddr n) with a in Hdn.
    assert (Ifin : inv (home a) S' ((paddr n, (pdepth n, List.length fr)) :: (paddr l, (pdepth l, List.length fr1)) :: s3)).
    { eapply inv_emit; eauto; [apply pre_refl|]. rewrite Hdn. rewrite firstn_all2 by lia. exact Gd. }
    destruct (push_at_spec _ _ _ _ HS') as (y & Y1 & Y2 & Y3 & Y4). rewrite Hfr in Y1. injection Y1 as <-. rewrite Hdn in Y2.
    exists f3, S', (pdepth n, List.length fr), (pdepth l, List.length fr1), fr, (CSub ((i0 ++ [c0]) ++ [CStep (mkStep id cl r ps' sargs ds')]) args 0).
    split; [lia|]. replace al with (paddr l) by (rewrite El; reflexivity). split; [exact Hrun|]. split; [exact Ifin|]. split; [|split; [exact Y2|split; [exact Cn|exact Y3]]].
    intros m b Hm Hin Hb. cbn [keys map fst] in *. destruct Hin as [E|[E|Hin]].
    - change a with (paddr n) in E. apply (w_addr W) in E; auto. subst m. left. exact Hb.
    - apply (w_addr W) in E; auto. subst m. rewrite Hal0 in Hb. apply in_app_iff in Hb. destruct Hb as [Hb|[<-|[]]]; [left; exact Hb|right; left; reflexivity].
    - destruct (H m b Hm Hin Hb) as [X|X]; [|right; right; right; exact X]. apply in_app_iff in X. destruct X as [X|[<-|[]]]; [left; exact X|right; left; reflexivity].
  Qed.

  Lemma seg2 F T r S seen did path out f : (forall f, f < F -> works f) -> f < F -> inv path S seen -> homes path seen -> tl_run f (mkTS S seen (map (fun p => (p, false)) T ++ r) did) = ROk out ->
    (forall n, In n T -> G n /\ plain_node n = true /\ prefix (hm n) path) ->
    exists f' S' seen' did', f' <= f /\ tl_run f' (mkTS S' seen' r did') = ROk out /\ inv path S' seen' /\ homes path seen' /\ ext T S seen S' seen'.
  Proof. intros A B C D E H. exact (seg F A T r S seen did path out f B C D H E). Qed.
  Lemma inv_open path a S seen : inv path S seen -> (forall n, G n -> In (paddr n) (keys seen) -> hm n <> path ++ [a]) -> inv (path ++ [a]) (S ++ [[]]) seen.
  Proof.
    intros [I1 I2 I3 I4] Hno. split.
    - rewrite !app_length. cbn. lia.
    - intros j fr c Hj Hc. assert (j < List.length (S ++ [[]])) by (apply nth_error_Some; congruence). rewrite app_length in H. cbn in H. destruct (Nat.lt_ge_cases j (List.length S)) as [Hlt|Hge].
      + rewrite nth_error_app1 in Hj by exact Hlt. rewrite !firstn_app_le by lia. eapply I2; eauto.
      + rewrite nth_error_app2 in Hj by exact Hge. destruct (j - List.length S) as [|k]; [|destruct k; discriminate]. injection Hj as <-. destruct Hc.
    - intros n q Hn Hp Hs. apply pre_snoc in Hp. destruct Hp as [Hp|Hp]; [|exfalso; apply (Hno n Hn); [apply seen_some; eauto|exact Hp]]. destruct (I3 n q Hn Hp Hs) as (A & B & fr & c & C & D & E). split; [exact A|]. split; [exact B|]. exists fr, c. split; [|auto].
      rewrite nth_error_app1; [exact C|]. apply nth_error_Some. congruence.
    - intros j fr k c Hj Hc. assert (j < List.length (S ++ [[]])) by (apply nth_error_Some; congruence). rewrite app_length in H. cbn in H. destruct (Nat.lt_ge_cases j (List.length S)) as [Hlt|Hge].
      + rewrite nth_error_app1 in Hj by exact Hlt. rewrite firstn_app_le by lia. eapply I4; eauto.
      + rewrite nth_error_app2 in Hj by exact Hge. destruct (j - List.length S) as [|m]; [|destruct m; discriminate]. injection Hj as <-. destruct k; discriminate.
  Qed.
  Lemma homes_open path a seen : homes path seen -> homes (path ++ [a]) seen.
  Proof. intros H n b Hn Hin Hb. destruct (H n b Hn Hin Hb); [left; apply in_app_iff; auto|auto]. Qed.
  (** the last step of a subproof, when its list of nodes has been reached *)
  Lemma last_step_pushed F al id d cl r ps sargs ds p S seen rest did res path : G (PStep al id d cl r ps sargs ds (Some p)) -> prefix (home al) path -> inv path S seen ->
    tl_run F (mkTS S seen ((PStep al id d cl r ps sargs ds (Some p), false) :: rest) did) = ROk res ->
    exists f, F = Datatypes.S f /\ tl_run f (mkTS S seen (map (fun q => (q, false)) (ps ++ ds) ++ (p, false) :: (PStep al id d cl r ps sargs ds (Some p), true) :: rest) did) = ROk res.
  Proof.
    intros Gl Hp I Hrun. destruct F as [|f]; [discriminate|]. exists f. split; [reflexivity|]. cbn [tl_run t_todo t_stack t_seen t_did] in Hrun. apply obind_ok in Hrun. destruct Hrun as (st & Hst & Hrun).
    unfold tl_node in Hst. cbn [t_seen] in Hst. destruct (seen_get seen (PStep al id d cl r ps sargs ds (Some p))) as [q|] eqn:E.
    - destruct (i_seen _ _ _ I _ q Gl Hp E) as [X _]. discriminate.
    - cbn [negb andb t_todo t_stack t_seen t_did app] in Hst. injection Hst as <-. exact Hrun.
  Qed.
  Theorem works_all F : works F.
  Proof.
    induction F as [F IH] using lt_wf_ind. intros n r S seen did path out I H Gn Pn Qn Hrun.
    destruct F as [|F]; [discriminate|]. cbn [tl_run t_todo t_stack t_seen t_did] in Hrun. apply obind_ok in Hrun. destruct Hrun as (st & Hst & Hrun).
    destruct (in_dec Nat.eq_dec (paddr n) (keys seen)) as [Hin|Hnew].
    { unfold tl_node in Hst. cbn [t_seen negb andb] in Hst. rewrite (proj2 (seen_skip seen n) Hin) in Hst. injection Hst as <-. exists F, S, seen, did. split; [lia|]. split; [exact Hrun|]. split; [exact I|]. split; [exact H|]. split; [|contradiction].
      split; auto; [apply grows_refl|]. intros m [<-|[]]. exact Hin. }
    pose proof (seen_none _ _ Hnew) as Hnone. unfold tl_node in Hst. cbn [t_seen] in Hst. rewrite Hnone in Hst. cbn [negb andb t_stack t_todo t_did] in Hst.
    destruct n as [a id d t|a id d cl rl ps args ds prev|a l args outb extra].
    - (* an assumption *)
      apply emit_inv in Hst. destruct Hst as (fr & S' & Hfr & HS' & ->). pose proof (w_depth W _ Gn) as Hd. destruct (ext_emit _ _ _ _ _ _ Gn Hnew Hfr HS') as [E Hl].
      eexists F, S', _, did. split; [lia|]. split; [exact Hrun|]. split; [|split; [|split; [exact E|intros _; do 2 eexists; split; [exact Hl|split; reflexivity]]]].
      + eapply inv_emit; eauto; [split; reflexivity|intros s []|]. rewrite Hd. eapply good_assume; [exact Gn|]. rewrite firstn_length, (i_len _ _ _ I). cbn [paddr]. apply pre_len in Qn. cbn [paddr] in Qn. lia.
      + apply homes_emit; auto.
    - (* a step *)
      destruct prev as [p|]; [discriminate|]. destruct (w_step W _ _ _ _ _ _ _ _ Gn) as (-> & Hk & HR & _). rewrite app_nil_r in Hst. cbn [app] in Hst. injection Hst as <-.
      set (n := PStep a id d cl rl ps args [] None) in *.
      assert (Gk : forall q, In q ps -> In q (allnodes n) /\ nsize q < nsize n).
      { intros q Hq. split; [unfold n; cbn [allnodes]; right; rewrite in_app_iff; left; apply in_flat_map; exists q; split; [exact Hq|apply all_self]|]. unfold n. cbn [nsize]. pose proof (sum_in ps q Hq). lia. }
      destruct (seg (Datatypes.S F) IH ps ((n, true) :: r) S seen did path out F ltac:(lia) I H) as (f1 & S1 & s1 & d1 & L1 & R1 & I1 & H1 & E1); [|exact Hrun|].
      { intros q Hq. split; [eapply (w_all W); [exact Gn|apply Gk; exact Hq]|]. destruct (Hk q Hq). split; [assumption|]. eapply pre_trans; [eassumption|exact Qn]. }
      assert (Hnew1 : ~ In (paddr n) (keys s1)) by (intros X; destruct (e_new _ _ _ _ _ E1 _ X) as [Y|Y]; [exact (Hnew Y)|exact (acyclic n ps Gn Gk Y)]).
      destruct f1 as [|f1]; [discriminate|]. cbn [tl_run t_todo t_stack t_seen t_did] in R1. apply obind_ok in R1. destruct R1 as (st2 & Hst2 & R1). unfold n in Hst2. cbn [tl_node negb andb t_seen] in Hst2. apply obind_ok in Hst2. destruct Hst2 as (ps' & Hps & Hst2). cbn [omap obind] in Hst2. fold n in Hst2.
      apply emit_inv in Hst2. destruct Hst2 as (fr & S' & Hfr & HS' & ->). pose proof (w_depth W _ Gn) as Hd. destruct (ext_emit _ _ _ _ _ _ Gn Hnew1 Hfr HS') as [E Hl].
      eexists f1, S', _, d1. split; [lia|]. split; [exact R1|]. split; [|split; [|split]].
      + eapply inv_emit; eauto; [split; reflexivity|intros s [<-|[]]; exact HR|]. rewrite Hd. exact (good_step path S1 s1 a id d cl rl ps args ps' I1 Gn Qn Hps).
      + apply homes_emit; auto.
      + eapply ext_weaken with (T := ps ++ [n]); [exact (ext_app _ _ _ _ _ _ _ _ E1 E)|reflexivity|exact Hnew| |].
        * intros x Hx. unfold n. cbn [allnodes]. right. apply in_app_iff. left. exact Hx.
        * intros m Hm. apply pre_len. apply Hk. exact Hm.
      + intros _. do 2 eexists. split; [exact Hl|split; reflexivity].
    - (* a subproof *)
      set (n := PSub a l args outb extra) in *. destruct (negb (Nat.eqb (pdepth n) (List.length S - 1))) eqn:Ed; [discriminate|]. apply negb_false_iff, Nat.eqb_eq in Ed.
      pose proof (w_depth W _ Gn) as Hd. change (paddr n) with a in *.
      assert (Hpath : home a = path) by (apply pre_eq; [exact Qn|]; pose proof (i_len _ _ _ I); lia). clear Qn.
      destruct (w_sub W _ _ _ _ _ Gn) as (Han & Hout & Hextra & al & id & d & cl & rl & ps & sargs & ds & p & El & Hal' & Hpl & Hph & Hpsk & Hdsk & Hr & Hok & HD & HP).
      assert (Gkout : forall q, In q outb -> In q (allnodes n) /\ nsize q < nsize n).
      { intros q Hq. split; [apply sub_kids; right; left; apply in_flat_map; exists q; split; [exact Hq|apply all_self]|]. unfold n. cbn [nsize]. pose proof (sum_in outb q Hq). lia. }
      destruct (memb Nat.eqb a did).
      + injection Hst as <-.
        assert (Gl : G l) by (eapply (w_all W); [exact Gn|]; apply sub_kids; left; apply all_self).
        assert (Gke : forall q, In q (extra ++ ps ++ ds ++ [p]) -> In q (allnodes n) /\ nsize q < nsize n).
        { intros q Hq. rewrite !in_app_iff in Hq. unfold n. rewrite El. cbn [nsize]. destruct Hq as [Hq|Hq].
          - split; [apply sub_kids; right; right; apply in_flat_map; exists q; split; [exact Hq|apply all_self]|]. pose proof (sum_in extra q Hq). lia.
          - assert (Hs : In q (allnodes (PStep al id d cl rl ps sargs ds (Some p))) /\ nsize q < nsize (PStep al id d cl rl ps sargs ds (Some p))).
            { cbn [allnodes nsize]. destruct Hq as [Hq|[Hq|[<-|[]]]].
              - split; [right; rewrite !in_app_iff; left; apply in_flat_map; exists q; split; [exact Hq|apply all_self]|]. pose proof (sum_in ps q Hq). lia.
              - split; [right; rewrite !in_app_iff; right; left; apply in_flat_map; exists q; split; [exact Hq|apply all_self]|]. pose proof (sum_in ds q Hq). lia.
              - split; [right; rewrite !in_app_iff; right; right; apply all_self|]. lia. }
            destruct Hs as [Hs1 Hs2]. split; [apply sub_kids; left; exact Hs1|]. cbn [nsize] in Hs2 |- *. lia. }
        assert (Gq : forall q, In q (extra ++ ps ++ ds ++ [p]) -> G q) by (intros q Hq; eapply (w_all W); [exact Gn|apply Gke; exact Hq]).
        assert (Hno : forall m, G m -> In (paddr m) (keys seen) -> hm m <> path ++ [a]).
        { intros m Gm Hm E. destruct (H m a Gm Hm) as [X|X]; [rewrite E; apply in_app_iff; right; left; reflexivity| |exact (Hnew X)]. rewrite <- Hpath in X. exact (w_fresh W n Gn X). }
        pose proof (inv_open path a S seen I Hno) as I0. pose proof (homes_open path a seen H) as H0.
        assert (Kex : forall q, In q extra -> G q /\ plain_node q = true /\ prefix (hm q) (path ++ [a])) by (intros q Hq; split; [apply Gq; apply in_app_iff; auto|rewrite <- Hpath; apply Hextra; exact Hq]).
        assert (Kpd : forall q, In q (ps ++ ds) -> G q /\ plain_node q = true /\ prefix (hm q) (path ++ [a])).
        { intros q Hq. split; [apply Gq; rewrite app_assoc, in_app_iff in *; rewrite !in_app_iff in *; tauto|]. apply in_app_iff in Hq. rewrite <- Hpath. destruct Hq as [Hq|Hq]; [apply Hpsk; exact Hq|]. destruct (Hdsk q Hq) as [X Y]. split; [destruct q; [reflexivity|discriminate|discriminate]|exact Y]. }
        assert (Kp : G p /\ plain_node p = true /\ prefix (hm p) (path ++ [a])) by (split; [apply Gq; rewrite !in_app_iff; right; right; right; left; reflexivity|]; split; [exact Hpl|]; rewrite Hph, Hpath; apply pre_refl).
        assert (Hpn : ~ In (paddr p) (keys seen)) by (intros X; apply (Hno p (proj1 Kp) X); rewrite Hph, Hpath; reflexivity).
        assert (Ql : prefix (home al) (path ++ [a])) by (rewrite Hal', Hpath; apply pre_refl).
        assert (Hph' : List.length (hm p) = Datatypes.S (List.length path)) by (rewrite Hph, Hpath, app_length; cbn; lia).
        assert (Main : exists f3 S3 s3 d3 T, f3 <= F /\ tl_run f3 (mkTS S3 s3 ((l, true) :: (n, true) :: r) d3) = ROk out /\ inv (path ++ [a]) S3 s3 /\ homes (path ++ [a]) s3 /\
          ext T (S ++ [[]]) seen S3 s3 /\ incl T (extra ++ ps ++ ds ++ [p]) /\ exists i0 c0, nth_error S3 (Datatypes.S (List.length path)) = Some (i0 ++ [c0]) /\ corr c0 p).
        { rewrite map_app, <- app_assoc in Hrun. cbn [map app] in Hrun. destruct HP as [(e & Ee & Hpe & Hse)|Hpe].
          - rewrite Ee, map_app, <- app_assoc in Hrun. cbn [map app] in Hrun.
            destruct (seg2 (Datatypes.S F) e _ _ _ _ _ _ F IH ltac:(lia) I0 H0 Hrun) as (f1 & S1 & s1 & d1 & L1 & R1 & I1 & H1 & E1); [intros q Hq; apply Kex; rewrite Ee; apply in_app_iff; auto|].
            destruct (IH f1 ltac:(lia) _ _ _ _ _ _ _ I1 H1 (proj1 Kp) Hpl (proj2 (proj2 Kp)) R1) as (f2 & S2 & s2 & d2 & L2 & R2 & I2 & H2 & E2 & Hlast).
            assert (Hp1 : ~ In (paddr p) (keys s1)) by (intros X; destruct (e_new _ _ _ _ _ E1 _ X) as [Y|Y]; [exact (Hpn Y)|exact (Hpe Y)]).
            destruct (Hlast Hp1) as (i0 & c0 & Hi & Hc0). rewrite Hph' in Hi. rewrite El in Gl, R2.
            destruct (last_step_pushed _ _ _ _ _ _ _ _ _ _ _ _ _ _ _ _ Gl Ql I2 R2) as (f2' & -> & R2').
            replace (map (fun q => (q, false)) (ps ++ ds) ++ (p, false) :: (PStep al id d cl rl ps sargs ds (Some p), true) :: (n, true) :: r)
              with (map (fun q => (q, false)) (ps ++ ds ++ [p]) ++ (PStep al id d cl rl ps sargs ds (Some p), true) :: (n, true) :: r) in R2' by (rewrite app_assoc, (map_app _ (ps ++ ds)), <- app_assoc; reflexivity).
            destruct (seg2 (Datatypes.S F) (ps ++ ds ++ [p]) _ _ _ _ _ _ f2' IH ltac:(lia) I2 H2 R2') as (f3 & S3 & s3 & d3 & L3 & R3 & I3 & H3 & E3).
            { intros q Hq. rewrite app_assoc, in_app_iff in Hq. destruct Hq as [Hq|[<-|[]]]; [apply Kpd; exact Hq|exact Kp]. }
            exists f3, S3, s3, d3, ((e ++ [p]) ++ ps ++ ds ++ [p]). split; [lia|]. rewrite El. split; [exact R3|]. split; [exact I3|]. split; [exact H3|].
            pose proof (ext_app _ _ _ _ _ _ _ _ E1 E2) as E12. split; [exact (ext_app _ _ _ _ _ _ _ _ E12 E3)|]. split; [rewrite Ee; apply incl_refl|]. exists i0, c0. split; [|exact Hc0].
            rewrite (e_frame _ _ _ _ _ E3); [exact Hi|]. intros q Hq. rewrite app_assoc, in_app_iff in Hq. destruct Hq as [Hq|[<-|[]]].
            + destruct (Hse q Hq) as [X|X]; [left; rewrite Hpath in X; exact X|]. right. rewrite Ee in X. exact (e_done _ _ _ _ _ E12 q X).
            + right. apply (e_done _ _ _ _ _ E12). apply in_app_iff. right. left. reflexivity.
          - destruct (seg (Datatypes.S F) IH extra _ _ _ _ (path ++ [a]) out F ltac:(lia) I0 H0 Kex Hrun) as (f1 & S1 & s1 & d1 & L1 & R1 & I1 & H1 & E1).
            rewrite El in Gl, R1. destruct (last_step_pushed _ _ _ _ _ _ _ _ _ _ _ _ _ _ _ _ Gl Ql I1 R1) as (f1' & -> & R1').
            destruct (seg (Datatypes.S F) IH (ps ++ ds) _ _ _ _ (path ++ [a]) out f1' ltac:(lia) I1 H1 Kpd R1') as (f2 & S2 & s2 & d2 & L2 & R2 & I2 & H2 & E2).
            destruct (IH f2 ltac:(lia) _ _ _ _ _ _ _ I2 H2 (proj1 Kp) Hpl (proj2 (proj2 Kp)) R2) as (f3 & S3 & s3 & d3 & L3 & R3 & I3 & H3 & E3 & Hlast).
            pose proof (ext_app _ _ _ _ _ _ _ _ E1 E2) as E12.
            assert (Hp1 : ~ In (paddr p) (keys s2)) by (intros X; destruct (e_new _ _ _ _ _ E12 _ X) as [Y|Y]; [exact (Hpn Y)|exact (Hpe Y)]).
            destruct (Hlast Hp1) as (i0 & c0 & Hi & Hc0). rewrite Hph' in Hi.
            exists f3, S3, s3, d3, ((extra ++ ps ++ ds) ++ [p]). split; [lia|]. rewrite El. split; [exact R3|]. split; [exact I3|]. split; [exact H3|]. split; [exact (ext_app _ _ _ _ _ _ _ _ E12 E3)|].
            split; [rewrite <- !app_assoc; apply incl_refl|]. exists i0, c0. auto. }
        destruct Main as (f3 & S3 & s3 & d3 & T & L3 & R3 & I3 & H3 & E3 & HT & i0 & c0 & Hi & Hc0).
        assert (Hn3 : ~ In a (keys s3)).
        { intros X. destruct (e_new _ _ _ _ _ E3 _ X) as [Y|Y]; [exact (Hnew Y)|]. apply (acyclic n T Gn) in Y; [exact Y|]. intros k Hk. apply Gke. apply HT. exact Hk. }
        rewrite <- Hpath in I3, H3, Hi.
        destruct (finish_sub a l args outb extra al id d cl rl ps sargs ds p f3 S3 s3 d3 r out i0 c0 El Gn I3 H3 Hi Hc0 Hn3 R3) as (f' & S' & q1 & q2 & fr & c & L4 & R4 & I4 & H4 & Hl4 & C4 & G4).
        exists f', S', ((a, q1) :: (al, q2) :: s3), d3. rewrite <- Hpath. split; [lia|]. split; [exact R4|]. split; [exact I4|]. split; [exact H4|]. split; [|intros _; exists fr, c; split; [exact Hl4|exact C4]].
        pose proof (i_len _ _ _ I) as HLS. rewrite <- Hpath in HLS.
        split.
        * eapply grows_trans; [|exact G4]. pose proof (grows_firstn (Datatypes.S (List.length (home a))) _ _ (e_stack _ _ _ _ _ E3)) as X. rewrite firstn_app_le in X by lia. rewrite firstn_all2 in X by lia. exact X.
        * intros m q Hq. rewrite !seen_cons. destruct (Nat.eqb a (paddr m)) eqn:Ea; [exfalso; apply Nat.eqb_eq in Ea; apply Hnew; rewrite Ea; apply seen_some; eauto|].
          destruct (Nat.eqb al (paddr m)) eqn:Eb; [|exact (e_seen _ _ _ _ _ E3 m q Hq)]. exfalso. apply Nat.eqb_eq in Eb. apply (Hno l Gl); [rewrite El; cbn [paddr]; rewrite Eb; apply seen_some; eauto|]. rewrite El. cbn [paddr]. rewrite Hal', Hpath. reflexivity.
        * intros x Hx. cbn [keys map fst] in Hx. cbn [flat_map]. rewrite app_nil_r. destruct Hx as [<-|[<-|Hx]].
          -- right. change a with (paddr n). apply in_map. apply all_self.
          -- right. replace al with (paddr l) by (rewrite El; reflexivity). apply in_map. apply sub_kids. left. apply all_self.
          -- destruct (e_new _ _ _ _ _ E3 _ Hx) as [Y|Y]; [left; exact Y|]. right. apply in_map_iff in Y. destruct Y as (y & <- & Y). apply in_map. apply in_flat_map in Y. destruct Y as (k & Hk & Y).
             destruct (Gke k (HT k Hk)) as [X _]. eapply all_trans; eauto.
        * intros j Hj. destruct (Hj n (or_introl eq_refl)) as [X|X]; [|contradiction]. change (paddr n) with a in X. pose proof (i_len _ _ _ I4). rewrite !(proj2 (nth_error_None _ _)) by lia. reflexivity.
        * intros m [<-|[]]. left. reflexivity.
      + injection Hst as <-. destruct (seg2 (Datatypes.S F) (rev outb) _ _ _ _ _ _ F IH ltac:(lia) I H Hrun) as (f1 & S1 & s1 & d1 & L1 & R1 & I1 & H1 & E1).
        { intros q Hq. apply in_rev in Hq. split; [eapply (w_all W); [exact Gn|apply Gkout; exact Hq]|]. rewrite <- Hpath. apply Hout. exact Hq. }
        assert (Qn : prefix (hm n) path) by (change (paddr n) with a; rewrite Hpath; apply pre_refl).
        destruct (IH f1 ltac:(lia) _ _ _ _ _ _ _ I1 H1 Gn Pn Qn R1) as (f2 & S2 & s2 & d2 & L2 & R2 & I2 & H2 & E2 & Hlast).
        exists f2, S2, s2, d2. split; [lia|]. split; [exact R2|]. split; [exact I2|]. split; [exact H2|]. split.
        * eapply ext_weaken with (T := rev outb ++ [n]); [exact (ext_app _ _ _ _ _ _ _ _ E1 E2)|reflexivity|exact Hnew| |].
          -- intros x Hx. apply in_flat_map in Hx. destruct Hx as (k & Hk & Hx). apply in_rev in Hk. apply sub_kids. right. left. apply in_flat_map. eauto.
          -- intros m Hm. apply in_rev in Hm. apply pre_len. apply Hout. exact Hm.
        * intros _. apply Hlast. intros X. destruct (e_new _ _ _ _ _ E1 _ X) as [Y|Y]; [exact (Hnew Y)|]. apply (acyclic n (rev outb) Gn) in Y; [exact Y|]. intros k Hk. apply in_rev in Hk. apply Gkout. exact Hk.
  Qed.
  (** the list that is made of the graph is accepted *)
  Theorem graph_check forest fuel out : (forall n, In n forest -> G n /\ plain_node n = true /\ hm n = []) -> (exists n, In n forest /\ pclause n = []) -> to_list fuel forest = ROk out ->
    (exists b, check table cfg prems out = ROk b) /\ forall s, In s (proof_steps out) -> R (s_rule s).
  Proof.
    intros HF (n0 & Hn0 & Hcl) Hrun. unfold to_list in Hrun.
    assert (I0 : inv [] [[]] []).
    { split; [reflexivity| | |].
      - intros [|j] fr c Hj Hc; cbn in Hj; [injection Hj as <-; destruct Hc|destruct j; discriminate].
      - intros n p _ _ Hs. discriminate.
      - intros [|j] fr k c Hj Hc; cbn in Hj; [injection Hj as <-; destruct k; discriminate|destruct j; discriminate]. }
    assert (H0 : homes [] []) by (intros n a _ []). rewrite <- (app_nil_r (map _ forest)) in Hrun.
    destruct (seg2 (S fuel) forest [] [[]] [] [] [] out fuel (fun f _ => works_all f) ltac:(lia) I0 H0 Hrun) as (f & S' & seen & did & _ & R1 & I1 & _ & E1).
    { intros n Hn. destruct (HF n Hn) as (A & B & ->). split; [exact A|]. split; [exact B|apply pre_refl]. }
    assert (ES : S' = [out]).
    { pose proof (i_len _ _ _ I1) as HL. destruct S' as [|l [|y z]]; [discriminate| |discriminate]. destruct f; cbn in R1; injection R1 as ->; reflexivity. }
    subst S'. split.
    - assert (Gd : forall c, In c out -> good c [out] []) by (intros c Hc; apply (i_good _ _ _ I1 0 out c eq_refl Hc)).
      assert (Run : forall l i st, (forall c, In c l -> In c out) -> st_ctx st = [] -> exists st', run_list table cfg prems out [] l i st = ROk st' /\ st_ctx st' = [] /\
        (st_reached st = true \/ (exists c, In c l /\ cmd_clause c = Some []) -> st_reached st' = true)).
      { induction l as [|x l IH]; intros i st Hl Hc; cbn [run_list].
        - exists st. split; [reflexivity|]. split; [exact Hc|]. intros [X|(c & [] & _)]. exact X.
        - destruct (Gd x (Hl x (or_introl eq_refl)) [(Datatypes.S i, out)] st) as (st1 & A & B & C); [apply grows_refl|reflexivity|exact Hc|]. rewrite A. cbn [obind].
          destruct (IH (Datatypes.S i) st1) as (st2 & A2 & B2 & C2); [intros c Hc'; apply Hl; right; exact Hc'|exact B|]. exists st2. split; [exact A2|]. split; [exact B2|]. intros [X|(c & [<-|X] & Y)]; apply C2; eauto. }
      destruct (Run out 0 st0 (fun c Hc => Hc) eq_refl) as (st & A & _ & C). rewrite check_eq, A. cbn [obind].
      assert (Hr : st_reached st = true).
      { apply C. right. pose proof (e_done _ _ _ _ _ E1 n0 Hn0) as X. apply seen_some in X. destruct X as [q Hq]. destruct (HF n0 Hn0) as (G0 & _ & Hh).
        destruct (i_seen _ _ _ I1 n0 q G0) as (_ & X & fr & c & Y & Z & [U _]); [rewrite Hh; apply pre_refl|exact Hq|]. rewrite Hh in X. cbn in X. rewrite X in Y. injection Y as <-. exists c. split; [eapply nth_error_In; exact Z|]. rewrite U, Hcl. reflexivity. }
      rewrite Hr. eauto.
    - intros s Hs. unfold proof_steps in Hs. apply in_flat_map in Hs. destruct Hs as (c & Hc & Hs). apply (i_good _ _ _ I1 0 out c eq_refl Hc). exact Hs.
  Qed.
End Graph.
