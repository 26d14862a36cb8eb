(** The conversion of a node graph to a list (ast/node.rs:360-448) ends without a panic, if the outbound premises of the subproofs are complete. *)
From Coq Require Import List String ZArith Bool Arith Lia Wf_nat.
From Verif Require Import Base Term Rules Checker CheckerSound Nodes ElabIds ElabSolver ElabSound ElabSolverSound GraphAccept GraphCheck GraphTree GraphWf.
Import ListNotations.
Local Open Scope string_scope.
Local Open Scope nat_scope.
Local Open Scope list_scope.

Lemma kid_all n k : In k (kids n) -> In k (allnodes n).
Proof.
  destruct n as [|a id d cl r ps args ds prev|a l args out extra]; cbn [kids allnodes]; [intros []| |]; intros H; right.
  - rewrite !in_app_iff in *. destruct H as [H|[H|H]]; [left; apply in_flat_map; exists k; split; [exact H|apply all_self]|right; left; apply in_flat_map; exists k; split; [exact H|apply all_self]|].
    destruct prev as [p|]; [|destruct H]. destruct H as [<-|[]]. right. right. apply all_self.
  - rewrite !in_app_iff. destruct H as [<-|H]; [left; apply all_self|]. apply in_app_iff in H. right. destruct H as [H|H]; [left|right]; apply in_flat_map; exists k; (split; [exact H|apply all_self]).
Qed.
Lemma kid_size n k : In k (kids n) -> nsize k < nsize n.
Proof.
  destruct n as [|a id d cl r ps args ds prev|a l args out extra]; cbn [kids nsize]; [intros []| |]; intros H.
  - rewrite !in_app_iff in H. destruct H as [H|[H|H]]; [pose proof (sum_in ps k H); lia|pose proof (sum_in ds k H); lia|]. destruct prev as [p|]; [|destruct H]. destruct H as [<-|[]]. lia.
  - destruct H as [<-|H]; [lia|]. apply in_app_iff in H. destruct H as [H|H]; [pose proof (sum_in out k H); lia|pose proof (sum_in extra k H); lia].
Qed.
Lemma kid_trans n k x : In k (kids n) -> In x (allnodes k) -> In x (allnodes n).
Proof. intros Hk Hx. apply (all_trans n k x); [apply kid_all; exact Hk|exact Hx]. Qed.

(** ** More fuel *)
Lemma tl_more : forall f st out k, tl_run f st = ROk out -> tl_run (f + k) st = ROk out.
Proof.
  induction f as [|f IH]; intros [S seen todo did] out k H; cbn [tl_run t_todo t_stack t_seen t_did Nat.add] in *.
  - destruct todo as [|[n b] r]; [|discriminate]. destruct k; exact H.
  - destruct todo as [|[n b] r]; [exact H|]. apply obind_ok in H. destruct H as (st & Hst & H). rewrite Hst. cbn [obind]. apply IH. exact H.
Qed.
Lemma tl_err : forall f st out k, tl_run (f + k) st = ROk out -> tl_run f st = ROk out \/ tl_run f st = RErr.
Proof.
  induction f as [|f IH]; intros [S seen todo did] out k H; cbn [tl_run t_todo t_stack t_seen t_did Nat.add] in *.
  - destruct todo as [|[n b] r]; [|auto]. left. destruct k; cbn in H; exact H.
  - destruct todo as [|[n b] r]; [auto|]. apply obind_ok in H. destruct H as (st & Hst & H). rewrite Hst. cbn [obind]. eapply IH. exact H.
Qed.

Section Done.
  Variables (table : bool -> string -> option crule) (cfg : config) (prems : list term) (G : pnode -> Prop) (home : nat -> list nat) (an : nat -> list anchor) (R : string -> Prop).
  Notation hm n := (home (paddr n)).
  (** the premises of the nodes of a subproof that are not in the subproof are among the outbound premises *)
  Record complete : Prop := mkComplete {
    c_deps : forall a l args out extra y q, G (PSub a l args out extra) -> G y -> hm y = home a ++ [a] -> In q (deps y) -> hm q = home a ++ [a] \/ In q out;
    c_extra : forall a l args out extra e, G (PSub a l args out extra) -> In e extra -> hm e = home a ++ [a] }.
  (** The nodes [root] come in the order of [rank] in the lists of the nodes of a subproof.  Premises outside of a subproof may then also be such nodes before it. *)
  Variables (root : pnode -> Prop) (rank : pnode -> nat).
  Record ordered : Prop := mkOrdered {
    o_deps : forall a l args out extra y q, G (PSub a l args out extra) -> G y -> hm y = home a ++ [a] -> In q (deps y) ->
      hm q = home a ++ [a] \/ In q out \/ (root q /\ prefix (hm q) (home a) /\ rank q < rank (PSub a l args out extra));
    o_extra : forall a l args out extra e, G (PSub a l args out extra) -> In e extra -> hm e = home a ++ [a];
    o_kids : forall y q, G y -> In q (kids y) -> rank q <= rank y;
    o_order : forall a l args out extra l1 e l2 q, G (PSub a l args out extra) -> extra ++ [l] = l1 ++ e :: l2 -> root q -> G q -> hm q = home a ++ [a] -> rank q < rank e -> In q l1 }.
  Hypothesis W : wfg table cfg prems G home an R.
  Hypothesis C : ordered.
  Definition caught (path : list nat) (seen : list (nat * (nat * nat))) (k : nat) : Prop := forall q, root q -> G q -> prefix (hm q) path -> rank q < k -> In (paddr q) (keys seen).

  Record dinv (path : list nat) (S : list (list command)) (seen : list (nat * (nat * nat))) : Prop := mkD {
    d_len : List.length S = Datatypes.S (List.length path);
    d_open : path = [] \/ exists a l args out extra, G (PSub a l args out extra) /\ path = home a ++ [a];
    d_outs : forall a l args out extra q, G (PSub a l args out extra) -> prefix (home a ++ [a]) path -> In q out -> In (paddr q) (keys seen);
    d_caught : forall a l args out extra q, G (PSub a l args out extra) -> prefix (home a ++ [a]) path -> root q -> G q -> prefix (hm q) (home a) -> rank q < rank (PSub a l args out extra) -> In (paddr q) (keys seen);
    d_homes : homes G home path seen;
    d_plain : forall m, G m -> prefix (hm m) path -> In (paddr m) (keys seen) -> plain_node m = true;
    d_fill : forall m, G m -> prefix (hm m) path -> In (paddr m) (keys seen) -> exists fr c, nth_error S (List.length (hm m)) = Some (fr ++ [c]) }.
  Record dext (T : list pnode) (S : list (list command)) seen did (S' : list (list command)) seen' did' : Prop := mkE {
    x_grows : grows S S';
    x_keys : incl (keys seen) (keys seen');
    x_new : forall x, In x (keys seen') -> In x (keys seen) \/ In x (map paddr (flat_map allnodes T));
    x_did : incl did did';
    x_dnew : forall x, In x did' -> In x did \/ In x (keys seen');
    x_done : forall n, In n T -> In (paddr n) (keys seen') }.
  Definition step_to (st st' : tstate) : Prop := exists c, forall f, tl_run (c + f) st = tl_run f st'.
  Definition place (path : list nat) (seen : list (nat * (nat * nat))) (n : pnode) : Prop :=
    In (paddr n) (keys seen) \/ hm n = path \/ (is_passume n = true /\ prefix (hm n) path).
  Definition fresh_did (did : list nat) seen (T : list pnode) : Prop := forall x, In x did -> In x (map paddr (flat_map allnodes T)) -> In x (keys seen).
  Definition goes (n : pnode) : Prop := forall r S seen did path, dinv path S seen -> G n -> plain_node n = true -> place path seen n -> caught path seen (rank n) -> fresh_did did seen [n] ->
    exists S' seen' did', step_to (mkTS S seen ((n, false) :: r) did) (mkTS S' seen' r did') /\ dinv path S' seen' /\ dext [n] S seen did S' seen' did'.

  Lemma step_refl st : step_to st st. Proof. exists 0. reflexivity. Qed.
  Lemma step_trans a b c : step_to a b -> step_to b c -> step_to a c.
  Proof. intros [x Hx] [y Hy]. exists (x + y). intros f. rewrite <- Nat.add_assoc, Hx, Hy. reflexivity. Qed.
  Lemma step_one S seen n dn r did st : tl_node n dn (mkTS S seen r did) = ROk st -> step_to (mkTS S seen ((n, dn) :: r) did) st.
  Proof. intros H. exists 1. intros f. cbn [Nat.add tl_run t_todo t_stack t_seen t_did]. rewrite H. reflexivity. Qed.
  Lemma dext_refl S seen did : dext [] S seen did S seen did.
  Proof. split; auto using grows_refl, incl_refl. intros n []. Qed.
  Lemma dext_app T1 T2 S0 s0 d0 S1 s1 d1 S2 s2 d2 : dext T1 S0 s0 d0 S1 s1 d1 -> dext T2 S1 s1 d1 S2 s2 d2 -> dext (T1 ++ T2) S0 s0 d0 S2 s2 d2.
  Proof.
    intros [A1 A2 A3 A4 A5 A6] [B1 B2 B3 B4 B5 B6]. split.
    - eapply grows_trans; eauto.
    - eapply incl_tran; eauto.
    - intros x Hx. rewrite flat_map_app, map_app, in_app_iff. destruct (B3 x Hx) as [H|H]; [|auto]. destruct (A3 x H); auto.
    - eapply incl_tran; eauto.
    - intros x Hx. destruct (B5 x Hx) as [H|H]; [|auto]. destruct (A5 x H) as [H'|H']; auto.
    - intros n Hn. apply in_app_iff in Hn. destruct Hn; auto.
  Qed.
  Lemma seg_goes T : (forall n, In n T -> goes n) -> forall r S seen did path, dinv path S seen -> (forall n, In n T -> G n /\ plain_node n = true /\ place path seen n) ->
    (forall l1 n l2 q, T = l1 ++ n :: l2 -> root q -> G q -> prefix (hm q) path -> rank q < rank n -> In (paddr q) (keys seen) \/ In q l1) -> fresh_did did seen T ->
    exists S' seen' did', step_to (mkTS S seen (map (fun p => (p, false)) T ++ r) did) (mkTS S' seen' r did') /\ dinv path S' seen' /\ dext T S seen did S' seen' did'.
  Proof.
    induction T as [|n T IH]; intros HT r S seen did path I HG Hc Hf.
    - exists S, seen, did. split; [apply step_refl|]. split; [exact I|apply dext_refl].
    - destruct (HG n (or_introl eq_refl)) as (G1 & P1 & Q1). destruct (HT n (or_introl eq_refl) (map (fun p => (p, false)) T ++ r) S seen did path I G1 P1 Q1) as (S1 & s1 & d1 & R1 & I1 & E1).
      { intros q Rq Gq Pq Lq. destruct (Hc [] n T q eq_refl Rq Gq Pq Lq) as [H|[]]. exact H. }
      { intros x Hx Hin. apply Hf; [exact Hx|]. cbn [flat_map] in *. rewrite app_nil_r in Hin. rewrite map_app, in_app_iff. auto. }
      destruct (IH (fun m Hm => HT m (or_intror Hm)) r S1 s1 d1 path I1) as (S2 & s2 & d2 & R2 & I2 & E2).
      + intros m Hm. destruct (HG m (or_intror Hm)) as (A & B & D). split; [exact A|]. split; [exact B|]. destruct D as [D|D]; [left; apply (x_keys _ _ _ _ _ _ _ E1); exact D|right; exact D].
      + intros l1 m l2 q E Rq Gq Pq Lq. destruct (Hc (n :: l1) m l2 q ltac:(cbn; rewrite E; reflexivity) Rq Gq Pq Lq) as [H|[<-|H]]; [left; apply (x_keys _ _ _ _ _ _ _ E1); exact H|left; apply (x_done _ _ _ _ _ _ _ E1); left; reflexivity|auto].
      + intros x Hx Hin. destruct (x_dnew _ _ _ _ _ _ _ E1 x Hx) as [H|H]; [|exact H]. apply (x_keys _ _ _ _ _ _ _ E1). apply Hf; [exact H|]. cbn [flat_map]. rewrite map_app, in_app_iff. auto.
      + exists S2, s2, d2. split; [eapply step_trans; eauto|]. split; [exact I2|]. exact (dext_app [n] T _ _ _ _ _ _ _ _ _ E1 E2).
  Qed.
  Lemma push_at_ok (c : command) : forall d S, d < List.length S -> exists S', push_at d c S = ROk S'.
  Proof. induction d as [|d IH]; intros [|x S] H; cbn in H; try lia; cbn [push_at]; [eauto|]. destruct (IH S ltac:(lia)) as [S' ->]. cbn. eauto. Qed.
  Lemma seen_all seen ps : (forall q, In q ps -> In (paddr q) (keys seen)) -> exists ps', omap (fun q => unwrap (seen_get seen q)) ps = ROk ps'.
  Proof.
    induction ps as [|q ps IH]; intros H; [exists []; reflexivity|]. cbn [omap]. destruct (proj1 (seen_some seen q) (H q (or_introl eq_refl))) as [p ->]. cbn [unwrap obind]. destruct (IH (fun x Hx => H x (or_intror Hx))) as [r ->]. cbn. eauto.
  Qed.
  (** a command is added *)
  Lemma emit_goes path S seen n c r did : dinv path S seen -> G n -> plain_node n = true -> prefix (hm n) path ->
    exists S' q, emit n c (mkTS S seen r did) = ROk (mkTS S' ((paddr n, q) :: seen) r did) /\ dinv path S' ((paddr n, q) :: seen) /\ dext [n] S seen did S' ((paddr n, q) :: seen) did.
  Proof.
    intros [I1 I2 I3 Ic I4 I5 I6] Hn Hp Hpre. assert (Hl : pdepth n < List.length S) by (rewrite (w_depth _ _ _ _ _ _ _ W n Hn), I1; apply pre_len in Hpre; lia).
    destruct (push_at_ok c _ _ Hl) as [S' HS]. destruct (push_at_spec _ _ _ _ HS) as (y & Y1 & Y2 & Y3 & Y4). exists S', (pdepth n, List.length y). split.
    - unfold emit. cbn [t_stack t_seen t_todo t_did]. rewrite Y1. cbn [unwrap obind]. rewrite HS. reflexivity.
    - rewrite (w_depth _ _ _ _ _ _ _ W n Hn) in *. split; [split|split].
      + rewrite <- (grows_len _ _ Y3). exact I1.
      + exact I2.
      + intros a l args out extra q H1 H2 H3. right. eapply I3; eauto.
      + intros a l args out extra q H1 H2 H3 H4 H5 H6. right. eapply Ic; eauto.
      + eapply homes_emit; eauto.
      + intros m Hm Hpm [E|Hin]; [|apply I5; auto]. cbn [fst] in E. apply (w_addr _ _ _ _ _ _ _ W) in E; auto. subst m. exact Hp.
      + intros m Hm Hpm [E|Hin].
        * cbn [fst] in E. apply (w_addr _ _ _ _ _ _ _ W) in E; auto. subst m. eauto.
        * destruct (I6 m Hm Hpm Hin) as (fr & c' & Hf). destruct (grows_nth _ _ _ _ Y3 Hf) as (fr' & Hf' & [z Hz]). destruct (@exists_last _ fr') as (u & v & Ev); [rewrite Hz; destruct fr; discriminate|]. exists u, v. rewrite Hf', Ev. reflexivity.
      + exact Y3.
      + intros x Hx. right. exact Hx.
      + intros x [<-|Hx]; [right; cbn [fst flat_map]; rewrite app_nil_r; apply in_map; apply all_self|auto].
      + apply incl_refl.
      + auto.
      + intros m [<-|[]]. left. reflexivity.
  Qed.
  Lemma dinv_open path a S seen l args out extra : dinv path S seen -> G (PSub a l args out extra) -> home a = path -> ~ In a (keys seen) -> (forall q, In q out -> In (paddr q) (keys seen)) -> caught path seen (rank (PSub a l args out extra)) -> dinv (path ++ [a]) (S ++ [[]]) seen.
  Proof.
    intros [I1 I2 I3 Ic I4 I5 I6] Hn Hp Hnew Hout Hca.
    assert (Hno : forall m, G m -> In (paddr m) (keys seen) -> hm m <> path ++ [a]).
    { intros m Gm Hm E. destruct (I4 m a Gm Hm) as [X|X]; [rewrite E; apply in_app_iff; right; left; reflexivity| |exact (Hnew X)]. rewrite <- Hp in X. exact (w_fresh _ _ _ _ _ _ _ W _ Hn X). }
    split.
    - rewrite !app_length, I1. cbn. lia.
    - right. exists a, l, args, out, extra. split; [exact Hn|]. rewrite Hp. reflexivity.
    - intros b l' args' out' extra' q H1 H2 H3. apply pre_snoc in H2. destruct H2 as [H2|H2]; [eapply I3; eauto|]. apply app_inj_tail in H2. destruct H2 as [_ ->].
      assert (E : PSub a l' args' out' extra' = PSub a l args out extra) by (apply (w_addr _ _ _ _ _ _ _ W); auto). injection E as _ _ -> _. apply Hout. exact H3.
    - intros b l' args' out' extra' q H1 H2 H3 H4 H5 H6. apply pre_snoc in H2. destruct H2 as [H2|H2]; [eapply Ic; eauto|]. apply app_inj_tail in H2. destruct H2 as [H2 ->].
      assert (E : PSub a l' args' out' extra' = PSub a l args out extra) by (apply (w_addr _ _ _ _ _ _ _ W); auto). rewrite E in H6. apply Hca; auto. rewrite <- Hp. exact H5.
    - apply homes_open. exact I4.
    - intros m Hm Hpm Hin. apply pre_snoc in Hpm. destruct Hpm as [Hpm|Hpm]; [apply I5; auto|destruct (Hno m Hm Hin Hpm)].
    - intros m Hm Hpm Hin. apply pre_snoc in Hpm. destruct Hpm as [Hpm|Hpm]; [|destruct (Hno m Hm Hin Hpm)]. destruct (I6 m Hm Hpm Hin) as (fr & c & Hf). exists fr, c. rewrite nth_error_app1; [exact Hf|]. apply nth_error_Some. congruence.
  Qed.
  Lemma place_dep path S seen y q : dinv path S seen -> G y -> G q -> hm y = path -> prefix (hm q) path -> In q (deps y) -> place path seen q.
  Proof.
    intros I Hy Gq Hh Hp Hq. destruct (d_open _ _ _ I) as [->|(a & l & args & out & extra & Hs & E)].
    - right. left. apply pre_eq; [exact Hp|]. apply pre_len in Hp. cbn in *. lia.
    - destruct (o_deps C a l args out extra y q Hs Hy) as [H|[H|(Rq & Pq & Lq)]]; [congruence|exact Hq|right; left; congruence| |].
      + left. eapply (d_outs _ _ _ I); [exact Hs| |exact H]. rewrite E. apply pre_refl.
      + left. eapply (d_caught _ _ _ I); [exact Hs| |exact Rq|exact Gq|exact Pq|exact Lq]. rewrite E. apply pre_refl.
  Qed.
  Lemma sub_did did seen T T' : fresh_did did seen T -> incl (flat_map allnodes T') (flat_map allnodes T) -> fresh_did did seen T'.
  Proof. intros H Hi x Hx Hin. apply H; [exact Hx|]. apply in_map_iff in Hin. destruct Hin as (y & <- & Hy). apply in_map. apply Hi. exact Hy. Qed.
  Theorem goes_all n : goes n.
  Proof.
    induction n as [n IH] using (induction_ltof1 _ nsize). unfold ltof in IH. intros r S seen did path I Gn Pn Qn Hca Hf.
    destruct (in_dec Nat.eq_dec (paddr n) (keys seen)) as [Hin|Hnew].
    { exists S, seen, did. split; [apply step_one; unfold tl_node; cbn [t_seen negb andb]; rewrite (proj2 (seen_skip seen n) Hin); reflexivity|]. split; [exact I|]. split; auto using grows_refl, incl_refl. intros m [<-|[]]. exact Hin. }
    pose proof (seen_none _ _ Hnew) as Hnone.
    assert (Qp : prefix (hm n) path) by (destruct Qn as [H|[->|[_ H]]]; [contradiction|apply pre_refl|exact H]).
    destruct n as [a id d t|a id d cl rl ps args ds prev|a l args outb extra].
    - destruct (emit_goes path S seen (PAssume a id d t) (CAssume id t) r did I Gn Pn Qp) as (S' & q & E & I' & X). exists S', ((paddr (PAssume a id d t), q) :: seen), did. split; [|split; [exact I'|exact X]].
      apply step_one. unfold tl_node. cbn [t_seen]. rewrite Hnone. cbn [negb andb]. exact E.
    - destruct prev as [p|]; [discriminate|]. destruct (w_step _ _ _ _ _ _ _ W _ _ _ _ _ _ _ _ Gn) as (-> & Hk & _). destruct Qn as [H|[Hh|[H _]]]; [contradiction| |discriminate].
      set (n := PStep a id d cl rl ps args [] None) in *.
      assert (Gk : forall q, In q ps -> In q (kids n)) by (intros q Hq; cbn [n kids]; apply in_app_iff; auto).
      assert (Gq : forall q, In q ps -> G q) by (intros q Hq; eapply (w_all _ _ _ _ _ _ _ W); [exact Gn|apply kid_all; auto]).
      destruct (seg_goes ps (fun q Hq => IH q (kid_size n q (Gk q Hq))) ((n, true) :: r) S seen did path I) as (S1 & s1 & d1 & R1 & I1 & E1).
      { intros q Hq. split; [auto|]. split; [apply Hk; exact Hq|]. apply (place_dep path S seen n q); auto. rewrite <- Hh. apply Hk. exact Hq. }
      { intros l1 q l2 m E Rm Gm Pm Lm. left. apply Hca; auto. assert (Hq : In q ps) by (rewrite E; apply in_app_iff; right; left; reflexivity). pose proof (o_kids C n q Gn (Gk q Hq)). lia. }
      { eapply sub_did; [exact Hf|]. intros x Hx. cbn [flat_map]. rewrite app_nil_r. apply in_flat_map in Hx. destruct Hx as (q & Hq & Hx). apply (kid_trans n q x); auto. }
      destruct (seen_all s1 ps (x_done _ _ _ _ _ _ _ E1)) as [ps' Hps].
      destruct (emit_goes path S1 s1 n (CStep (mkStep id cl rl ps' args [])) r d1 I1 Gn Pn Qp) as (S' & q & E & I' & X). exists S', ((paddr n, q) :: s1), d1. split; [|split; [exact I'|]].
      + eapply step_trans; [apply step_one; unfold n, tl_node; cbn [t_seen]; fold n; rewrite Hnone; cbn [negb andb t_stack t_seen t_todo t_did app]; rewrite app_nil_r; reflexivity|].
        eapply step_trans; [exact R1|]. apply step_one. unfold n, tl_node. cbn [negb andb t_seen]. rewrite Hps. cbn [obind omap]. fold n. exact E.
      + pose proof (dext_app _ _ _ _ _ _ _ _ _ _ _ E1 X) as [A1 A2 A3 A4 A5 A6]. split; auto.
        * intros x Hx. destruct (A3 x Hx) as [H|H]; [auto|]. right. apply in_map_iff in H. destruct H as (y & <- & Hy). apply in_map. rewrite flat_map_app in Hy. apply in_app_iff in Hy. destruct Hy as [Hy|Hy]; [|exact Hy].
          apply in_flat_map in Hy. destruct Hy as (z & Hz & Hy). cbn [flat_map]. rewrite app_nil_r. apply (kid_trans n z y); auto.
        * intros m [<-|[]]. apply A6. apply in_app_iff. right. left. reflexivity.
    - destruct Qn as [H|[Hh|[H _]]]; [contradiction| |discriminate]. set (n := PSub a l args outb extra) in *. change (paddr n) with a in *.
      destruct (w_sub _ _ _ _ _ _ _ W _ _ _ _ _ Gn) as (_ & Hout & Hextra & al & id & d & cl & rl & ps & sargs & ds & p & El & Hal' & Hpl & Hph & Hpsk & Hdsk & _ & _ & _ & _).
      assert (Kn : forall q, In q (kids n) -> G q /\ nsize q < nsize n /\ incl (allnodes q) (allnodes n)).
      { intros q Hq. split; [eapply (w_all _ _ _ _ _ _ _ W); [exact Gn|apply kid_all; exact Hq]|]. split; [apply kid_size; exact Hq|]. intros x Hx. apply (kid_trans n q x); auto. }
      assert (Gl : G l) by (apply Kn; left; reflexivity).
      assert (Kl : forall q, In q (kids l) -> G q /\ nsize q < nsize n /\ incl (allnodes q) (allnodes n)).
      { intros q Hq. destruct (Kn l (or_introl eq_refl)) as (_ & L & Hi). split; [eapply (w_all _ _ _ _ _ _ _ W); [exact Gl|apply kid_all; exact Hq]|]. split; [pose proof (kid_size l q Hq); lia|]. intros x Hx. apply Hi. apply (kid_trans l q x); auto. }
      assert (Ko : forall q, In q outb -> In q (kids n)) by (intros q Hq; cbn [n kids]; right; apply in_app_iff; auto).
      assert (Ke : forall q, In q extra -> In q (kids n)) by (intros q Hq; cbn [n kids]; right; apply in_app_iff; auto).
      assert (Hdid : ~ In a did) by (intros H; apply Hnew; apply Hf; [exact H|]; cbn [flat_map]; rewrite app_nil_r; change a with (paddr n); apply in_map; apply all_self).
      assert (Hfk : forall T, (forall q, In q T -> G q /\ nsize q < nsize n /\ incl (allnodes q) (allnodes n)) -> ~ In a (map paddr (flat_map allnodes T)) /\ incl (flat_map allnodes T) (flat_map allnodes [n])).
      { intros T HT. split; [change a with (paddr n); eapply acyclic; [exact W|exact Gn|]; intros q Hq; destruct (HT q Hq) as (_ & L & Hi); split; [apply Hi; apply all_self|exact L]|].
        intros x Hx. apply in_flat_map in Hx. destruct Hx as (q & Hq & Hx). cbn [flat_map]. rewrite app_nil_r. destruct (HT q Hq) as (_ & _ & Hi). apply Hi. exact Hx. }
      (* the outbound premises *)
      destruct (Hfk (rev outb)) as [F1 F1']; [intros q Hq; apply Kn, Ko, in_rev; exact Hq|].
      destruct (seg_goes (rev outb) ltac:(intros q Hq; apply IH; apply Kn, Ko, in_rev; exact Hq) ((n, false) :: r) S seen (a :: did) path I) as (S1 & s1 & d1 & R1 & I1 & E1).
      { intros q Hq. apply in_rev in Hq. destruct (Hout q Hq) as [A B]. split; [apply Kn; auto|]. split; [exact A|]. apply (place_dep path S seen n q); auto; [apply Kn; auto|]. rewrite <- Hh. exact B. }
      { intros l1 q l2 m E Rm Gm Pm Lm. left. apply Hca; auto. assert (Hq : In q outb) by (apply in_rev; rewrite E; apply in_app_iff; right; left; reflexivity). pose proof (o_kids C n q Gn (Ko q Hq)). lia. }
      { intros x [<-|Hx] Hin; [contradiction|]. eapply (sub_did did seen [n] (rev outb)); eauto. }
      assert (Hn1 : ~ In a (keys s1)) by (intros H; destruct (x_new _ _ _ _ _ _ _ E1 _ H); contradiction).
      assert (Ho1 : forall q, In q outb -> In (paddr q) (keys s1)) by (intros q Hq; apply (x_done _ _ _ _ _ _ _ E1); apply in_rev in Hq; exact Hq).
      assert (Ha1 : In a d1) by (apply (x_did _ _ _ _ _ _ _ E1); left; reflexivity).
      assert (Hd1 : forall x, In x d1 -> x = a \/ In x did \/ In x (keys s1)) by (intros x Hx; destruct (x_dnew _ _ _ _ _ _ _ E1 x Hx) as [[<-|H]|H]; auto).
      assert (Hca1 : caught path s1 (rank n)) by (intros q Rq Gq Pq Lq; apply (x_keys _ _ _ _ _ _ _ E1); apply Hca; assumption).
      pose proof (dinv_open path a S1 s1 l args outb extra I1 Gn Hh Hn1 Ho1 Hca1) as I1'.
      assert (Hin_seg : forall l1 e l2 q, extra ++ [l] = l1 ++ e :: l2 -> root q -> G q -> prefix (hm q) (path ++ [a]) -> rank q < rank e -> In (paddr q) (keys s1) \/ In q l1).
      { intros l1 e l2 q E Rq Gq Pq Lq. apply pre_snoc in Pq. destruct Pq as [Pq|Pq]; [left; apply Hca1; auto; assert (Hke : In e (kids n)); [|pose proof (o_kids C n e Gn Hke); lia]|right; eapply (o_order C); [exact Gn|exact E|exact Rq|exact Gq|rewrite Hh; exact Pq|exact Lq]].
        assert (He : In e (extra ++ [l])) by (rewrite E; apply in_app_iff; right; left; reflexivity). apply in_app_iff in He. destruct He as [He|[<-|[]]]; [apply Ke; exact He|left; reflexivity]. }
      (* the nodes of the subproof *)
      assert (Fd : forall T did' seen', (forall q, In q T -> G q /\ nsize q < nsize n /\ incl (allnodes q) (allnodes n)) -> incl (keys s1) (keys seen') -> (forall x, In x did' -> In x d1 \/ In x (keys seen')) -> fresh_did did' seen' T).
      { intros T did' seen' HT Hk Hd x Hx Hin. destruct (Hfk T HT) as [X1 X2]. destruct (Hd x Hx) as [H|H]; [|exact H]. apply Hk. destruct (Hd1 x H) as [->|[H'|H']]; [contradiction| |exact H'].
        apply (x_keys _ _ _ _ _ _ _ E1). apply Hf; [exact H'|]. apply in_map_iff in Hin. destruct Hin as (y & <- & Hy). apply in_map. apply X2. exact Hy. }
      destruct (seg_goes extra ltac:(intros q Hq; apply IH; apply Kn, Ke; exact Hq) ((l, false) :: (n, true) :: r) (S1 ++ [[]]) s1 d1 (path ++ [a]) I1') as (S2 & s2 & d2 & R2 & I2 & E2).
      { intros q Hq. split; [apply Kn; auto|]. split; [apply Hextra; exact Hq|]. right. left. rewrite (o_extra C _ _ _ _ _ q Gn Hq), Hh. reflexivity. }
      { intros l1 e l2 q E. apply (Hin_seg l1 e (l2 ++ [l])). rewrite E, <- app_assoc. reflexivity. }
      { apply Fd; [intros q Hq; apply Kn; auto|apply incl_refl|auto]. }
      assert (Hl2 : hm l = path ++ [a]) by (rewrite El; cbn [paddr]; rewrite Hal', Hh; reflexivity).
      assert (Hln : ~ In (paddr l) (keys s2)) by (intros H; apply (d_plain _ _ _ I2) in H; [rewrite El in H; discriminate|exact Gl|rewrite Hl2; apply pre_refl]).
      destruct (seg_goes (ps ++ ds ++ [p]) ltac:(intros q Hq; apply IH; apply Kl; rewrite El; exact Hq) ((l, true) :: (n, true) :: r) S2 s2 d2 (path ++ [a]) I2) as (S3 & s3 & d3 & R3 & I3 & E3).
      { intros q Hq. split; [apply Kl; rewrite El; exact Hq|]. assert (Gq : G q) by (apply Kl; rewrite El; exact Hq). rewrite !in_app_iff in Hq. rewrite <- Hh. destruct Hq as [Hq|[Hq|[<-|[]]]].
        - destruct (Hpsk q Hq) as [A B]. split; [exact A|]. apply (place_dep (home a ++ [a]) S2 s2 l q); auto; [rewrite Hh; exact I2|rewrite Hl2, Hh; reflexivity|rewrite El; exact Hq].
        - destruct (Hdsk q Hq) as [A B]. split; [destruct q; [reflexivity|discriminate|discriminate]|]. right. right. auto.
        - split; [exact Hpl|]. right. left. exact Hph. }
      { intros l1 q l2 m E Rm Gm Pm Lm. left. assert (Hq : In q (kids l)) by (rewrite El; cbn [kids]; rewrite E; apply in_app_iff; right; left; reflexivity). pose proof (o_kids C l q Gl Hq).
        destruct (Hin_seg extra l [] m eq_refl Rm Gm Pm ltac:(lia)) as [X|X]; [apply (x_keys _ _ _ _ _ _ _ E2); exact X|apply (x_done _ _ _ _ _ _ _ E2); exact X]. }
      { apply Fd; [intros q Hq; apply Kl; rewrite El; exact Hq|apply (x_keys _ _ _ _ _ _ _ E2)|]. apply (x_dnew _ _ _ _ _ _ _ E2). }
      destruct (seen_all s3 ps ltac:(intros q Hq; apply (x_done _ _ _ _ _ _ _ E3); rewrite !in_app_iff; auto)) as [ps' Hps].
      destruct (seen_all s3 ds ltac:(intros q Hq; apply (x_done _ _ _ _ _ _ _ E3); rewrite !in_app_iff; auto)) as [ds' Hds].
      (* the end of the subproof *)
      pose proof (d_len _ _ _ I3) as HL. rewrite app_length in HL. cbn in HL.
      destruct (@exists_last _ S3) as (outer & init & ES3); [intros E0; rewrite E0 in HL; discriminate|]. rewrite ES3 in HL. rewrite app_length in HL. cbn in HL.
      assert (HLo : List.length outer = Datatypes.S (List.length path)) by lia.
      destruct (d_fill _ _ _ I3 p) as (i0 & c0 & Hi); [apply Kl; rewrite El; cbn [kids]; rewrite !in_app_iff; right; right; left; reflexivity|rewrite Hph, Hh; apply pre_refl|apply (x_done _ _ _ _ _ _ _ E3); rewrite !in_app_iff; right; right; left; reflexivity|].
      rewrite Hph, Hh, app_length in Hi. cbn in Hi. rewrite ES3, nth_error_app2 in Hi by lia. replace (List.length path + 1 - List.length outer) with 0 in Hi by lia. cbn in Hi. injection Hi as Hi.
      set (c := CStep (mkStep id cl rl ps' sargs ds')).
      assert (Em : emit l c (mkTS S3 s3 ((n, true) :: r) d3) = ROk (mkTS (outer ++ [init ++ [c]]) ((paddr l, (pdepth l, List.length init)) :: s3) ((n, true) :: r) d3)).
      { unfold emit. cbn [t_stack t_seen t_todo t_did]. assert (Hdl : pdepth l = List.length outer) by (rewrite (w_depth _ _ _ _ _ _ _ W l Gl), Hl2, app_length; cbn; lia). rewrite Hdl, ES3. rewrite nth_error_app2, Nat.sub_diag by lia. cbn [nth_error unwrap obind]. rewrite push_at_last. reflexivity. }
      set (s4 := (paddr l, (pdepth l, List.length init)) :: s3).
      assert (Hn3 : ~ In a (keys s3)).
      { intros H. destruct (x_new _ _ _ _ _ _ _ E3 _ H) as [H'|H']; [|refine (proj1 (Hfk _ _) H'); intros q Hq; apply Kl; rewrite El; exact Hq]. destruct (x_new _ _ _ _ _ _ _ E2 _ H') as [H''|H'']; [contradiction|]. refine (proj1 (Hfk _ _) H''). intros q Hq. apply Kn. auto. }
      assert (Gr1 : grows S1 outer).
      { pose proof (grows_trans _ _ _ (x_grows _ _ _ _ _ _ _ E2) (x_grows _ _ _ _ _ _ _ E3)) as X. apply (grows_firstn (List.length outer)) in X. rewrite ES3 in X. rewrite (firstn_app_le _ outer) in X by lia. rewrite (firstn_all2 outer) in X by lia.
        pose proof (d_len _ _ _ I1). rewrite (firstn_app_le _ S1) in X by lia. rewrite (firstn_all2 S1) in X by lia. exact X. }
      assert (K13 : incl (keys s1) (keys s3)) by (eapply incl_tran; [apply (x_keys _ _ _ _ _ _ _ E2)|apply (x_keys _ _ _ _ _ _ _ E3)]).
      assert (Pl : forall m, G m -> prefix (hm m) path -> paddr l <> paddr m) by (intros m Gm Hp E; apply (w_addr _ _ _ _ _ _ _ W) in E; auto; subst m; rewrite Hl2 in Hp; apply pre_len in Hp; rewrite app_length in Hp; cbn in Hp; lia).
      (* as if the subproof had been emitted *)
      assert (Hl3 : pdepth n < List.length outer) by (rewrite (w_depth _ _ _ _ _ _ _ W n Gn); change (paddr n) with a; rewrite Hh; lia).
      destruct (push_at_ok (CSub (init ++ [c]) args 0) _ _ Hl3) as [S' HS]. destruct (push_at_spec _ _ _ _ HS) as (y & Y1 & Y2 & Y3 & Y4). set (s5 := (a, (pdepth n, List.length y)) :: s4).
      assert (Hdn : pdepth n = List.length path) by (rewrite (w_depth _ _ _ _ _ _ _ W n Gn); change (paddr n) with a; rewrite Hh; reflexivity).
      assert (Em2 : tl_node n true (mkTS (outer ++ [init ++ [c]]) s4 r d3) = ROk (mkTS S' s5 r d3)).
      { unfold n at 1. cbn [tl_node negb andb t_stack]. rewrite rev_app_distr. cbn [rev app]. rewrite rev_length. destruct (Nat.eqb_spec (List.length outer) 0); [lia|]. rewrite Hi, !app_length. cbn [List.length].
        destruct (Nat.ltb_spec (List.length i0 + 1 + 1) 2); [lia|]. rewrite rev_involutive. cbn [t_seen t_todo t_did]. fold n. unfold emit. cbn [t_stack t_seen t_todo t_did]. rewrite Y1. cbn [unwrap obind]. rewrite <- Hi, HS. reflexivity. }
      exists S', s5, d3. split; [|split].
      + eapply step_trans; [apply step_one; unfold n, tl_node; cbn [t_seen]; fold n; rewrite Hnone; cbn [negb andb t_stack t_seen t_todo t_did]; rewrite (d_len _ _ _ I), Hdn; cbn [Nat.sub]; rewrite Nat.sub_0_r, Nat.eqb_refl; cbn [negb];
          replace (memb Nat.eqb a did) with false by (symmetry; destruct (memb Nat.eqb a did) eqn:Em'; [apply (memb_In Nat.eqb Nat.eqb_eq) in Em'; contradiction|reflexivity]); fold n; reflexivity|].
        eapply step_trans; [exact R1|].
        eapply step_trans; [apply step_one; unfold n, tl_node; cbn [t_seen]; fold n; rewrite (seen_none s1 n Hn1); cbn [negb andb t_stack t_seen t_todo t_did]; rewrite (d_len _ _ _ I1), Hdn; cbn [Nat.sub]; rewrite Nat.sub_0_r, Nat.eqb_refl; cbn [negb];
          rewrite (proj2 (memb_In Nat.eqb Nat.eqb_eq a d1) Ha1); rewrite map_app, <- app_assoc; cbn [map app]; fold n; reflexivity|].
        eapply step_trans; [exact R2|].
        eapply step_trans; [apply step_one; unfold tl_node; cbn [t_seen]; rewrite (seen_none s2 l Hln); rewrite El; cbn [negb andb t_stack t_seen t_todo t_did app]; rewrite <- El; reflexivity|].
        replace (map (fun q => (q, false)) (ps ++ ds) ++ (p, false) :: (l, true) :: (n, true) :: r) with (map (fun q => (q, false)) (ps ++ ds ++ [p]) ++ (l, true) :: (n, true) :: r) by (rewrite app_assoc, (map_app _ (ps ++ ds)), <- app_assoc; reflexivity).
        eapply step_trans; [exact R3|]. eapply step_trans; [|apply step_one; exact Em2].
        apply step_one. rewrite El. cbn [tl_node negb andb t_seen]. rewrite Hps. cbn [obind]. rewrite Hds. cbn [obind]. rewrite <- El. exact Em.
      + destruct I1 as [J1 J2 J3 Jc J4 J5 J6], I3 as [L1 L2 L3 Lc L4 L5 L6]. split.
        * rewrite <- (grows_len _ _ Y3). exact HLo.
        * exact J2.
        * intros a' l' args' out' extra' q H1 H2 H3. right. right. apply K13. eapply J3; eauto.
        * intros a' l' args' out' extra' q H1 H2 H3 H4 H5 H6. right. right. apply K13. eapply Jc; eauto.
        * intros m b Hm Hin Hb. destruct Hin as [E|[E|Hin]].
          -- cbn [fst] in E. change a with (paddr n) in E. apply (w_addr _ _ _ _ _ _ _ W) in E; auto. subst m. left. change (paddr n) with a in Hb. rewrite Hh in Hb. exact Hb.
          -- cbn [fst] in E. apply (w_addr _ _ _ _ _ _ _ W) in E; auto. subst m. rewrite Hl2 in Hb. apply in_app_iff in Hb. destruct Hb as [Hb|[<-|[]]]; [left; exact Hb|right; left; reflexivity].
          -- destruct (L4 m b Hm Hin Hb) as [X|X]; [|right; right; right; exact X]. apply in_app_iff in X. destruct X as [X|[<-|[]]]; [left; exact X|right; left; reflexivity].
        * intros m Hm Hp [E|[E|Hin]].
          -- cbn [fst] in E. change a with (paddr n) in E. apply (w_addr _ _ _ _ _ _ _ W) in E; auto. subst m. reflexivity.
          -- cbn [fst] in E. destruct (Pl m Hm Hp E).
          -- apply L5; auto. eapply pre_trans; [exact Hp|apply pre_app].
        * intros m Hm Hp [E|[E|Hin]].
          -- cbn [fst] in E. change a with (paddr n) in E. apply (w_addr _ _ _ _ _ _ _ W) in E; auto. subst m. change (paddr n) with a. rewrite Hh, <- Hdn. eauto.
          -- cbn [fst] in E. destruct (Pl m Hm Hp E).
          -- destruct (L6 m Hm) as (fr & c' & Hfr); [eapply pre_trans; [exact Hp|apply pre_app]|exact Hin|]. rewrite ES3, nth_error_app1 in Hfr by (apply pre_len in Hp; lia).
             destruct (grows_nth _ _ _ _ Y3 Hfr) as (fr' & Hf' & [z Hz]). destruct (@exists_last _ fr') as (u & v & Ev); [rewrite Hz; destruct fr; discriminate|]. exists u, v. rewrite Hf', Ev. reflexivity.
      + split.
        * eapply grows_trans; [apply (x_grows _ _ _ _ _ _ _ E1)|]. eapply grows_trans; eauto.
        * intros x Hx. right. right. apply K13. apply (x_keys _ _ _ _ _ _ _ E1). exact Hx.
        * assert (Sub : forall T x, (forall q, In q T -> G q /\ nsize q < nsize n /\ incl (allnodes q) (allnodes n)) -> In x (map paddr (flat_map allnodes T)) -> In x (map paddr (flat_map allnodes [n]))).
          { intros T x HT Hx. apply in_map_iff in Hx. destruct Hx as (z & <- & Hz). apply in_map. apply (proj2 (Hfk T HT)). exact Hz. }
          intros x [<-|[<-|Hx]].
          -- right. cbn [fst flat_map]. rewrite app_nil_r. change a with (paddr n). apply in_map. apply all_self.
          -- right. cbn [fst flat_map]. rewrite app_nil_r. apply in_map. apply kid_all. left. reflexivity.
          -- destruct (x_new _ _ _ _ _ _ _ E3 x Hx) as [H|H]; [|right; eapply Sub; [|exact H]; intros q Hq; apply Kl; rewrite El; exact Hq].
             destruct (x_new _ _ _ _ _ _ _ E2 x H) as [H'|H']; [|right; eapply Sub; [|exact H']; intros q Hq; apply Kn; auto].
             destruct (x_new _ _ _ _ _ _ _ E1 x H') as [H''|H'']; [auto|]. right. eapply Sub; [|exact H'']. intros q Hq. apply Kn, Ko, in_rev. exact Hq.
        * intros x Hx. apply (x_did _ _ _ _ _ _ _ E3). apply (x_did _ _ _ _ _ _ _ E2). apply (x_did _ _ _ _ _ _ _ E1). right. exact Hx.
        * intros x Hx. destruct (x_dnew _ _ _ _ _ _ _ E3 x Hx) as [H|H]; [|right; right; right; exact H]. destruct (x_dnew _ _ _ _ _ _ _ E2 x H) as [H'|H']; [|right; right; right; apply (x_keys _ _ _ _ _ _ _ E3); exact H'].
          destruct (Hd1 x H') as [->|[H''|H'']]; [right; left; reflexivity|auto|right; right; right; apply K13; exact H''].
        * intros m [<-|[]]. left. reflexivity.
  Qed.
  (** the conversion ends, with enough fuel *)
  Theorem ordered_done forest : (forall n, In n forest -> G n /\ plain_node n = true /\ hm n = []) ->
    (forall l1 n l2 q, forest = l1 ++ n :: l2 -> root q -> G q -> hm q = [] -> rank q < rank n -> In q l1) -> exists fuel out, to_list fuel forest = ROk out.
  Proof.
    intros HF HO. assert (I0 : dinv [] [[]] []).
    { split; [reflexivity|left; reflexivity| | |intros n a _ []| |].
      - intros a l args out extra q _ Hp. apply pre_len in Hp. rewrite app_length in Hp. cbn in Hp. lia.
      - intros a l args out extra q _ Hp. apply pre_len in Hp. rewrite app_length in Hp. cbn in Hp. lia.
      - intros m _ _ [].
      - intros m _ _ []. }
    destruct (seg_goes forest (fun n _ => goes_all n) [] [[]] [] [] [] I0) as (S' & seen & did & [k Hk] & I & _).
    - intros n Hn. destruct (HF n Hn) as (A & B & D). split; [exact A|]. split; [exact B|]. right. left. exact D.
    - intros l1 n l2 q E Rq Gq Pq Lq. right. eapply HO; eauto. apply pre_len in Pq. cbn in Pq. destruct (hm q); [reflexivity|cbn in Pq; lia].
    - intros x [].
    - exists k. pose proof (d_len _ _ _ I) as HL. destruct S' as [|o [|y z]]; [discriminate| |discriminate]. exists o. specialize (Hk 0). rewrite app_nil_r, Nat.add_0_r in Hk. unfold to_list. rewrite Hk. reflexivity.
  Qed.
End Done.
Theorem graph_done table cfg prems G home an R : wfg table cfg prems G home an R -> complete G home ->
  forall forest, (forall n, In n forest -> G n /\ plain_node n = true /\ home (paddr n) = []) -> exists fuel out, to_list fuel forest = ROk out.
Proof.
  intros W C forest HF. apply (ordered_done table cfg prems G home an R (fun _ => False) (fun _ => 0) W); [|exact HF|intros ? ? ? ? _ []]. split.
  - intros a l args out extra y q Hs Hy Hh Hq. destruct (c_deps _ _ C _ _ _ _ _ _ _ Hs Hy Hh Hq); auto.
  - intros a l args out extra e Hs He. exact (c_extra _ _ C _ _ _ _ _ _ Hs He).
  - intros. lia.
  - intros ? ? ? ? ? ? ? ? ? ? ? [].
Qed.

(** ** The graph of a proof *)
Theorem forest_complete forest : soks [] [] forest -> NoDup (map paddr (flat_map tree forest)) -> complete (fnode forest) (fhome forest).
Proof.
  intros Hs Hnd. split.
  - intros a l args out extra y q Hn Hy Hh Hq. destruct (a_step _ _ (forest_facts _ Hs Hnd _ Hn)) as (_ & S2 & S3 & al & id & d & cl & r & ps & sargs & ds & p & e & El & Ehl & Ee & _ & Hlq).
    destruct (a_parent _ _ (forest_facts _ Hs Hnd _ Hy)) as [[E _]|(a' & l' & args' & out' & extra' & Hn' & E & Hin)]; [rewrite E in Hh; symmetry in Hh; apply app_eq_nil in Hh; destruct Hh; discriminate|].
    rewrite Hh in E. apply app_inj_tail in E. destruct E as [_ <-]. assert (E : PSub a l' args' out' extra' = PSub a l args out extra) by (apply (forest_addr forest Hnd); auto). injection E as -> _ -> ->.
    assert (Hk : In q (kids y)) by (destruct y; cbn [deps kids] in *; [auto| |]; [apply in_app_iff; auto|right; apply in_app_iff; auto]). destruct (a_kids _ _ (forest_facts _ Hs Hnd _ Hy) q Hk) as [Gq _].
    assert (Hy' : In y (extra ++ [l])) by (apply in_app_iff; destruct Hin as [<-|Hin]; [right; left; reflexivity|auto]).
    assert (Hpre : prefix (fhome forest (paddr q)) (fhome forest a ++ [a])).
    { rewrite <- Hh. destruct y as [ay idy dy ty|ay idy dy cly ry psy argsy dsy prevy|ay ly argsy outy extray]; [destruct Hq| |].
      - destruct prevy as [py|].
        + assert (Ey : l = PStep ay idy dy cly ry psy argsy dsy (Some py)) by (destruct Hin as [Ey|Hin]; [exact Ey|]; destruct (S2 _ Hin) as [X _]; discriminate). rewrite El in Ey. injection Ey as -> -> -> -> -> -> -> ->.
          destruct (Hlq q) as [_ [X|X]]; [apply in_app_iff; auto| |]; rewrite Hh; [eapply pre_trans; [exact X|apply pre_app]|rewrite (proj2 (S2 q X)); apply pre_refl].
        + apply (a_step _ _ (forest_facts _ Hs Hnd _ Hy)). apply in_app_iff. left. exact Hq.
      - destruct (a_step _ _ (forest_facts _ Hs Hnd _ Hy)) as (So & _). apply (So q Hq). }
    apply pre_snoc in Hpre. destruct Hpre as [Hpre|Hpre]; [|left; exact Hpre]. right. apply (S3 y q Hy' Hq). rewrite (a_depth _ _ (forest_facts _ Hs Hnd _ Gq)). apply pre_len. exact Hpre.
  - intros a l args out extra e Hn He. destruct (a_step _ _ (forest_facts _ Hs Hnd _ Hn)) as (_ & S2 & _). apply S2. exact He.
Qed.
