(** The graph representation of proofs and the conversions between lists of commands and graphs, ast/node.rs. *)
From Coq Require Import List String ZArith Bool Arith Lia.
From Verif Require Import Base Term Rules Checker CheckerSound Parser ParserSound.
Import ListNotations.
Local Open Scope list_scope.

(** node.rs:13-26, 194-241: an [Rc<ProofNode>], with its address: nodes are compared by address (node.rs:109-114,
    ast/rc.rs:42-46). *)
Inductive pnode : Type :=
| PAssume (a : nat) (id : string) (depth : nat) (t : term)
| PStep (a : nat) (id : string) (depth : nat) (cl : clause) (rule : string)
    (prems : list pnode) (args : list term) (disch : list pnode) (prev : option pnode)
| PSub (a : nat) (last_step : pnode) (args : list anchor) (outbound extra : list pnode).
Definition paddr (n : pnode) : nat :=
  match n with PAssume a _ _ _ => a | PStep a _ _ _ _ _ _ _ _ => a | PSub a _ _ _ _ => a end.
(** node.rs:42-48 *)
Fixpoint pdepth (n : pnode) : nat :=
  match n with PAssume _ _ d _ => d | PStep _ _ d _ _ _ _ _ _ => d | PSub _ l _ _ _ => pdepth l - 1 end.
(** node.rs:55-61 *)
Fixpoint pclause (n : pnode) : clause :=
  match n with PAssume _ _ _ t => [t] | PStep _ _ _ cl _ _ _ _ _ => cl | PSub _ l _ _ _ => pclause l end.

(** ** From commands to nodes, node.rs:257-357 *)
(** node.rs:260-265 [Frame]; the remaining commands are those of the recursion *)
Record nframe : Type := mkNF { nf_acc : list pnode; nf_out : list pnode }.
(** [IndexSet::insert] *)
Definition nset_insert (l : list pnode) (p : pnode) : list pnode :=
  if memb Nat.eqb (paddr p) (map paddr l) then l else l ++ [p].
(** node.rs:292-297 and 335-340: keep the premises outside of the frame of depth [d] *)
Definition outbound (d : nat) (l ps : list pnode) : list pnode :=
  fold_left nset_insert (filter (fun p => Nat.ltb (pdepth p) d) ps) l.
(** node.rs:284, 289 *)
Definition fetch (stk : list nframe) (p : nat * nat) : outcome pnode :=
  do f <- unwrap (nth_error stk (fst p)) ; unwrap (nth_error (nf_acc f) (snd p)).
(** node.rs:274-354, by recursion on the commands instead of an explicit stack. [outer] are the enclosing frames,
    outermost first, [cur] is the current one, [k] the next address, [is_last] tells that no command of the frame
    remains. *)
Fixpoint node_cmd (c : command) (is_last : bool) (k : nat) (outer : list nframe) (cur : nframe) {struct c} : outcome (nat * nframe) :=
  match c with
  | CAssume id t => ROk (S k, mkNF (nf_acc cur ++ [PAssume k id (List.length outer) t]) (nf_out cur))
  | CStep s =>
      do ps <- omap (fetch (outer ++ [cur])) (s_prems s) ;
      do ds <- omap (fetch (outer ++ [cur])) (s_disch s) ;
      do prev <- (if Nat.ltb 0 (List.length outer) && is_last
                  then do p <- unwrap (nth_error (nf_acc cur) (List.length (nf_acc cur) - 1)) ; ROk (Some p)
                  else ROk None) ;
      ROk (S k, mkNF (nf_acc cur ++ [PStep k (s_id s) (List.length outer) (s_clause s) (s_rule s) ps (s_args s) ds prev])
                     (outbound (List.length outer) (nf_out cur) ps))
  | CSub cs args _ =>
      do kf <- (fix go (cs : list command) (k : nat) (fr : nframe) {struct cs} : outcome (nat * nframe) :=
                  match cs with
                  | [] => ROk (k, fr)
                  | x :: r => do kf <- node_cmd x (match r with [] => true | _ => false end) k (outer ++ [cur]) fr ; go r (fst kf) (snd kf)
                  end) cs k (mkNF [] []) ;
      do l <- unwrap (nth_error (nf_acc (snd kf)) (List.length (nf_acc (snd kf)) - 1)) ;
      ROk (S (fst kf), mkNF (nf_acc cur ++ [PSub (fst kf) l args (nf_out (snd kf)) (removelast (nf_acc (snd kf)))])
                            (outbound (List.length outer) (nf_out cur) (nf_out (snd kf))))
  end.
Fixpoint node_list (cs : list command) (k : nat) (outer : list nframe) (fr : nframe) : outcome (nat * nframe) :=
  match cs with
  | [] => ROk (k, fr)
  | x :: r => do kf <- node_cmd x (match r with [] => true | _ => false end) k outer fr ; node_list r (fst kf) outer (snd kf)
  end.
Definition to_nodes (proof : list command) : outcome (list pnode) :=
  do kf <- node_list proof 0 [] (mkNF [] []) ; ROk (nf_acc (snd kf)).

(** ** From nodes to commands, node.rs:360-447 *)
Record tstate : Type := mkTS {
  t_stack : list (list command);          (* outermost first *)
  t_seen : list (nat * (nat * nat));
  t_todo : list (pnode * bool);           (* top first *)
  t_did : list nat }.
Definition seen_get (m : list (nat * (nat * nat))) (n : pnode) : option (nat * nat) :=
  match find (fun e => Nat.eqb (fst e) (paddr n)) m with Some e => Some (snd e) | None => None end.
Fixpoint push_at {A} (d : nat) (x : A) (l : list (list A)) : outcome (list (list A)) :=
  match l, d with
  | [], _ => RPanic
  | y :: r, 0 => ROk ((y ++ [x]) :: r)
  | y :: r, S d => do r' <- push_at d x r ; ROk (y :: r')
  end.
(** node.rs:440-445 *)
Definition emit (n : pnode) (c : command) (st : tstate) : outcome tstate :=
  do l <- unwrap (nth_error (t_stack st) (pdepth n)) ;
  do stk <- push_at (pdepth n) c (t_stack st) ;
  ROk (mkTS stk ((paddr n, (pdepth n, List.length l)) :: t_seen st) (t_todo st) (t_did st)).
(** one iteration of the loop for a node taken from [todo], node.rs:375-445 *)
Definition tl_node (n : pnode) (done : bool) (st : tstate) : outcome tstate :=
  if negb done && match seen_get (t_seen st) n with Some _ => true | None => false end then ROk st
  else match n with
  | PAssume _ id _ t => emit n (CAssume id t) st
  | PStep _ id _ cl rule ps args ds prev =>
      if done then
        do ps' <- omap (fun p => unwrap (seen_get (t_seen st) p)) ps ;
        do ds' <- omap (fun p => unwrap (seen_get (t_seen st) p)) ds ;
        emit n (CStep (mkStep id cl rule ps' args ds')) st
      else
        ROk (mkTS (t_stack st) (t_seen st)
               (map (fun p => (p, false)) (ps ++ ds) ++ match prev with Some p => [(p, false)] | None => [] end ++ (n, true) :: t_todo st)
               (t_did st))
  | PSub a l args out extra =>
      if done then
        match rev (t_stack st) with
        | [] => RPanic
        | cmds :: outer =>
            if Nat.eqb (List.length outer) 0 then RPanic
            else if Nat.ltb (List.length cmds) 2 then RPanic
            else emit n (CSub cmds args 0) (mkTS (rev outer) (t_seen st) (t_todo st) (t_did st))
        end
      else if negb (Nat.eqb (pdepth n) (List.length (t_stack st) - 1)) then RPanic
      else if memb Nat.eqb a (t_did st) then
        ROk (mkTS (t_stack st ++ [[]]) (t_seen st) (map (fun p => (p, false)) (extra ++ [l]) ++ (n, true) :: t_todo st) (t_did st))
      else
        ROk (mkTS (t_stack st) (t_seen st) (map (fun p => (p, false)) (rev out) ++ (n, false) :: t_todo st) (a :: t_did st))
  end.
(** node.rs:370-374; [RErr] only when the fuel is exhausted *)
Fixpoint tl_run (fuel : nat) (st : tstate) : outcome (list command) :=
  match t_todo st with
  | [] => match t_stack st with [l] => ROk l | _ => RPanic end
  | (n, done) :: r =>
      match fuel with
      | 0 => RErr
      | S fuel => do st' <- tl_node n done (mkTS (t_stack st) (t_seen st) r (t_did st)) ; tl_run fuel st'
      end
  end.
(** node.rs:363-368 *)
Definition to_list (fuel : nat) (forest : list pnode) : outcome (list command) :=
  tl_run fuel (mkTS [[]] [] (map (fun n => (n, false)) forest) []).

(** ** Specification *)
(** node.rs:436: the context ids are forgotten *)
Fixpoint zero_ctx (c : command) : command :=
  match c with CSub cs args _ => CSub (map zero_ctx cs) args 0 | _ => c end.
(** every reference denotes a command completed before, in the same or an enclosing subproof; [sc]: the commands
    completed so far, per scope, outermost first *)
Fixpoint refs_cmd (c : command) (sc : list (list command)) {struct c} : bool :=
  match c with
  | CAssume _ _ => true
  | CStep s => forallb (fun p => match lookup sc p with Some _ => true | None => false end) (s_prems s ++ s_disch s)
  | CSub cs _ _ =>
      (fix go (l pre : list command) {struct l} : bool :=
         match l with [] => true | x :: r => refs_cmd x (sc ++ [pre]) && go r (pre ++ [x]) end) cs []
  end.
Fixpoint refs_list (l pre : list command) (sc : list (list command)) : bool :=
  match l with [] => true | x :: r => refs_cmd x (sc ++ [pre]) && refs_list r (pre ++ [x]) sc end.
Lemma refs_sub cs args k sc : refs_cmd (CSub cs args k) sc = refs_list cs [] sc.
Proof.
  assert (H : forall l pre, (fix go (l pre : list command) {struct l} : bool :=
         match l with [] => true | x :: r => refs_cmd x (sc ++ [pre]) && go r (pre ++ [x]) end) l pre = refs_list l pre sc).
  { induction l as [|x r IH]; intros pre; [reflexivity|]. cbn [refs_list]. rewrite IH. reflexivity. }
  cbn [refs_cmd]. apply H.
Qed.
Lemma node_sub cs args id is_last k outer cur : node_cmd (CSub cs args id) is_last k outer cur =
  do kf <- node_list cs k (outer ++ [cur]) (mkNF [] []) ;
  do l <- unwrap (nth_error (nf_acc (snd kf)) (List.length (nf_acc (snd kf)) - 1)) ;
  ROk (S (fst kf), mkNF (nf_acc cur ++ [PSub (fst kf) l args (nf_out (snd kf)) (removelast (nf_acc (snd kf)))])
                        (outbound (List.length outer) (nf_out cur) (nf_out (snd kf)))).
Proof.
  cbn [node_cmd]. assert (H : forall cs k fr,
    (fix go (cs : list command) (k : nat) (fr : nframe) {struct cs} : outcome (nat * nframe) :=
                  match cs with
                  | [] => ROk (k, fr)
                  | x :: r => do kf <- node_cmd x (match r with [] => true | _ => false end) k (outer ++ [cur]) fr ; go r (fst kf) (snd kf)
                  end) cs k fr = node_list cs k (outer ++ [cur]) fr).
  { induction cs0 as [|x r IH]; intros k0 fr; [reflexivity|]. cbn [node_list].
    destruct (node_cmd x _ k0 (outer ++ [cur]) fr) as [kf| |]; cbn [obind]; auto. }
  rewrite H. reflexivity.
Qed.

(** ** Proof of the round trip *)
Definition reaches (st st' : tstate) : Prop := exists n, forall m, tl_run (n + m) st = tl_run m st'.
Lemma reaches_refl st : reaches st st.
Proof. exists 0. reflexivity. Qed.
Lemma reaches_trans a b c : reaches a b -> reaches b c -> reaches a c.
Proof. intros [n Hn] [m Hm]. exists (n + m). intros k. rewrite <- Nat.add_assoc, Hn, Hm. reflexivity. Qed.
Lemma reaches_step stk seen n done todo did st' : tl_node n done (mkTS stk seen todo did) = ROk st' ->
  reaches (mkTS stk seen ((n, done) :: todo) did) st'.
Proof. intros H. exists 1. intros m. cbn [Nat.add tl_run t_todo t_stack t_seen t_did]. rewrite H. reflexivity. Qed.
Lemma reaches_skip ps stk seen todo did : (forall p, In p ps -> exists x, seen_get seen p = Some x) ->
  reaches (mkTS stk seen (map (fun p => (p, false)) ps ++ todo) did) (mkTS stk seen todo did).
Proof.
  induction ps as [|p r IH]; intros H; [apply reaches_refl|]. cbn [map app].
  eapply reaches_trans; [|apply IH; intros q Hq; apply H; right; exact Hq].
  apply reaches_step. unfold tl_node. cbn [t_seen negb andb]. destruct (H p (or_introl eq_refl)) as [x ->]. reflexivity.
Qed.

Definition wfst (stk : list nframe) : Prop := forall d f, nth_error stk d = Some f ->
  Forall (fun n => pdepth n = d) (nf_acc f) /\
  Forall (fun p => exists d' f', d' < d /\ nth_error stk d' = Some f' /\ In p (nf_acc f')) (nf_out f).
Definition seen_ok (stk : list nframe) (seen : list (nat * (nat * nat))) : Prop :=
  forall d f i n, nth_error stk d = Some f -> nth_error (nf_acc f) i = Some n -> seen_get seen n = Some (d, i).
Definition keys_below (k : nat) (seen : list (nat * (nat * nat))) : Prop := forall a, In a (map fst seen) -> a < k.
Definition none_in (k k' : nat) (did : list nat) : Prop := forall a, In a did -> a < k \/ k' <= a.
Definition same_lens (stk : list nframe) (sc : list (list command)) : Prop :=
  Forall2 (fun f cs => List.length (nf_acc f) = List.length cs) stk sc.

Lemma nset_insert_In l p q : In q (nset_insert l p) -> In q l \/ q = p.
Proof. unfold nset_insert. destruct (memb _ _ _); [auto|]. rewrite in_app_iff. cbn. intuition. Qed.
Lemma outbound_In d ps : forall l q, In q (outbound d l ps) -> In q l \/ (In q ps /\ pdepth q < d).
Proof.
  unfold outbound. induction ps as [|p r IH]; intros l q; cbn [filter fold_left]; [auto|].
  destruct (Nat.ltb (pdepth p) d) eqn:E; cbn [fold_left].
  - intros H. apply IH in H. destruct H as [H|[H H']]; [|cbn; auto]. apply nset_insert_In in H. destruct H as [H| ->]; [auto|].
    right. split; [left; reflexivity|]. apply Nat.ltb_lt. exact E.
  - intros H. apply IH in H. cbn. intuition.
Qed.
Lemma nth_app_l {A} (l : list A) x d y : nth_error l d = Some y -> nth_error (l ++ [x]) d = Some y.
Proof. intros H. rewrite nth_error_app1; auto. apply nth_error_Some. congruence. Qed.
Lemma nth_snoc {A} (l : list A) x d y : nth_error (l ++ [x]) d = Some y -> nth_error l d = Some y \/ (d = List.length l /\ y = x).
Proof.
  intros H. destruct (Nat.lt_ge_cases d (List.length l)) as [Hd|Hd]; [rewrite nth_error_app1 in H by exact Hd; auto|].
  rewrite nth_error_app2 in H by exact Hd. destruct (d - List.length l) as [|m] eqn:E; cbn in H.
  - injection H as <-. right. split; [lia|reflexivity].
  - destruct m; discriminate.
Qed.
Lemma nth_last {A} (l : list A) x : nth_error (l ++ [x]) (List.length l) = Some x.
Proof. rewrite nth_error_app2, Nat.sub_diag by lia. reflexivity. Qed.
(** a premise outside of the current frame is in an enclosing frame *)
Lemma wfst_cur outer cur cur' n ps : wfst (outer ++ [cur]) -> nf_acc cur' = nf_acc cur ++ [n] -> pdepth n = List.length outer ->
  (forall p, In p ps -> exists d f, nth_error (outer ++ [cur]) d = Some f /\ In p (nf_acc f)) ->
  nf_out cur' = outbound (List.length outer) (nf_out cur) ps -> wfst (outer ++ [cur']).
Proof.
  intros Hw Ha Hn Hps Ho d f Hf. apply nth_snoc in Hf. destruct Hf as [Hf|[-> ->]].
  - pose proof (nth_app_l outer cur d f Hf) as Hf'. destruct (Hw d f Hf') as [H1 H2]. split; auto.
    rewrite Forall_forall in *. intros p Hp. destruct (H2 p Hp) as [d' [f' [Hd [Hf2 Hin]]]]. exists d', f'. split; auto. split; auto.
    apply nth_snoc in Hf2. destruct Hf2 as [Hf2|[-> _]]; [apply nth_app_l; exact Hf2|].
    assert (d < List.length outer) by (apply nth_error_Some; congruence). lia.
  - destruct (Hw _ _ (nth_last outer cur)) as [H1 H2]. split.
    + rewrite Ha. apply Forall_app. split; auto.
    + rewrite Ho. rewrite Forall_forall in *. intros p Hp. apply outbound_In in Hp. destruct Hp as [Hp|[Hp Hd]].
      * destruct (H2 p Hp) as [d' [f' [Hd [Hf2 Hin]]]]. exists d', f'. split; auto. split; auto.
        apply nth_snoc in Hf2. destruct Hf2 as [Hf2|[-> _]]; [apply nth_app_l; exact Hf2|lia].
      * destruct (Hps p Hp) as [d' [f' [Hf2 Hin]]]. destruct (Hw _ _ Hf2) as [H3 _]. rewrite Forall_forall in H3.
        pose proof (H3 p Hin) as Hpd. subst d'. exists (pdepth p), f'. split; auto. split; auto.
        apply nth_snoc in Hf2. destruct Hf2 as [Hf2|[E _]]; [apply nth_app_l; exact Hf2|lia].
Qed.
Lemma seen_get_cons a x seen n : seen_get ((a, x) :: seen) n = if Nat.eqb a (paddr n) then Some x else seen_get seen n.
Proof. unfold seen_get. cbn [find fst]. destruct (Nat.eqb a (paddr n)); reflexivity. Qed.
Lemma seen_get_key seen n x : seen_get seen n = Some x -> In (paddr n) (map fst seen).
Proof.
  unfold seen_get. destruct (find _ seen) as [e|] eqn:E; [|discriminate]. intros _. apply find_some in E. destruct E as [E1 E2].
  apply Nat.eqb_eq in E2. rewrite <- E2. apply in_map. exact E1.
Qed.
Lemma seen_fresh k seen n : keys_below k seen -> k <= paddr n -> seen_get seen n = None.
Proof. intros H Hk. destruct (seen_get seen n) eqn:E; [|reflexivity]. apply seen_get_key in E. specialize (H _ E). lia. Qed.
Lemma seen_ok_snoc outer cur cur' n k seen : seen_ok (outer ++ [cur]) seen -> keys_below k seen -> k <= paddr n ->
  nf_acc cur' = nf_acc cur ++ [n] ->
  seen_ok (outer ++ [cur']) ((paddr n, (List.length outer, List.length (nf_acc cur))) :: seen).
Proof.
  intros Hs Hk Hn Ha d f i m Hf Hm. rewrite seen_get_cons.
  assert (Hold : forall d f i m, nth_error (outer ++ [cur]) d = Some f -> nth_error (nf_acc f) i = Some m ->
    (if Nat.eqb (paddr n) (paddr m) then Some (List.length outer, List.length (nf_acc cur)) else seen_get seen m) = Some (d, i)).
  { intros d0 f0 i0 m0 H1 H2. pose proof (Hs _ _ _ _ H1 H2) as H3. pose proof (Hk _ (seen_get_key _ _ _ H3)).
    destruct (Nat.eqb_spec (paddr n) (paddr m0)); [lia|exact H3]. }
  apply nth_snoc in Hf. destruct Hf as [Hf|[-> ->]]; [eapply Hold; eauto using nth_app_l|].
  rewrite Ha in Hm. apply nth_snoc in Hm. destruct Hm as [Hm|[-> ->]]; [eapply Hold; eauto; apply nth_last|].
  rewrite Nat.eqb_refl. reflexivity.
Qed.
Lemma push_last {A} (x : A) outs l : push_at (List.length outs) x (outs ++ [l]) = ROk (outs ++ [l ++ [x]]).
Proof. induction outs as [|y r IH]; [reflexivity|]. cbn [List.length app push_at]. rewrite IH. reflexivity. Qed.
Lemma emit_last n c outs l seen todo did : pdepth n = List.length outs ->
  emit n c (mkTS (outs ++ [l]) seen todo did) =
  ROk (mkTS (outs ++ [l ++ [c]]) ((paddr n, (List.length outs, List.length l)) :: seen) todo did).
Proof. intros H. unfold emit. cbn [t_stack t_seen t_todo t_did]. rewrite H, nth_last. cbn [unwrap obind]. rewrite push_last. reflexivity. Qed.
Lemma fetch_ok outer cur sc l : same_lens (outer ++ [cur]) sc ->
  forallb (fun p => match lookup sc p with Some _ => true | None => false end) l = true ->
  exists ps, omap (fetch (outer ++ [cur])) l = ROk ps /\
    Forall2 (fun p n => exists f, nth_error (outer ++ [cur]) (fst p) = Some f /\ nth_error (nf_acc f) (snd p) = Some n) l ps.
Proof.
  intros Hl. induction l as [|p r IH]; intros H; [exists []; split; [reflexivity|constructor]|].
  cbn [forallb] in H. apply andb_true_iff in H. destruct H as [H1 H2]. destruct (IH H2) as [ps [E1 E2]].
  unfold lookup in H1. destruct (nth_error sc (fst p)) as [cs|] eqn:Ec; [|discriminate].
  destruct (nth_error cs (snd p)) as [c|] eqn:Ed; [|discriminate].
  assert (exists f, nth_error (outer ++ [cur]) (fst p) = Some f /\ List.length (nf_acc f) = List.length cs) as [f [Ef Elen]].
  { clear - Hl Ec. revert Ec. generalize (fst p). induction Hl as [|f c' fs cs' Hfc Hl IH]; intros [|d] Ec; try discriminate.
    - injection Ec as ->. exists f. auto.
    - exact (IH d Ec). }
  destruct (nth_error (nf_acc f) (snd p)) as [n|] eqn:En.
  2:{ apply nth_error_None in En. assert (snd p < List.length cs) by (apply nth_error_Some; congruence). lia. }
  exists (n :: ps). split; [|constructor; eauto]. cbn [omap]. unfold fetch at 1. rewrite Ef. cbn [unwrap obind]. rewrite En. cbn [unwrap obind].
  rewrite E1. reflexivity.
Qed.
Lemma omap_seen stk seen l ps : seen_ok stk seen ->
  Forall2 (fun p n => exists f, nth_error stk (fst p) = Some f /\ nth_error (nf_acc f) (snd p) = Some n) l ps ->
  omap (fun p => unwrap (seen_get seen p)) ps = ROk l /\ forall p, In p ps -> exists x, seen_get seen p = Some x.
Proof.
  intros Hs. induction 1 as [|[d i] n l ps [f [H1 H2]] H IH]; [split; [reflexivity|intros p []]|]. cbn [fst snd] in *.
  pose proof (Hs _ _ _ _ H1 H2) as E. destruct IH as [IH1 IH2]. split.
  - cbn [omap]. rewrite E. cbn [unwrap obind]. rewrite IH1. reflexivity.
  - intros p [<-|Hp]; eauto.
Qed.

(** what the conversion of a command does, and that converting its node back gives the command *)
Definition cmd_spec (c : command) : Prop := forall is_last k outer cur sc,
  same_lens (outer ++ [cur]) sc -> wfst (outer ++ [cur]) -> shape_ok c = true -> refs_cmd c sc = true ->
  (is_last = true -> outer = [] \/ 1 <= List.length (nf_acc cur)) ->
  exists k' cur' n, node_cmd c is_last k outer cur = ROk (k', cur') /\ nf_acc cur' = nf_acc cur ++ [n] /\
    pdepth n = List.length outer /\ k <= paddr n < k' /\ wfst (outer ++ [cur']) /\
    forall outs out seen todo did, List.length outs = List.length outer -> List.length out = List.length (nf_acc cur) ->
      seen_ok (outer ++ [cur]) seen -> keys_below k seen -> none_in k k' did ->
      exists seen' did', reaches (mkTS (outs ++ [out]) seen ((n, false) :: todo) did)
                                 (mkTS (outs ++ [out ++ [zero_ctx c]]) seen' todo did') /\
        seen_ok (outer ++ [cur']) seen' /\ keys_below k' seen' /\ (forall a, In a did' -> In a did \/ k <= a < k').
Definition list_spec (cs : list command) : Prop := forall k outer fr sc pre,
  same_lens outer sc -> List.length (nf_acc fr) = List.length pre -> wfst (outer ++ [fr]) -> forallb shape_ok cs = true ->
  refs_list cs pre sc = true -> (outer = [] \/ cs = [] \/ 2 <= List.length (nf_acc fr) + List.length cs) ->
  exists k' fr' ns, node_list cs k outer fr = ROk (k', fr') /\ nf_acc fr' = nf_acc fr ++ ns /\ List.length ns = List.length cs /\
    k <= k' /\ wfst (outer ++ [fr']) /\
    forall outs out seen todo did, List.length outs = List.length outer -> List.length out = List.length (nf_acc fr) ->
      seen_ok (outer ++ [fr]) seen -> keys_below k seen -> none_in k k' did ->
      exists seen' did', reaches (mkTS (outs ++ [out]) seen (map (fun n => (n, false)) ns ++ todo) did)
                                 (mkTS (outs ++ [out ++ map zero_ctx cs]) seen' todo did') /\
        seen_ok (outer ++ [fr']) seen' /\ keys_below k' seen' /\ (forall a, In a did' -> In a did \/ k <= a < k').

Lemma same_lens_snoc outer sc fr pre : same_lens outer sc -> List.length (nf_acc fr) = List.length pre -> same_lens (outer ++ [fr]) (sc ++ [pre]).
Proof. intros H Hl. apply Forall2_app; auto. Qed.
Lemma list_spec_all cs : Forall cmd_spec cs -> list_spec cs.
Proof.
  induction 1 as [|c cs Hc Hcs IH]; intros k outer fr sc pre Hl Hp Hw Hs Hr Hn.
  - exists k, fr, []. cbn [node_list map app]. rewrite !app_nil_r. do 5 (split; auto).
    intros outs out seen todo did _ _ H1 H2 H3. exists seen, did. rewrite app_nil_r. split; [apply reaches_refl|]. auto.
  - cbn [forallb] in Hs. apply andb_true_iff in Hs. destruct Hs as [Hs1 Hs2].
    cbn [refs_list] in Hr. apply andb_true_iff in Hr. destruct Hr as [Hr1 Hr2].
    destruct (Hc (match cs with [] => true | _ => false end) k outer fr (sc ++ [pre])) as [k1 [fr1 [n [E1 [Ha1 [Hd1 [Hk1 [Hw1 Hsim1]]]]]]]]; auto.
    { apply same_lens_snoc; auto. }
    { intros Hb. destruct cs; [|discriminate]. destruct Hn as [Hn|[Hn|Hn]]; auto; [discriminate|]. cbn in Hn. right. lia. }
    destruct (IH k1 outer fr1 sc (pre ++ [c])) as [k2 [fr2 [ns [E2 [Ha2 [Hl2 [Hk2 [Hw2 Hsim2]]]]]]]]; auto.
    { rewrite Ha1, !app_length, Hp. reflexivity. }
    { destruct Hn as [Hn|[Hn|Hn]]; auto; [discriminate|]. right. right. rewrite Ha1, app_length. cbn in *. lia. }
    exists k2, fr2, (n :: ns). split; [|split; [|split; [|split; [|split]]]]; auto; try lia.
    + cbn [node_list]. rewrite E1. cbn [obind fst snd]. exact E2.
    + rewrite Ha2, Ha1, <- app_assoc. reflexivity.
    + cbn. lia.
    + intros outs out seen todo did Ho Hout Hso Hkb Hni.
      destruct (Hsim1 outs out seen (map (fun n => (n, false)) ns ++ todo) did) as [s1 [d1 [R1 [So1 [Kb1 Di1]]]]]; auto.
      { intros a Ha. destruct (Hni a Ha); lia. }
      destruct (Hsim2 outs (out ++ [zero_ctx c]) s1 todo d1) as [s2 [d2 [R2 [So2 [Kb2 Di2]]]]]; auto.
      { rewrite Ha1, !app_length. cbn. lia. }
      { intros a Ha. destruct (Di1 a Ha) as [Ha'|Ha']; [destruct (Hni a Ha'); lia|lia]. }
      exists s2, d2. split; [|split; [|split]]; auto.
      * cbn [map app]. rewrite <- app_assoc in R2. cbn [app] in R2. eapply reaches_trans; eauto.
      * intros a Ha. destruct (Di2 a Ha) as [Ha'|Ha']; [|lia]. destruct (Di1 a Ha') as [Ha2'|Ha2']; [auto|lia].
Qed.
Lemma seen_keys_cons k a x seen : keys_below k seen -> keys_below (S a) ((a, x) :: seen) \/ a < k.
Proof. intros H. destruct (Nat.lt_ge_cases a k); [auto|]. left. intros b [<-|Hb]; cbn; [lia|]. specialize (H b Hb). lia. Qed.
Lemma keys_cons k k' a x seen : keys_below k seen -> k <= k' -> a < k' -> keys_below k' ((a, x) :: seen).
Proof. intros H Hk Ha b [<-|Hb]; cbn; [lia|]. specialize (H b Hb). lia. Qed.

Lemma cmd_spec_all c : cmd_spec c.
Proof.
  induction c as [id t|s|cs args id IH] using command_ind'; intros is_last k outer cur sc Hl Hw Hs Hr Hlast.
  - exists (S k), (mkNF (nf_acc cur ++ [PAssume k id (List.length outer) t]) (nf_out cur)), (PAssume k id (List.length outer) t).
    split; [reflexivity|]. split; [reflexivity|]. split; [reflexivity|]. split; [cbn; lia|]. split.
    { apply (wfst_cur outer cur _ (PAssume k id (List.length outer) t) []); auto. intros p []. }
    intros outs out seen todo did Ho Hout Hso Hkb Hni.
    exists ((k, (List.length outer, List.length (nf_acc cur))) :: seen), did. split; [|split; [|split]]; auto.
    + apply reaches_step. unfold tl_node. cbn [negb andb t_seen].
      rewrite (seen_fresh k) by (auto; cbn; lia). rewrite emit_last by (cbn; lia). rewrite Ho, Hout. reflexivity.
    + apply (seen_ok_snoc outer cur _ (PAssume k id (List.length outer) t) k); auto.
    + eapply keys_cons; eauto.
  - cbn [refs_cmd] in Hr. rewrite forallb_app in Hr. apply andb_true_iff in Hr. destruct Hr as [Hr1 Hr2].
    destruct (fetch_ok outer cur sc _ Hl Hr1) as [ps [Ep Fp]]. destruct (fetch_ok outer cur sc _ Hl Hr2) as [ds [Ed Fd]].
    assert (exists prev, (if Nat.ltb 0 (List.length outer) && is_last
                  then do p <- unwrap (nth_error (nf_acc cur) (List.length (nf_acc cur) - 1)) ; ROk (Some p)
                  else ROk None) = ROk prev /\ forall p, prev = Some p -> In p (nf_acc cur)) as [prev [Eprev Hprev]].
    { destruct (Nat.ltb 0 (List.length outer) && is_last) eqn:Eb; [|exists None; split; [reflexivity|discriminate]].
      apply andb_true_iff in Eb. destruct Eb as [Eb ->]. apply Nat.ltb_lt in Eb.
      destruct (Hlast eq_refl) as [->|Hlen]; [cbn in Eb; lia|].
      destruct (nth_error (nf_acc cur) (List.length (nf_acc cur) - 1)) as [p|] eqn:Ep'.
      - exists (Some p). split; [reflexivity|]. intros q Hq. injection Hq as <-. eapply nth_error_In; eauto.
      - apply nth_error_None in Ep'. lia. }
    set (n := PStep k (s_id s) (List.length outer) (s_clause s) (s_rule s) ps (s_args s) ds prev).
    exists (S k), (mkNF (nf_acc cur ++ [n]) (outbound (List.length outer) (nf_out cur) ps)), n.
    split. { cbn [node_cmd]. rewrite Ep. cbn [obind]. rewrite Ed. cbn [obind]. rewrite Eprev. reflexivity. }
    split; [reflexivity|]. split; [reflexivity|]. split; [cbn; lia|]. split.
    { apply (wfst_cur outer cur _ n ps); auto. intros p Hp. clear - Fp Hp. induction Fp as [|q m l ps [f [H1 H2]] Fp IH]; [destruct Hp|].
      destruct Hp as [<-|Hp]; eauto. exists (fst q), f. split; auto. eapply nth_error_In; eauto. }
    intros outs out seen todo did Ho Hout Hso Hkb Hni.
    destruct (omap_seen _ _ _ _ Hso Fp) as [Op Sp]. destruct (omap_seen _ _ _ _ Hso Fd) as [Od Sd].
    exists ((k, (List.length outer, List.length (nf_acc cur))) :: seen), did. split; [|split; [|split]]; auto.
    + eapply reaches_trans; [apply reaches_step; unfold tl_node; cbn [negb andb t_seen]; rewrite (seen_fresh k) by (auto; cbn; lia); unfold n; reflexivity|].
      cbn [t_stack t_todo t_did t_seen].
      eapply reaches_trans; [apply reaches_skip; intros p Hp; apply in_app_iff in Hp; destruct Hp; auto|].
      eapply reaches_trans.
      { instantiate (1 := mkTS (outs ++ [out]) seen ((n, true) :: todo) did).
        destruct prev as [p|]; [|apply reaches_refl]. apply (reaches_skip [p]). intros q [<-|[]].
        destruct (In_nth_error _ _ (Hprev p eq_refl)) as [i Hi]. exists (List.length outer, i). apply (Hso _ cur); auto. apply nth_last. }
      apply reaches_step. unfold tl_node, n. cbn [negb andb t_seen]. rewrite Op. cbn [obind]. rewrite Od. cbn [obind].
      rewrite emit_last by (cbn; lia). rewrite Ho, Hout. destruct s; reflexivity.
    + apply (seen_ok_snoc outer cur _ n k); auto.
    + eapply keys_cons; eauto.
  - rewrite refs_sub in Hr. cbn [shape_ok] in Hs. rewrite !andb_true_iff in Hs. destruct Hs as [[Hs1 Hs2] Hs3]. apply Nat.leb_le in Hs1.
    assert (Hw0 : wfst ((outer ++ [cur]) ++ [mkNF [] []])).
    { intros d f Hf. apply nth_snoc in Hf. destruct Hf as [Hf|[_ ->]]; [|split; constructor].
      destruct (Hw d f Hf) as [H1 H2]. split; auto. eapply Forall_impl; [|exact H2]. intros p [d' [f' [Hd [Hf' Hin]]]].
      exists d', f'. split; auto. split; auto. apply nth_app_l. exact Hf'. }
    destruct (list_spec_all cs IH k (outer ++ [cur]) (mkNF [] []) sc [] Hl eq_refl Hw0 Hs3 Hr) as [k1 [fr [ns [E1 [Ha1 [Hl1 [Hk1 [Hw1 Hsim1]]]]]]]].
    { right. right. cbn. exact Hs1. }
    cbn [nf_acc app] in Ha1.
    destruct (nth_error ns (List.length ns - 1)) as [l|] eqn:El; [|apply nth_error_None in El; lia].
    assert (Hns : ns = removelast ns ++ [l]).
    { assert (Hne : ns <> []) by (intros ->; cbn in Hl1; lia). rewrite (app_removelast_last l Hne) at 1. f_equal. f_equal.
      clear - El Hne. destruct (exists_last Hne) as [l' [x ->]]. rewrite last_last. rewrite app_length in El. cbn in El.
      replace (List.length l' + 1 - 1) with (List.length l') in El by lia. rewrite nth_last in El. congruence. }
    assert (Hdl : pdepth l = S (List.length outer)).
    { destruct (Hw1 _ _ (nth_last (outer ++ [cur]) fr)) as [H1 _]. rewrite Forall_forall in H1. rewrite app_length in H1. cbn in H1.
      rewrite <- Nat.add_1_r. apply H1. rewrite Ha1. eapply nth_error_In; eauto. }
    set (n := PSub k1 l args (nf_out fr) (removelast ns)).
    exists (S k1), (mkNF (nf_acc cur ++ [n]) (outbound (List.length outer) (nf_out cur) (nf_out fr))), n.
    split. { rewrite node_sub, E1. cbn [obind fst snd]. rewrite Ha1, El. reflexivity. }
    split; [reflexivity|]. split; [cbn; lia|]. split; [cbn; lia|].
    assert (Hout_in : forall p, In p (nf_out fr) -> exists d f, nth_error (outer ++ [cur]) d = Some f /\ In p (nf_acc f)).
    { intros p Hp. destruct (Hw1 _ _ (nth_last (outer ++ [cur]) fr)) as [_ H1]. rewrite Forall_forall in H1.
      destruct (H1 p Hp) as [d' [f' [Hd [Hf Hin]]]]. exists d', f'. split; auto. apply nth_snoc in Hf. destruct Hf as [Hf|[-> _]]; [exact Hf|lia]. }
    split. { apply (wfst_cur outer cur _ n (nf_out fr)); auto. cbn. lia. }
    intros outs out seen todo did Ho Hout Hso Hkb Hni.
    assert (Hlen : List.length (outs ++ [out]) - 1 = List.length outs) by (rewrite app_length; cbn; lia).
    assert (Hnd : memb Nat.eqb k1 did = false).
    { destruct (memb Nat.eqb k1 did) eqn:E; [|reflexivity]. apply (memb_In Nat.eqb Nat.eqb_eq) in E. destruct (Hni _ E); lia. }
    destruct (Hsim1 (outs ++ [out]) [] seen ((n, true) :: todo) (k1 :: did)) as [s1 [d1 [R1 [So1 [Kb1 Di1]]]]]; auto.
    { rewrite !app_length, Ho. reflexivity. }
    { intros d f i m Hf Hm. apply nth_snoc in Hf. destruct Hf as [Hf|[_ ->]]; [eauto|]. destruct i; discriminate. }
    { intros a [<-|Ha]; [lia|]. destruct (Hni a Ha); lia. }
    exists ((k1, (List.length outer, List.length (nf_acc cur))) :: s1), d1.
    split; [|split; [|split]].
    + eapply reaches_trans.
      { apply reaches_step. unfold tl_node. cbn [negb andb t_seen t_stack t_did]. rewrite (seen_fresh k) by (auto; cbn; lia).
        unfold n. rewrite Hlen. cbn [pdepth]. rewrite Hdl. replace (S (List.length outer) - 1) with (List.length outs) by lia.
        rewrite Nat.eqb_refl. cbn [negb]. rewrite Hnd. reflexivity. }
      cbn [t_stack t_seen t_todo t_did].
      eapply reaches_trans.
      { apply reaches_skip. intros p Hp. apply in_rev in Hp. destruct (Hout_in p Hp) as [d [f [Hf Hin]]].
        destruct (In_nth_error _ _ Hin) as [i Hi]. exists (d, i). eapply Hso; eauto. }
      eapply reaches_trans.
      { apply reaches_step. unfold tl_node. cbn [negb andb t_seen t_stack t_did]. rewrite (seen_fresh k) by (auto; cbn; lia).
        unfold n. rewrite Hlen. cbn [pdepth]. rewrite Hdl. replace (S (List.length outer) - 1) with (List.length outs) by lia.
        rewrite Nat.eqb_refl. cbn [negb]. cbn [memb existsb]. rewrite Nat.eqb_refl. cbn [orb]. reflexivity. }
      cbn [t_stack t_seen t_todo t_did]. rewrite <- Hns. eapply reaches_trans; [exact R1|].
      apply reaches_step. unfold tl_node, n. cbn [negb andb t_seen t_stack t_did app]. rewrite !rev_app_distr. cbn [rev app].
      destruct (Nat.eqb_spec (List.length (out :: rev outs)) 0) as [E|_]; [discriminate E|].
      destruct (Nat.ltb_spec (List.length (map zero_ctx cs)) 2) as [E|_]; [rewrite map_length in E; lia|].
      rewrite rev_involutive. rewrite emit_last by (cbn; lia). rewrite Ho, Hout. reflexivity.
    + apply (seen_ok_snoc outer cur _ n k1); [|exact Kb1|cbn; lia|reflexivity].
      intros d f i m Hf Hm. eapply (So1 d f i m); auto. apply nth_app_l. exact Hf.
    + eapply keys_cons; eauto.
    + intros a Ha. destruct (Di1 a Ha) as [[<-|Ha']|Ha']; [lia|auto|lia].
Qed.

Theorem nodes_round_trip proof : forallb shape_ok proof = true -> refs_list proof [] [] = true ->
  exists forest, to_nodes proof = ROk forest /\ List.length forest = List.length proof /\
  exists fuel, forall m, to_list (fuel + m) forest = ROk (map zero_ctx proof).
Proof.
  intros Hs Hr. assert (Hc : Forall cmd_spec proof) by (apply Forall_forall; intros c _; apply cmd_spec_all).
  destruct (list_spec_all proof Hc 0 [] (mkNF [] []) [] []) as [k' [fr' [ns [E [Ha [Hl [_ [_ Hsim]]]]]]]]; auto.
  { constructor. }
  { intros d f Hf. destruct d as [|[|d]]; cbn in Hf; try discriminate. injection Hf as <-. split; constructor. }
  cbn [nf_acc app] in Ha. exists ns. split; [unfold to_nodes; rewrite E; cbn [obind snd]; rewrite Ha; reflexivity|]. split; [exact Hl|].
  destruct (Hsim [] [] [] [] []) as [s' [d' [[n R] _]]]; auto.
  { intros d f i m Hf Hm. destruct d as [|[|d]]; cbn in Hf; try discriminate. injection Hf as <-. destruct i; discriminate. }
  { intros a []. }
  { intros a []. }
  exists n. intros m. unfold to_list. cbn [app] in R. rewrite app_nil_r in R. rewrite R. destruct m; reflexivity.
Qed.

(** the fuel does not matter *)
Lemma tl_run_mono m : forall st out, tl_run m st = ROk out -> forall k, tl_run (m + k) st = ROk out.
Proof.
  induction m as [|m IH]; intros st out H k; destruct st as [stk seen [|[n b] r] did]; cbn [tl_run t_todo t_stack t_seen t_did] in *; try discriminate.
  - destruct (0 + k); exact H.
  - destruct (S m + k); exact H.
  - apply obind_ok in H. destruct H as [st' [H1 H2]]. cbn [Nat.add tl_run t_todo t_stack t_seen t_did]. rewrite H1. cbn [obind]. apply IH. exact H2.
Qed.
Lemma tl_run_det m m' st out out' : tl_run m st = ROk out -> tl_run m' st = ROk out' -> out = out'.
Proof.
  intros H H'. pose proof (tl_run_mono _ _ _ H m') as H1. pose proof (tl_run_mono _ _ _ H' m) as H2. rewrite Nat.add_comm in H2. congruence.
Qed.

(** the text of the proof is unchanged *)
Lemma zero_id c : cmd_id (zero_ctx c) = cmd_id c.
Proof.
  induction c as [id t|s|cs args id IH] using command_ind'; [reflexivity|reflexivity|]. cbn [zero_ctx cmd_id].
  induction IH as [|c cs Hc Hcs IHcs]; [reflexivity|]. cbn [map]. destruct cs as [|c' cs]; [exact Hc|]. exact IHcs.
Qed.
Lemma lookup_zero sc p : lookup (map (map zero_ctx) sc) p = option_map zero_ctx (lookup sc p).
Proof.
  unfold lookup. rewrite nth_error_map. destruct (nth_error sc (fst p)) as [cs|]; [|reflexivity]. cbn [option_map]. apply nth_error_map.
Qed.
Lemma ref_zero sc p : ref_name (map (map zero_ctx) sc) p = ref_name sc p.
Proof. unfold ref_name. rewrite lookup_zero. destruct (lookup sc p); [apply zero_id|reflexivity]. Qed.
Lemma mapo_ext_all {A B} (f g : A -> option B) l : (forall x, f x = g x) -> mapo f l = mapo g l.
Proof. intros H. induction l as [|x r IH]; [reflexivity|]. cbn [mapo]. rewrite H, IH. reflexivity. Qed.
Lemma print_zero_list cs : Forall (fun c => forall sc, print_cmd (zero_ctx c) (map (map zero_ctx) sc) = print_cmd c sc) cs ->
  forall sc pre, print_list (map (map zero_ctx) sc) (map zero_ctx cs) (map zero_ctx pre) = print_list sc cs pre.
Proof.
  induction 1 as [|c cs Hc Hcs IH]; intros sc pre; [reflexivity|]. cbn [map print_list].
  specialize (Hc (sc ++ [pre])). rewrite map_app in Hc. cbn [map] in Hc. rewrite Hc.
  specialize (IH sc (pre ++ [c])). rewrite map_app in IH. cbn [map] in IH. rewrite IH. reflexivity.
Qed.
Lemma print_zero_cmd c : forall sc, print_cmd (zero_ctx c) (map (map zero_ctx) sc) = print_cmd c sc.
Proof.
  induction c as [id t|s|cs args id IH] using command_ind'; intros sc; [reflexivity| |].
  - cbn [zero_ctx print_cmd]. unfold print_step. rewrite !(mapo_ext_all (ref_name (map (map zero_ctx) sc)) (ref_name sc)) by (intros; apply ref_zero). reflexivity.
  - pose proof (zero_id (CSub cs args id)) as Hid. cbn [zero_ctx] in Hid |- *. rewrite !print_sub, Hid. pose proof (print_zero_list cs IH sc []) as H. cbn [map] in H. rewrite H. reflexivity.
Qed.
Theorem print_zero proof : print_proof (map zero_ctx proof) = print_proof proof.
Proof. apply (print_zero_list proof) with (sc := []) (pre := []). apply Forall_forall. intros c _. apply print_zero_cmd. Qed.

(** parsed proofs *)
Lemma print_refs_list cs : Forall (fun c => forall sc out, print_cmd c sc = Some out -> refs_cmd c sc = true) cs ->
  forall sc pre out, print_list sc cs pre = Some out -> refs_list cs pre sc = true.
Proof.
  induction 1 as [|c cs Hc Hcs IH]; intros sc pre out H; [reflexivity|]. cbn [print_list refs_list] in *.
  destruct (print_cmd c (sc ++ [pre])) as [a|] eqn:E1; [|discriminate]. destruct (print_list sc cs (pre ++ [c])) as [b|] eqn:E2; [|discriminate].
  rewrite (Hc _ _ E1), (IH _ _ _ E2). reflexivity.
Qed.
Lemma mapo_refs sc l ns : mapo (ref_name sc) l = Some ns -> forallb (fun p => match lookup sc p with Some _ => true | None => false end) l = true.
Proof.
  revert ns. induction l as [|p r IH]; intros ns H; [reflexivity|]. cbn [mapo forallb] in *. unfold ref_name in H at 1.
  destruct (lookup sc p); [|discriminate]. destruct (cmd_id c); [|discriminate]. destruct (mapo (ref_name sc) r) eqn:E; [|discriminate]. rewrite (IH _ eq_refl). reflexivity.
Qed.
Lemma print_refs_cmd c : forall sc out, print_cmd c sc = Some out -> refs_cmd c sc = true.
Proof.
  induction c as [id t|s|cs args id IH] using command_ind'; intros sc out H; [reflexivity| |].
  - cbn [print_cmd] in H. unfold print_step in H. cbn [refs_cmd]. rewrite forallb_app.
    destruct (mapo (ref_name sc) (s_prems s)) eqn:E1; [|discriminate]. destruct (mapo (ref_name sc) (s_disch s)) eqn:E2; [|discriminate].
    rewrite (mapo_refs _ _ _ E1), (mapo_refs _ _ _ E2). reflexivity.
  - rewrite print_sub in H. rewrite refs_sub. destruct (cmd_id _); [|discriminate]. destruct (print_list sc cs []) eqn:E; [|discriminate].
    eapply print_refs_list; eauto.
Qed.
Theorem parse_refs rs proof : parse_proof rs = ROk proof -> refs_list proof [] [] = true.
Proof.
  intros H. destruct (parse_print rs proof H) as [out [Ho _]]. unfold print_proof in Ho. eapply print_refs_list; eauto.
  apply Forall_forall. intros c _. apply print_refs_cmd.
Qed.
