(** The graph of an accepted proof is accepted: from [run_list] (checker/mod.rs) on a list of commands to [gok] on the nodes that
    [ProofNodeForest::from_commands] (ast/node.rs) makes of it. *)
From Coq Require Import List String ZArith Bool Arith Lia.
From Verif Require Import Base Term Rules Polyeq Checker CheckerSound Nodes ElabIds ElabSolver ElabSound ElabSolverSound.
Import ListNotations.
Local Open Scope string_scope.
Local Open Scope nat_scope.
Local Open Scope list_scope.

(** [ProofNodeForest::from_commands] when the addresses below [off] are in use *)
Definition nodes_from (off : nat) (proof : list command) : outcome (list pnode) :=
  do kf <- node_list proof off [] (mkNF [] []) ; ROk (nf_acc (snd kf)).
Definition anodes (fs : list nframe) : list pnode := flat_map nf_acc fs.
(** addresses below [k], each for one node *)
Definition adr (k : nat) (l : list pnode) : Prop :=
  (forall x, In x (flat_map subnodes l) -> paddr x < k) /\
  (forall x y, In x (flat_map subnodes l) -> In y (flat_map subnodes l) -> paddr x = paddr y -> x = y).
Definition is_passume (n : pnode) : bool := match n with PAssume _ _ _ _ => true | _ => false end.
(** the node of a command *)
Definition match_cmd (c : command) (n : pnode) : Prop :=
  cmd_clause c = Some (pclause n) /\
  match c with CAssume id t => exists a d, n = PAssume a id d t | _ => is_passume n = false end.
Definition frame_rel (f : nframe) (cs : list command) : Prop :=
  forall j n, nth_error (nf_acc f) j = Some n -> exists c, nth_error cs j = Some c /\ match_cmd c n.
Definition rel (fs : list nframe) (stk : stack) : Prop := Forall2 frame_rel fs (rev (map snd stk)).

Lemma flat_map_incl {A B} (f : A -> list B) l l' : incl l l' -> incl (flat_map f l) (flat_map f l').
Proof. intros H x Hx. apply in_flat_map in Hx. destruct Hx as (a & Ha & Hx). apply in_flat_map. eauto. Qed.
Lemma adr_incl k l l' : incl l' l -> adr k l -> adr k l'.
Proof. intros H [H1 H2]. pose proof (flat_map_incl subnodes _ _ H). split; intros; eauto. Qed.
Lemma adr_le k k' l : k <= k' -> adr k l -> adr k' l.
Proof. intros H [H1 H2]. split; auto. intros x Hx. specialize (H1 x Hx). lia. Qed.
Lemma sub_self n : In n (subnodes n).
Proof. destruct n; left; reflexivity. Qed.
Lemma adr_add k l n : adr k l -> k <= paddr n -> incl (tl (subnodes n)) (flat_map subnodes l) -> adr (S (paddr n)) (n :: l).
Proof.
  intros [H1 H2] Hk Hi.
  assert (G : forall x, In x (flat_map subnodes (n :: l)) -> x = n \/ In x (flat_map subnodes l)).
  { intros x Hx. cbn [flat_map] in Hx. apply in_app_or in Hx. destruct Hx as [Hx|Hx]; [|auto].
    assert (E : subnodes n = n :: tl (subnodes n)) by (destruct n; reflexivity). rewrite E in Hx. destruct Hx as [<-|Hx]; auto. }
  split.
  - intros x Hx. destruct (G x Hx) as [->|Hx']; [lia|]. specialize (H1 x Hx'). lia.
  - intros x y Hx Hy E. destruct (G x Hx) as [->|Hx'], (G y Hy) as [->|Hy']; auto.
    + specialize (H1 y Hy'). lia.
    + specialize (H1 x Hx'). lia.
Qed.

Lemma flat_map_ext_in {A B} (f g : A -> list B) l : Forall (fun x => f x = g x) l -> flat_map f l = flat_map g l.
Proof. induction 1 as [|x l H _ IH]; [reflexivity|]. cbn. rewrite H, IH. reflexivity. Qed.
Lemma scope_0 n : scope 0 n = subnodes n.
Proof.
  induction n as [a id d t|a id d cl r ps args ds prev Hps Hds Hprev|a l args out extra Hl Hout Hextra] using pnode_ind'; [reflexivity| |].
  - cbn [scope subnodes]. change (Nat.ltb _ 0) with false. cbn match. f_equal. rewrite (flat_map_ext_in _ _ _ Hps), (flat_map_ext_in _ _ _ Hds). destruct prev as [p|]; [rewrite Hprev|]; reflexivity.
  - cbn [scope subnodes]. change (Nat.ltb _ 0) with false. cbn match. f_equal. rewrite (flat_map_ext_in _ _ _ Hout), Hl. reflexivity.
Qed.

Section Accept.
  Variable table : bool -> string -> option crule.
  Variable cfg : config.
  Variable prems : list term.
  Hypothesis Hallowed : allowed cfg = [].
  Hypothesis Hignore : ignore_unknown cfg = false.
  Hypothesis Hsub : table (elaborated cfg) "subproof" = Some subproof.
  Let T := table (elaborated cfg).

  Record inv (fs : list nframe) (cx : list (list anchor)) (k : nat) : Prop := {
    i_wf : wfst fs;
    i_ok : forall j f n, nth_error fs j = Some f -> In n (nf_acc f) -> deep n = true /\ gok T (skipn (List.length fs - 1 - j) cx) n;
    i_adr : adr k (anodes fs);
    i_scope : forall j f n i x, nth_error fs j = Some f -> In n (nf_acc f) -> In x (scope i n) -> is_assume_at i x = true ->
      exists g, nth_error fs i = Some g /\ In x (nf_acc g) }.

  Lemma anodes_app a b : anodes (a ++ b) = anodes a ++ anodes b.
  Proof. unfold anodes. apply flat_map_app. Qed.
  Lemma anodes_one f : anodes [f] = nf_acc f.
  Proof. unfold anodes. cbn. apply app_nil_r. Qed.
  Lemma in_frame fs j f n : nth_error fs j = Some f -> In n (nf_acc f) -> In n (anodes fs).
  Proof. intros H1 H2. apply in_flat_map. exists f. split; auto. eapply nth_error_In; eauto. Qed.

  (** adding a node to the current frame *)
  Lemma inv_add outer cur cur' cx k n k' : inv (outer ++ [cur]) cx k -> nf_acc cur' = nf_acc cur ++ [n] -> wfst (outer ++ [cur']) ->
    deep n = true -> gok T cx n -> adr k' (n :: anodes (outer ++ [cur])) ->
    (forall i x, In x (scope i n) -> is_assume_at i x = true -> x = n /\ i = List.length outer \/ exists g, nth_error (outer ++ [cur]) i = Some g /\ In x (nf_acc g)) ->
    inv (outer ++ [cur']) cx k'.
  Proof.
    intros [Hw Ho Ha Hs] E Hw' Hd Hg Hadr Hsc.
    assert (Gf : forall j f m, nth_error (outer ++ [cur']) j = Some f -> In m (nf_acc f) ->
      (exists f0, nth_error (outer ++ [cur]) j = Some f0 /\ In m (nf_acc f0)) \/ (j = List.length outer /\ m = n)).
    { intros j f m Hj Hm. apply nth_snoc in Hj. destruct Hj as [Hj|[-> ->]]; [left; exists f; split; auto; apply nth_app_l; exact Hj|].
      rewrite E in Hm. apply in_app_or in Hm. destruct Hm as [Hm|[<-|[]]]; [left; exists cur; split; auto; apply nth_last|right; auto]. }
    assert (Gb : forall i g x, nth_error (outer ++ [cur]) i = Some g -> In x (nf_acc g) -> exists g', nth_error (outer ++ [cur']) i = Some g' /\ In x (nf_acc g')).
    { intros i g x Hi Hx. apply nth_snoc in Hi. destruct Hi as [Hi|[-> ->]]; [exists g; split; auto; apply nth_app_l; exact Hi|].
      exists cur'. split; [apply nth_last|]. rewrite E. apply in_or_app. auto. }
    split; auto.
    - intros j f m Hj Hm. rewrite app_length. cbn [List.length]. destruct (Gf _ _ _ Hj Hm) as [(f0 & Hj' & Hm')|[-> ->]].
      + destruct (Ho _ _ _ Hj' Hm') as [H1 H2]. rewrite app_length in H2. auto.
      + replace (List.length outer + 1 - 1 - List.length outer) with 0 by lia. auto.
    - eapply adr_incl; [|exact Hadr]. intros m Hm. rewrite anodes_app, anodes_one in *. rewrite E in Hm.
      apply in_app_or in Hm. destruct Hm as [Hm|Hm]; [right; apply in_or_app; auto|]. apply in_app_or in Hm.
      destruct Hm as [Hm|[<-|[]]]; [right; apply in_or_app; auto|left; reflexivity].
    - intros j f m i x Hj Hm Hx Hb. destruct (Gf _ _ _ Hj Hm) as [(f0 & Hj' & Hm')|[-> ->]].
      + destruct (Hs _ _ _ _ _ Hj' Hm' Hx Hb) as (g & Hg1 & Hg2). eauto.
      + destruct (Hsc _ _ Hx Hb) as [[-> ->]|(g & Hg1 & Hg2)]; [|eauto]. exists cur'. split; [apply nth_last|]. rewrite E. apply in_or_app. right. left. reflexivity.
  Qed.

  Lemma rel_nth fs stk d f : rel fs stk -> nth_error fs d = Some f -> exists e, nth_error (rev stk) d = Some e /\ frame_rel f (snd e).
  Proof.
    unfold rel. intros H Hf. rewrite <- map_rev in H. revert d Hf. remember (map snd (rev stk)) as l eqn:E. revert E. generalize (rev stk).
    induction H as [|f0 cs fs l Hr _ IH]; intros s E d Hf; [destruct d; discriminate|]. destruct s as [|e s]; [discriminate|]. injection E as -> ->.
    destruct d as [|d]; [injection Hf as ->; exists e; auto|]. cbn in Hf |- *. eapply IH; eauto.
  Qed.
  (** a reference means the same for the checker and for the graph *)
  Lemma fetch_get fs stk p n : rel fs stk -> fetch fs p = ROk n -> exists c, get_command stk p = ROk c /\ match_cmd c n.
  Proof.
    intros Hr Hf. unfold fetch in Hf. destruct (nth_error fs (fst p)) as [f|] eqn:E; [|discriminate]. cbn [unwrap obind] in Hf. apply unwrap_ok in Hf.
    destruct (rel_nth _ _ _ _ Hr E) as (e & He & Hfr). destruct (Hfr _ _ Hf) as (c & Hc & Hm). exists c. split; auto.
    unfold get_command. rewrite He. cbn [unwrap obind]. rewrite Hc. reflexivity.
  Qed.
  Lemma fetch_in fs p n : fetch fs p = ROk n -> exists f, nth_error fs (fst p) = Some f /\ In n (nf_acc f).
  Proof.
    unfold fetch. destruct (nth_error fs (fst p)) as [f|]; [|discriminate]. cbn [unwrap obind]. intros H. apply unwrap_ok in H. exists f. split; auto.
    eapply nth_error_In; eauto.
  Qed.
  Lemma prems_rel fs stk l : rel fs stk -> forall ns cs, omap (fetch fs) l = ROk ns -> omap (get_premise stk) l = ROk cs -> cs = map pclause ns.
  Proof.
    intros Hr. induction l as [|p r IH]; intros ns cs H1 H2; cbn [omap] in *; [injection H1 as <-; injection H2 as <-; reflexivity|].
    destruct (fetch fs p) as [n| |] eqn:E1; try discriminate. cbn [obind] in H1. destruct (omap (fetch fs) r) as [ns'| |] eqn:E2; try discriminate. injection H1 as <-.
    destruct (get_premise stk p) as [c| |] eqn:E3; try discriminate. cbn [obind] in H2. destruct (omap (get_premise stk) r) as [cs'| |] eqn:E4; try discriminate. injection H2 as <-.
    cbn [map]. f_equal; [|eauto]. destruct (fetch_get _ _ _ _ Hr E1) as (c' & Hc & Hm & _). unfold get_premise in E3. rewrite Hc in E3. cbn [obind] in E3. rewrite Hm in E3. injection E3 as <-. reflexivity.
  Qed.
  Lemma disch_rel fs stk l : rel fs stk -> forall ns cs, omap (fetch fs) l = ROk ns -> omap (get_command stk) l = ROk cs ->
    List.length cs = List.length ns /\ forall c, disch_ok cs c = disch_ok (map as_command ns) c.
  Proof.
    intros Hr. induction l as [|p r IH]; intros ns cs H1 H2; cbn [omap] in *; [injection H1 as <-; injection H2 as <-; auto|].
    destruct (fetch fs p) as [n| |] eqn:E1; try discriminate. cbn [obind] in H1. destruct (omap (fetch fs) r) as [ns'| |] eqn:E2; try discriminate. injection H1 as <-.
    destruct (get_command stk p) as [c| |] eqn:E3; try discriminate. cbn [obind] in H2. destruct (omap (get_command stk) r) as [cs'| |] eqn:E4; try discriminate. injection H2 as <-.
    destruct (IH _ _ eq_refl eq_refl) as [G1 G2]. split; [cbn; congruence|]. intros cl. destruct (fetch_get _ _ _ _ Hr E1) as (c' & Hc & _ & Hm). rewrite Hc in E3. injection E3 as <-.
    destruct c' as [id t|s|sub args z]; cbn [map].
    - destruct Hm as (a & d & ->). cbn [as_command]. destruct cl as [|t0 cl]; [reflexivity|]. cbn [disch_ok]. destruct (rm_neg t0); cbn [obind]; try reflexivity.
      destruct (assert_polyeq t a0); cbn [obind]; try reflexivity. apply G2.
    - destruct n; [discriminate| |]; destruct cl; reflexivity.
    - destruct n; [discriminate| |]; destruct cl; reflexivity.
  Qed.
  Lemma omap_In' {A B} (f : A -> outcome B) l bs b : omap f l = ROk bs -> In b bs -> exists a, In a l /\ f a = ROk b.
  Proof. intros H Hb. apply omap_ok in H. induction H; [destruct Hb|]. destruct Hb as [<-|Hb]; [eexists; split; [left|]; eauto|]. destruct (IHForall2 Hb) as (a & Ha & E). exists a. split; auto. right. auto. Qed.
  Lemma omap_In2 {A B} (f : A -> outcome B) l bs a b : omap f l = ROk bs -> In a l -> f a = ROk b -> In b bs.
  Proof. intros H Ha E. apply omap_ok in H. induction H; [destruct Ha|]. destruct Ha as [->|Ha]; [left; congruence|right; auto]. Qed.

  (** what is known after a command *)
  Definition post (c : command) (stk : stack) (k : nat) (outer : list nframe) (cur : nframe) (st : cstate) (k' : nat) (cur' : nframe) (st' : cstate) : Prop :=
    exists n, nf_acc cur' = nf_acc cur ++ [n] /\ match_cmd c n /\ inv (outer ++ [cur']) (st_ctx st) k' /\ k <= k' /\
      st_ctx st' = (match c with CStep _ => if is_end_step stk then tl (st_ctx st) else st_ctx st | _ => st_ctx st end) /\
      (is_end_step stk = true -> forall s, c = CStep s ->
         match n with PStep _ _ _ _ _ _ _ ds _ => forall x, In x (nf_acc cur) -> is_passume x = true -> In x ds | _ => False end).
  Definition cspec (c : command) : Prop := forall k outer cur k' cur' cs0 rest st st',
    node_cmd c (Nat.eqb (S (List.length (nf_acc cur))) (List.length cs0)) k outer cur = ROk (k', cur') ->
    nth_error cs0 (List.length (nf_acc cur)) = Some c ->
    run table cfg prems c ((S (List.length (nf_acc cur)), cs0) :: rest) st = ROk st' ->
    shape_ok c = true -> inv (outer ++ [cur]) (st_ctx st) k -> rel (outer ++ [cur]) ((S (List.length (nf_acc cur)), cs0) :: rest) ->
    List.length rest = List.length outer -> List.length (st_ctx st) = List.length outer ->
    post c ((S (List.length (nf_acc cur)), cs0) :: rest) k outer cur st k' cur' st'.
  Definition lspec (cs : list command) : Prop := forall k outer fr k' fr' pre rest st st',
    node_list cs k outer fr = ROk (k', fr') -> List.length pre = List.length (nf_acc fr) ->
    run_list table cfg prems (pre ++ cs) rest cs (List.length pre) st = ROk st' ->
    forallb shape_ok cs = true -> (outer = [] \/ exists a s, cs = a ++ [CStep s]) -> inv (outer ++ [fr]) (st_ctx st) k ->
    rel (outer ++ [fr]) ((List.length pre, pre ++ cs) :: rest) ->
    List.length rest = List.length outer -> List.length (st_ctx st) = List.length outer ->
    exists ns, nf_acc fr' = nf_acc fr ++ ns /\ Forall2 match_cmd cs ns /\ inv (outer ++ [fr']) (st_ctx st) k' /\ k <= k' /\
      st_ctx st' = (match outer with [] => st_ctx st | _ => tl (st_ctx st) end) /\
      (outer <> [] -> exists n ns0, ns = ns0 ++ [n] /\
         match n with PStep _ _ _ _ _ _ _ ds _ => forall x, In x (nf_acc fr ++ ns0) -> is_passume x = true -> In x ds | _ => False end).

  Lemma rel_top stk' i j cs rest fs : rel fs ((i, cs) :: rest) -> stk' = (j, cs) :: rest -> rel fs stk'.
  Proof. intros H ->. exact H. Qed.
  Lemma rel_add outer cur cur' n c i j cs rest : rel (outer ++ [cur]) ((i, cs) :: rest) -> nf_acc cur' = nf_acc cur ++ [n] ->
    nth_error cs (List.length (nf_acc cur)) = Some c -> match_cmd c n -> rel (outer ++ [cur']) ((j, cs) :: rest).
  Proof.
    unfold rel. cbn [map rev snd]. intros H E Hc Hm. apply Forall2_app_inv_l in H. destruct H as (l1 & l2 & H1 & H2 & El).
    inversion H2 as [|? cs' ? ? Hf Hn]; subst. inversion Hn; subst. apply app_inj_tail in El. destruct El as [-> <-].
    apply Forall2_app; auto. constructor; auto. intros q m Hq. rewrite E in Hq. apply nth_snoc in Hq. destruct Hq as [Hq|[-> ->]]; [auto|eauto].
  Qed.

  Lemma wfst_depth fs j f n : wfst fs -> nth_error fs j = Some f -> In n (nf_acc f) -> pdepth n = j.
  Proof. intros H Hj Hn. destruct (H _ _ Hj) as [H1 _]. rewrite Forall_forall in H1. auto. Qed.
  (** nodes fetched from the frames *)
  Lemma fetched fs l ns : omap (fetch fs) l = ROk ns -> forall n, In n ns -> exists j f, nth_error fs j = Some f /\ In n (nf_acc f).
  Proof. intros H n Hn. destruct (omap_In' _ _ _ _ H Hn) as (p & _ & E). apply fetch_in in E. destruct E as (f & E1 & E2). eauto. Qed.
  Lemma fold_and {A} (P : A -> Prop) l : (forall x, In x l -> P x) -> fold_right and True (map P l).
  Proof. induction l as [|a r IH]; intros H; cbn; [exact Logic.I|]. split; [apply H; left; reflexivity|]. apply IH. intros x Hx. apply H. right. exact Hx. Qed.

  Lemma cspec_assume id t : cspec (CAssume id t).
  Proof.
    intros k outer cur k' cur' cs0 rest st st' Hn Hc Hr _ Hi Hrel Hlr Hlc. cbn [node_cmd] in Hn. injection Hn as <- <-.
    cbn [run do_command] in Hr. destruct (check_assume cfg prems t _) as [b| |]; try discriminate. cbn [obind] in Hr. destruct b; [|discriminate]. injection Hr as <-.
    exists (PAssume k id (List.length outer) t). split; [reflexivity|]. split; [split; [reflexivity|]; eauto|]. split; [|split; [lia|split; [reflexivity|intros _ s E; discriminate]]].
    eapply inv_add; [exact Hi|reflexivity| | | | |]; auto.
    - eapply wfst_cur with (cur := cur) (ps := []); [apply Hi|reflexivity|reflexivity|intros p []|reflexivity].
    - exact Logic.I.
    - apply (adr_add k); [apply Hi|cbn; lia|intros x []].
    - intros i x Hx Hb. cbn [scope pdepth] in Hx. destruct (Nat.ltb (List.length outer) i); [destruct Hx|]. destruct Hx as [<-|[]]. left. split; auto.
      cbn in Hb. apply Nat.eqb_eq in Hb. auto.
  Qed.

  Lemma is_end_eq i cs rest (outer : list nframe) : List.length rest = List.length outer -> is_end_step ((i, cs) :: rest) = Nat.ltb 0 (List.length outer) && Nat.eqb i (List.length cs).
  Proof. intros H. unfold is_end_step, in_subproof, depth. cbn [List.length]. rewrite Nat.sub_succ, Nat.sub_0_r, H. reflexivity. Qed.

  Lemma cspec_step s : cspec (CStep s).
  Proof.
    intros k outer cur k' cur' cs0 rest st st' Hn Hc Hr _ Hi Hrel Hlr Hlc. cbn [node_cmd] in Hn. set (fs := outer ++ [cur]) in *.
    destruct (omap (fetch fs) (s_prems s)) as [ps| |] eqn:Eps; try discriminate. cbn [obind] in Hn.
    destruct (omap (fetch fs) (s_disch s)) as [ds| |] eqn:Eds; try discriminate. cbn [obind] in Hn.
    set (stk := (S (List.length (nf_acc cur)), cs0) :: rest) in *.
    assert (Eend : is_end_step stk = Nat.ltb 0 (List.length outer) && Nat.eqb (S (List.length (nf_acc cur))) (List.length cs0)) by (apply is_end_eq; exact Hlr).
    rewrite <- Eend in Hn.
    destruct (if is_end_step stk then _ else _) as [prev| |] eqn:Eprev in Hn; try discriminate. cbn [obind] in Hn. injection Hn as <- <-.
    cbn [run do_command] in Hr. unfold do_step, mk_rargs in Hr.
    destruct (previous_command stk) as [pc| |] eqn:Epc; try discriminate. cbn [obind] in Hr.
    destruct (omap (get_premise stk) (s_prems s)) as [pcs| |] eqn:Egp; try discriminate. cbn [obind] in Hr.
    destruct (omap (get_command stk) (s_disch s)) as [dcs| |] eqn:Egd; try discriminate. cbn [obind] in Hr.
    pose proof (prems_rel _ _ _ Hrel _ _ Eps Egp) as ->. destruct (disch_rel _ _ _ Hrel _ _ Eds Egd) as [Hdl Hdo].
    set (ra := mkRA (s_clause s) (map pclause ps) (s_args s) (st_ctx st) pc dcs) in *.
    destruct (step_core table cfg s ra _ _ _) as [h| |] eqn:Eh; try discriminate. cbn [obind] in Hr. injection Hr as <-.
    (* the previous command *)
    assert (Hpc : pc = match prev with Some p => Some (pclause p) | None => None end /\ (forall p, prev = Some p -> In p (nf_acc cur))).
    { unfold previous_command in Epc. destruct (is_end_step stk) eqn:Ee; [|injection Epc as <-; injection Eprev as <-; split; [reflexivity|discriminate]].
      destruct (nth_error (nf_acc cur) _) as [p|] eqn:Ep; [|discriminate]. cbn [unwrap obind] in Eprev. injection Eprev as <-.
      split; [|intros q [= <-]; eapply nth_error_In; eauto]. unfold stk in Epc. destruct (Nat.ltb (List.length cs0) 2); [discriminate|].
      symmetry in Eend. apply andb_true_iff in Eend. destruct Eend as [_ El]. apply Nat.eqb_eq in El.
      destruct (rel_nth _ _ _ _ Hrel (nth_last outer cur)) as (e & He & Hfr). unfold stk in He. cbn [rev] in He. rewrite <- Hlr, <- (rev_length rest) in He.
      rewrite nth_last in He. injection He as <-. cbn [snd] in Hfr. destruct (Hfr _ _ Ep) as (c & Hcn & Hm & _).
      rewrite <- El in Epc. replace (S (List.length (nf_acc cur)) - 2) with (List.length (nf_acc cur) - 1) in Epc by lia.
      rewrite Hcn in Epc. rewrite Hm in Epc. injection Epc as <-. reflexivity. }
    destruct Hpc as [Epc' Hprev].
    (* the rule *)
    unfold step_core in Eh. rewrite Hallowed in Eh. cbn [memb existsb] in Eh.
    destruct (negb (Nat.eqb (List.length (s_disch s)) 0) && negb (String.eqb (s_rule s) "subproof")) eqn:Ed; [discriminate|].
    destruct (table (elaborated cfg) (s_rule s)) as [f|] eqn:Ef; [|rewrite Hignore in Eh; discriminate].
    destruct (f ra) as [[]| |] eqn:Efr; try discriminate. cbn [obind] in Eh.
    assert (Hcd : is_end_step stk = true -> check_discharge 0 cs0 (List.length outer) (s_disch s) = ROk tt).
    { intros Ee. rewrite Ee in Eh. assert (Hin : in_subproof stk = true) by (unfold is_end_step in Ee; apply andb_true_iff in Ee; tauto).
      rewrite Hin in Eh. unfold stk at 1 in Eh. cbn [obind] in Eh.
      replace (depth stk) with (List.length outer) in Eh by (unfold depth, stk; cbn [List.length]; lia).
      destruct (check_discharge 0 cs0 (List.length outer) (s_disch s)) as [[]| |]; [reflexivity|discriminate|discriminate]. }
    assert (Hds : ds = [] \/ s_rule s = "subproof").
    { apply omap_ok in Eds. destruct (s_disch s) as [|p r]; [left; inversion Eds; reflexivity|]. cbn in Ed. right. apply negb_false_iff in Ed. apply String.eqb_eq. exact Ed. }
    assert (Hf : f (mkRA (s_clause s) (map pclause ps) (s_args s) (st_ctx st) pc (map as_command ds)) = ROk tt).
    { destruct Hds as [E|E].
      - subst ds. destruct dcs; [|discriminate]. exact Efr.
      - rewrite E, Hsub in Ef. injection Ef as <-. rewrite <- Efr. unfold subproof, ra. cbn [ra_prev ra_concl ra_disch]. rewrite map_length, Hdl.
        destruct (ok_or pc); cbn [obind]; try reflexivity. rewrite Hdo. reflexivity. }
    pose proof (fetched _ _ _ Eps) as Fps. pose proof (fetched _ _ _ Eds) as Fds.
    assert (Fpr : forall p, prev = Some p -> exists j f, nth_error fs j = Some f /\ In p (nf_acc f)).
    { intros p E. exists (List.length outer), cur. split; [apply nth_last|auto]. }
    assert (Gok : forall p, (exists j f, nth_error fs j = Some f /\ In p (nf_acc f)) -> deep p = true /\ gok T (skipn (List.length outer - pdepth p) (st_ctx st)) p).
    { intros p (j & f0 & H1 & H2). destruct (i_ok _ _ _ Hi _ _ _ H1 H2) as [G1 G2]. rewrite (wfst_depth _ _ _ _ (i_wf _ _ _ Hi) H1 H2).
      split; auto. unfold fs in G2. rewrite app_length in G2. cbn [List.length] in G2. replace (List.length outer + 1 - 1 - j) with (List.length outer - j) in G2 by lia. exact G2. }
    set (n := PStep k (s_id s) (List.length outer) (s_clause s) (s_rule s) ps (s_args s) ds prev).
    exists n. split; [reflexivity|]. split; [split; reflexivity|]. split; [|split; [lia|split]].
    - eapply inv_add; [exact Hi|reflexivity| | | | |].
      + eapply wfst_cur with (cur := cur) (n := n) (ps := ps); [apply Hi|reflexivity|reflexivity|exact Fps|reflexivity].
      + cbn [deep n]. rewrite !andb_true_iff, !forallb_forall. repeat split.
        * intros p Hp. apply Gok. auto.
        * intros p Hp. apply Gok. auto.
        * destruct prev as [p|]; [|reflexivity]. apply Gok. auto.
      + cbn [gok n]. split; [exists f; split; [exact Ef|rewrite <- Epc'; exact Hf]|]. split; [exact Hds|]. split.
        * apply (fold_and (fun p => gok T (skipn (List.length outer - pdepth p) (st_ctx st)) p)). intros p Hp. apply Gok. auto.
        * destruct prev as [p|]; [|exact Logic.I]. apply Gok. auto.
      + apply (adr_add k); [apply Hi|cbn; lia|]. cbn [subnodes tl n].
        assert (G : forall l, (forall p, In p l -> exists j f, nth_error fs j = Some f /\ In p (nf_acc f)) -> incl (flat_map subnodes l) (flat_map subnodes (anodes fs))).
        { intros l Hl. apply flat_map_incl. intros p Hp. destruct (Hl p Hp) as (j & f0 & H1 & H2). eapply in_frame; eauto. }
        apply incl_app; [apply G; exact Fps|]. apply incl_app; [apply G; exact Fds|].
        destruct prev as [p|]; [|intros x []]. rewrite <- (app_nil_r (subnodes p)). apply (G [p]). intros q [<-|[]]. auto.
      + intros i x Hx Hb. right. cbn [scope n pdepth] in Hx. destruct (Nat.ltb (List.length outer) i); [destruct Hx|]. destruct Hx as [<-|Hx]; [discriminate|].
        assert (G : forall p, (exists j f, nth_error fs j = Some f /\ In p (nf_acc f)) -> In x (scope i p) -> exists g, nth_error fs i = Some g /\ In x (nf_acc g)).
        { intros p (j & f0 & H1 & H2) Hp. eapply (i_scope _ _ _ Hi); eauto. }
        rewrite !in_app_iff, !in_flat_map in Hx. destruct Hx as [(p & Hp & Hx)|[(p & Hp & Hx)|Hx]]; [eauto|eauto|].
        destruct prev as [p|]; [|destruct Hx]. eauto.
    - cbn [st_ctx]. reflexivity.
    - intros Ee s' _. cbn [n]. intros x Hx Hb. specialize (Hcd Ee). apply In_nth_error in Hx. destruct Hx as [j Hj].
      destruct (rel_nth _ _ _ _ Hrel (nth_last outer cur)) as (e & He & Hfr). unfold stk in He. cbn [rev] in He. rewrite <- Hlr, <- (rev_length rest) in He.
      rewrite nth_last in He. injection He as <-. cbn [snd] in Hfr. destruct (Hfr _ _ Hj) as (c & Hcn & _ & Hm).
      destruct c as [id t|s1|sub args z]; [|congruence|congruence].
      pose proof (check_discharge_ok _ _ _ _ Hcd _ _ _ Hcn) as Hin. cbn [Nat.add] in Hin. eapply omap_In2; [exact Eds|exact Hin|].
      unfold fetch. cbn [fst snd]. unfold fs. rewrite nth_last. cbn [unwrap obind]. rewrite Hj. reflexivity.
  Qed.

  Lemma lspec_all cs : Forall cspec cs -> lspec cs.
  Proof.
    induction 1 as [|c r Hc Hr IH]; intros k outer fr k' fr' pre rest st st' Hn Hpre Hrun Hs Hlast Hi Hrel Hlr Hlc.
    - cbn [node_list run_list] in *. injection Hn as <- <-. injection Hrun as <-. destruct Hlast as [->|(a & s & E)]; [|destruct a; discriminate].
      exists []. rewrite app_nil_r. split; [reflexivity|]. split; [constructor|]. split; [exact Hi|]. split; [lia|]. split; [reflexivity|congruence].
    - cbn [node_list] in Hn. destruct (node_cmd c _ k outer fr) as [[k1 fr1]| |] eqn:En; try discriminate. cbn [obind fst snd] in Hn.
      cbn [run_list] in Hrun. destruct (run table cfg prems c ((S (List.length pre), pre ++ c :: r) :: rest) st) as [st1| |] eqn:Er; try discriminate. cbn [obind] in Hrun.
      cbn [forallb] in Hs. apply andb_true_iff in Hs. destruct Hs as [Hs1 Hs2].
      assert (Hnth : nth_error (pre ++ c :: r) (List.length (nf_acc fr)) = Some c) by (rewrite <- Hpre, nth_error_app2, Nat.sub_diag by lia; reflexivity).
      assert (Hb : (match r with [] => true | _ => false end) = Nat.eqb (S (List.length (nf_acc fr))) (List.length (pre ++ c :: r))).
      { rewrite app_length, <- Hpre. cbn [List.length]. destruct r as [|y r']; symmetry; [apply Nat.eqb_eq; cbn; lia|apply Nat.eqb_neq; cbn; lia]. }
      rewrite Hb in En. rewrite Hpre in Er.
      assert (Hrel' : rel (outer ++ [fr]) ((S (List.length (nf_acc fr)), pre ++ c :: r) :: rest)) by exact Hrel.
      destruct (Hc _ _ _ _ _ _ _ _ _ En Hnth Er Hs1 Hi Hrel' Hlr Hlc) as (n & Ha & Hm & Hi1 & Hk1 & Hcx & Hend).
      rewrite (is_end_eq _ _ _ outer Hlr), <- Hb in Hcx, Hend.
      destruct r as [|y r'].
      + cbn [node_list run_list] in *. injection Hn as <- <-. injection Hrun as <-.
        exists [n]. split; [exact Ha|]. split; [constructor; auto|]. split; [exact Hi1|]. split; [lia|].
        destruct outer as [|o outer].
        * cbn [List.length Nat.ltb Nat.leb andb] in Hcx. split; [destruct c; exact Hcx|congruence].
        * destruct Hlast as [E|(a & s & E)]; [discriminate|]. destruct a as [|a0 a]; [|destruct a; discriminate]. injection E as ->.
          cbn [List.length Nat.ltb Nat.leb andb] in Hcx, Hend. split; [exact Hcx|]. intros _. exists n, []. split; [reflexivity|]. rewrite app_nil_r. apply (Hend eq_refl s eq_refl).
      + rewrite andb_false_r in Hcx. assert (Hcx' : st_ctx st1 = st_ctx st) by (destruct c; exact Hcx). clear Hcx Hend.
        destruct (IH k1 outer fr1 k' fr' (pre ++ [c]) rest st1 st') as (ns & Ha2 & Hf2 & Hi2 & Hk2 & Hcx2 & Hend2); auto.
        * rewrite app_length, Ha, app_length, Hpre. reflexivity.
        * rewrite <- app_assoc, app_length. cbn [Datatypes.app List.length]. rewrite Nat.add_1_r. exact Hrun.
        * destruct Hlast as [E|(a & s & E)]; [auto|]. right. destruct a as [|a0 a]; [discriminate|]. injection E as _ E. eauto.
        * rewrite Hcx'. exact Hi1.
        * rewrite <- app_assoc. cbn [Datatypes.app]. eapply rel_add; [exact Hrel|exact Ha|exact Hnth|exact Hm].
        * rewrite Hcx'. exact Hlc.
        * rewrite Hcx' in *. exists (n :: ns). split; [rewrite Ha2, Ha, <- app_assoc; reflexivity|]. split; [constructor; auto|]. split; [exact Hi2|]. split; [lia|]. split; [exact Hcx2|].
          intros Ho. destruct (Hend2 Ho) as (m & ns0 & -> & G). exists m, (n :: ns0). split; [reflexivity|]. rewrite Ha, <- app_assoc in G. exact G.
  Qed.

  Lemma scope_depth i n x : In x (scope i n) -> i <= pdepth n.
  Proof.
    intros Hx. destruct (Nat.ltb_spec (pdepth n) i) as [H|H]; [|exact H]. exfalso. apply Nat.ltb_lt in H.
    destruct n; cbn [scope] in Hx; rewrite H in Hx; exact Hx.
  Qed.
  Lemma inv_push fs cx k args : inv fs cx k -> inv (fs ++ [mkNF [] []]) (args :: cx) k.
  Proof.
    intros [Hw Ho Ha Hs].
    assert (G : forall j f n, nth_error (fs ++ [mkNF [] []]) j = Some f -> In n (nf_acc f) -> nth_error fs j = Some f).
    { intros j f n Hj Hn. apply nth_snoc in Hj. destruct Hj as [Hj|[_ ->]]; [exact Hj|destruct Hn]. }
    split.
    - intros d f Hf. apply nth_snoc in Hf. destruct Hf as [Hf|[_ ->]]; [|split; constructor].
      destruct (Hw _ _ Hf) as [H1 H2]. split; auto. eapply Forall_impl; [|exact H2]. intros p (d' & f' & Hd & Hf' & Hp). exists d', f'. auto using nth_app_l.
    - intros j f n Hj Hn. pose proof (G _ _ _ Hj Hn) as Hj'. destruct (Ho _ _ _ Hj' Hn) as [H1 H2]. split; auto.
      assert (j < List.length fs) by (apply nth_error_Some; congruence). rewrite app_length. cbn [List.length].
      replace (List.length fs + 1 - 1 - j) with (S (List.length fs - 1 - j)) by lia. exact H2.
    - rewrite anodes_app, anodes_one. cbn [nf_acc]. rewrite app_nil_r. exact Ha.
    - intros j f n i x Hj Hn Hx Hb. destruct (Hs _ _ _ _ _ (G _ _ _ Hj Hn) Hn Hx Hb) as (g & Hg & Hx'). exists g. auto using nth_app_l.
  Qed.
  Lemma rel_push fs stk sub : rel fs stk -> rel (fs ++ [mkNF [] []]) ((0, sub) :: stk).
  Proof. intros H. unfold rel. cbn [map rev snd]. apply Forall2_app; [exact H|]. constructor; [|constructor]. intros j n Hj. destruct j; discriminate. Qed.
  Lemma f2_snoc {A B} (R : A -> B -> Prop) l x m y : Forall2 R (l ++ [x]) (m ++ [y]) -> R x y.
  Proof.
    intros H. apply Forall2_app_inv_l in H. destruct H as (m1 & m2 & _ & H & E). inversion H as [|? ? ? ? H1 H2]; subst. inversion H2; subst.
    apply app_inj_tail in E. destruct E as [_ <-]. exact H1.
  Qed.

  Lemma cspec_sub cs args z : Forall cspec cs -> cspec (CSub cs args z).
  Proof.
    intros HF k outer cur k' cur' cs0 rest st st' Hn Hc Hr Hsh Hi Hrel Hlr Hlc. rewrite node_sub in Hn. rewrite run_sub in Hr.
    set (fs := outer ++ [cur]) in *. set (stk := (S (List.length (nf_acc cur)), cs0) :: rest) in *.
    destruct (node_list cs k fs (mkNF [] [])) as [[k2 fr]| |] eqn:Enl; try discriminate. cbn [obind fst snd] in Hn.
    destruct (nth_error (nf_acc fr) (List.length (nf_acc fr) - 1)) as [l|] eqn:El; [|discriminate]. cbn [unwrap obind] in Hn. injection Hn as <- <-.
    cbn [shape_ok] in Hsh. rewrite !andb_true_iff in Hsh. destruct Hsh as [[Hl2 Hls] Hsh]. apply Nat.leb_le in Hl2.
    assert (Hne : cs <> []) by (destruct cs; [cbn in Hl2; lia|discriminate]).
    destruct (last cs (CAssume "" tTrue)) as [|s|] eqn:Elast; try discriminate.
    assert (Ecs : cs = removelast cs ++ [CStep s]) by (rewrite <- Elast; apply app_removelast_last; exact Hne).
    assert (Lfs : List.length fs = S (List.length outer)) by (unfold fs; rewrite app_length; cbn; lia).
    destruct (lspec_all cs HF k fs (mkNF [] []) k2 fr [] stk (mkSt (args :: st_ctx st) (st_reached st) (st_holey st)) st') as (ns & Ha & Hf2 & Hi2 & Hk2 & Hcx2 & Hend); auto.
    { right. eauto. }
    { cbn [st_ctx]. apply inv_push. exact Hi. }
    { cbn [Datatypes.app List.length]. apply rel_push. exact Hrel. }
    { unfold stk. cbn [List.length]. lia. }
    { cbn [st_ctx List.length]. lia. }
    cbn [st_ctx nf_acc Datatypes.app] in *. rewrite Ha in *.
    assert (Hfs : fs <> []) by (intros E; rewrite E in Lfs; discriminate).
    destruct (Hend Hfs) as (nl & ns0 & -> & Hds). destruct nl as [|a id d cl ru ps ar ds prev|]; [destruct Hds| |destruct Hds].
    set (nl := PStep a id d cl ru ps ar ds prev) in *.
    rewrite app_length in El. cbn [List.length] in El. replace (List.length ns0 + 1 - 1) with (List.length ns0) in El by lia. rewrite nth_last in El. injection El as <-.
    rewrite removelast_last. destruct Hi2 as [Hw2 Ho2 Ha2 Hsc2].
    assert (Hcxe : st_ctx st' = st_ctx st) by (destruct fs; [congruence|exact Hcx2]).
    assert (Hin : forall x, In x (ns0 ++ [nl]) -> In x (nf_acc fr)) by (intros x Hx; rewrite Ha; exact Hx).
    pose proof (nth_last fs fr) as Hnf.
    assert (Hpd : forall x, In x (ns0 ++ [nl]) -> pdepth x = List.length fs) by (intros x Hx; eapply wfst_depth; [exact Hw2|exact Hnf|auto]).
    assert (Hdg : forall x, In x (ns0 ++ [nl]) -> deep x = true /\ gok T (args :: st_ctx st) x).
    { intros x Hx. destruct (Ho2 _ _ _ Hnf (Hin x Hx)) as [G1 G2]. split; auto. rewrite app_length in G2. cbn [List.length] in G2.
      replace (List.length fs + 1 - 1 - List.length fs) with 0 in G2 by lia. exact G2. }
    assert (Hl : In nl (ns0 ++ [nl])) by (apply in_or_app; right; left; reflexivity).
    assert (Hout : forall p, In p (nf_out fr) -> exists j f, nth_error fs j = Some f /\ In p (nf_acc f)).
    { intros p Hp. destruct (Hw2 _ _ Hnf) as [_ H2]. rewrite Forall_forall in H2. destruct (H2 p Hp) as (j & f & Hj & Hf & Hpf). exists j, f. split; auto.
      rewrite nth_error_app1 in Hf by exact Hj. exact Hf. }
    set (n := PSub k2 nl args (nf_out fr) ns0).
    assert (Hadr : adr (S k2) (n :: anodes (fs ++ [fr]))).
    { apply (adr_add k2); [exact Ha2|cbn; lia|]. cbn [n]. change (tl (subnodes (PSub k2 nl args (nf_out fr) ns0))) with (flat_map subnodes (nf_out fr) ++ subnodes nl). apply incl_app.
      - apply flat_map_incl. intros p Hp. destruct (Hout p Hp) as (j & f & Hj & Hpf). eapply in_frame; [apply nth_app_l; exact Hj|exact Hpf].
      - intros x Hx. apply in_flat_map. exists nl. split; [|exact Hx]. eapply in_frame; [exact Hnf|auto]. }
    exists n. split; [reflexivity|]. split; [|split; [|split; [lia|split; [exact Hcxe|intros _ s0 E; discriminate]]]].
    - split; [|reflexivity]. rewrite (cmd_clause_last _ _ _ _ Hne Elast). rewrite Ecs in Hf2. apply f2_snoc in Hf2. destruct Hf2 as [H _]. exact H.
    - eapply inv_add with (cur := cur) (k := k); [exact Hi|reflexivity| | | | |].
      + eapply wfst_cur with (cur := cur) (n := n) (ps := nf_out fr); [apply Hi|reflexivity| |exact Hout|reflexivity]. cbn [pdepth n]. rewrite (Hpd nl Hl), Lfs. lia.
      + unfold n. cbn [deep]. rewrite !andb_true_iff, !forallb_forall. repeat split.
        * apply Nat.leb_le. rewrite (Hpd nl Hl), Lfs. lia.
        * apply Hdg. exact Hl.
        * intros p Hp. destruct (Hout p Hp) as (j & f & Hj & Hpf). apply (i_ok _ _ _ Hi _ _ _ Hj Hpf).
        * intros p Hp. apply Hdg. apply in_or_app. auto.
      + unfold n. change (gok T (args :: st_ctx st) nl /\ fold_right and True (map (gok T (args :: st_ctx st)) ns0) /\
          (forall x, In x (flat_map (scope (pdepth nl)) ns0 ++ scope (pdepth nl) nl) -> is_assume_at (pdepth nl) x = true -> In (paddr x) (map paddr ds))).
        split; [apply Hdg; exact Hl|]. split; [apply fold_and; intros p Hp; apply Hdg; apply in_or_app; auto|].
        intros x Hx Hb. rewrite (Hpd nl Hl) in *. apply in_map.
        assert (exists m, In m (ns0 ++ [nl]) /\ In x (scope (List.length fs) m)) as (m & Hm & Hxm).
        { apply in_app_or in Hx. destruct Hx as [Hx|Hx]; [|eauto]. apply in_flat_map in Hx. destruct Hx as (m & Hm & Hx). exists m. split; auto. apply in_or_app. auto. }
        destruct (Hsc2 _ _ _ _ _ Hnf (Hin m Hm) Hxm Hb) as (g & Hg & Hxg). rewrite Hnf in Hg. injection Hg as <-. rewrite Ha in Hxg.
        assert (Hpa : is_passume x = true) by (destruct x; [reflexivity|discriminate|discriminate]).
        apply in_app_or in Hxg. destruct Hxg as [Hxg|[<-|[]]]; [|discriminate]. apply Hds; auto.
      + eapply adr_incl; [|exact Hadr]. intros x [<-|Hx]; [left; reflexivity|]. right. rewrite anodes_app. apply in_or_app. auto.
      + intros i x Hx Hb. right.
        assert (G : forall p j f, nth_error (fs ++ [fr]) j = Some f -> In p (nf_acc f) -> In x (scope i p) -> i <= List.length outer -> exists g, nth_error fs i = Some g /\ In x (nf_acc g)).
        { intros p j f Hj Hp Hxp Hle. destruct (Hsc2 _ _ _ _ _ Hj Hp Hxp Hb) as (g & Hg & Hxg). exists g. split; auto. rewrite nth_error_app1 in Hg by lia. exact Hg. }
        pose proof (scope_depth _ _ _ Hx) as Hle. unfold n in Hx, Hle. cbn [scope pdepth] in Hx. cbn [pdepth] in Hle.
        change (pdepth nl - 1) with (pdepth nl - 1) in Hle. rewrite (Hpd nl Hl), Lfs in Hx, Hle.
        destruct (Nat.ltb (S (List.length outer) - 1) i); [destruct Hx|]. destruct Hx as [<-|Hx]; [discriminate|]. apply in_app_or in Hx. destruct Hx as [Hx|Hx].
        * apply in_flat_map in Hx. destruct Hx as (p & Hp & Hx). destruct (Hout p Hp) as (j & f & Hj & Hpf). eapply G; [apply nth_app_l; exact Hj|exact Hpf|exact Hx|lia].
        * eapply G; [exact Hnf|apply Hin; exact Hl|exact Hx|lia].
  Qed.
  Lemma cspec_all c : cspec c.
  Proof. induction c as [id t|s|cs args z IH] using command_ind'; [apply cspec_assume|apply cspec_step|apply cspec_sub; exact IH]. Qed.

  (** ** The graph of an accepted proof *)
  Theorem graph_accepted_from off proof b forest : forallb shape_ok proof = true -> check table cfg prems proof = ROk b -> nodes_from off proof = ROk forest ->
    Forall2 match_cmd proof forest /\
    Forall (fun n => pdepth n = 0 /\ deep n = true /\ addr_ok n /\ gok T [] n /\
      forall x, In x (subnodes n) -> is_assume_at 0 x = true -> In x forest) forest.
  Proof.
    intros Hs Hc Hn. rewrite check_eq in Hc. destruct (run_list table cfg prems proof [] proof 0 st0) as [st| |] eqn:Er; try discriminate.
    unfold nodes_from in Hn. destruct (node_list proof off [] (mkNF [] [])) as [[k fr]| |] eqn:En; try discriminate. cbn [obind snd] in Hn. injection Hn as <-.
    destruct (lspec_all proof) with (k := off) (outer := @nil nframe) (fr := mkNF [] []) (k' := k) (fr' := fr) (pre := @nil command) (rest := @nil (nat * list command)) (st := st0) (st' := st)
      as (ns & Ha & Hf2 & [Hw Ho Hadr Hsc] & _); auto.
    - apply Forall_forall. intros c _. apply cspec_all.
    - split.
      + intros d f Hd. destruct d as [|d]; [injection Hd as <-; split; constructor|destruct d; discriminate].
      + intros j f n Hj Hm. destruct j as [|j]; [injection Hj as <-; destruct Hm|destruct j; discriminate].
      + split; [intros x []|intros x y []].
      + intros j f n i x Hj Hm. destruct j as [|j]; [injection Hj as <-; destruct Hm|destruct j; discriminate].
    - unfold rel. cbn. constructor; [|constructor]. intros j n Hj. destruct j; discriminate.
    - cbn [nf_acc Datatypes.app] in *. rewrite Ha. split.
      + exact Hf2.
      + apply Forall_forall. intros n Hn'. assert (Hin : In n (nf_acc fr)) by (rewrite Ha; exact Hn'). destruct (Ho 0 fr n eq_refl Hin) as [H1 H2].
        split; [eapply wfst_depth; [exact Hw|reflexivity|exact Hin]|]. split; [exact H1|]. split; [|split; [exact H2|]].
        * destruct Hadr as [_ Hu]. intros x y Hx Hy. apply Hu; apply in_flat_map; exists n; (split; [rewrite anodes_one; exact Hin|assumption]).
        * intros x Hx Hb. rewrite <- scope_0 in Hx. destruct (Hsc 0 fr n 0 x eq_refl Hin Hx Hb) as (g & Hg & Hxg). injection Hg as <-. rewrite <- Ha. exact Hxg.
  Qed.
  Theorem graph_accepted proof b forest : forallb shape_ok proof = true -> check table cfg prems proof = ROk b -> to_nodes proof = ROk forest ->
    Forall2 match_cmd proof forest /\
    Forall (fun n => pdepth n = 0 /\ deep n = true /\ addr_ok n /\ gok T [] n /\
      forall x, In x (subnodes n) -> is_assume_at 0 x = true -> In x forest) forest.
  Proof. exact (graph_accepted_from 0 proof b forest). Qed.
End Accept.

(** ** The rules of the graph are those of the commands *)
Fixpoint cmd_rules (c : command) : list string :=
  match c with CAssume _ _ => [] | CStep s => [s_rule s] | CSub cs _ _ => flat_map cmd_rules cs end.
Section Rules_in.
  Variable R : string -> Prop.
  Definition nodes_in (l : list pnode) : Prop := forall n, In n l -> forall r, In r (rules_in n) -> R r.
  Lemma rules_omap fs l ns : nodes_in (anodes fs) -> omap (fetch fs) l = ROk ns -> nodes_in ns.
  Proof. intros H E n Hn. destruct (fetched _ _ _ E _ Hn) as (j & f & H1 & H2). apply H. eapply in_frame; eauto. Qed.
  Definition rspec (c : command) : Prop := forall b k outer cur k' cur', node_cmd c b k outer cur = ROk (k', cur') ->
    (forall r, In r (cmd_rules c) -> R r) -> nodes_in (anodes (outer ++ [cur])) -> nodes_in (nf_acc cur').
  Lemma rspec_list cs : Forall rspec cs -> forall k outer fr k' fr', node_list cs k outer fr = ROk (k', fr') ->
    (forall r, In r (flat_map cmd_rules cs) -> R r) -> nodes_in (anodes (outer ++ [fr])) -> nodes_in (nf_acc fr').
  Proof.
    induction 1 as [|c cs Hc _ IH]; intros k outer fr k' fr' Hn Hr Ha; cbn [node_list] in Hn.
    - injection Hn as <- <-. intros n H. apply Ha. rewrite anodes_app, anodes_one. apply in_or_app. auto.
    - destruct (node_cmd c _ k outer fr) as [[k1 fr1]| |] eqn:E; try discriminate. cbn [obind fst snd] in Hn. cbn [flat_map] in Hr.
      eapply IH; [exact Hn|intros r H; apply Hr; apply in_or_app; auto|]. intros n H. rewrite anodes_app, anodes_one in H. apply in_app_or in H. destruct H as [H|H].
      + apply Ha. rewrite anodes_app. apply in_or_app. auto.
      + eapply Hc; [exact E|intros r H'; apply Hr; apply in_or_app; auto|exact Ha|exact H].
  Qed.
  Lemma rspec_all c : rspec c.
  Proof.
    induction c as [id t|s|cs args z IH] using command_ind'; intros b k outer cur k' cur' Hn Hr Ha.
    - cbn [node_cmd] in Hn. injection Hn as <- <-. intros n H. cbn [nf_acc] in H. apply in_app_or in H. destruct H as [H|[<-|[]]]; [|intros r []].
      apply Ha. rewrite anodes_app, anodes_one. apply in_or_app. auto.
    - cbn [node_cmd] in Hn. destruct (omap (fetch (outer ++ [cur])) (s_prems s)) as [ps| |] eqn:Eps; try discriminate. cbn [obind] in Hn.
      destruct (omap (fetch (outer ++ [cur])) (s_disch s)) as [ds| |] eqn:Eds; try discriminate. cbn [obind] in Hn.
      match type of Hn with (do _ <- ?X ; _) = _ => destruct X as [prev| |] eqn:Ep; try discriminate end. cbn [obind] in Hn. injection Hn as <- <-.
      assert (Hcur : forall n, In n (nf_acc cur) -> In n (anodes (outer ++ [cur]))) by (intros n H; rewrite anodes_app, anodes_one; apply in_or_app; auto).
      intros n H. cbn [nf_acc] in H. apply in_app_or in H. destruct H as [H|[<-|[]]]; [apply Ha; auto|]. intros r H. cbn [rules_in] in H. destruct H as [<-|H]; [apply Hr; left; reflexivity|].
      apply in_app_or in H. destruct H as [H|H].
      + apply in_flat_map in H. destruct H as (p & Hp & H). exact (rules_omap _ _ _ Ha Eps p Hp r H).
      + destruct prev as [p|]; [|destruct H]. apply (Ha p); [|exact H]. apply Hcur. destruct (Nat.ltb 0 (List.length outer) && b); [|discriminate]. destruct (nth_error (nf_acc cur) _) as [q|] eqn:E; [|discriminate].
        injection Ep as ->. eapply nth_error_In; eauto.
    - rewrite node_sub in Hn. destruct (node_list cs k (outer ++ [cur]) (mkNF [] [])) as [[k2 fr]| |] eqn:En; try discriminate. cbn [obind fst snd] in Hn.
      destruct (nth_error (nf_acc fr) _) as [l|] eqn:El; [|discriminate]. cbn [unwrap obind] in Hn. injection Hn as <- <-.
      assert (G : nodes_in (nf_acc fr)).
      { eapply rspec_list; [exact IH|exact En|exact Hr|]. rewrite anodes_app, anodes_one. cbn [nf_acc]. rewrite app_nil_r. exact Ha. }
      intros n H. cbn [nf_acc] in H. apply in_app_or in H. destruct H as [H|[<-|[]]]; [apply Ha; rewrite anodes_app, anodes_one; apply in_or_app; auto|].
      intros r H. cbn [rules_in] in H. apply in_app_or in H. destruct H as [H|H]; [eapply G; [eapply nth_error_In; exact El|exact H]|].
      apply in_flat_map in H. destruct H as (p & Hp & H). eapply G; [|exact H]. clear -Hp. revert Hp. induction (nf_acc fr) as [|a r' IH]; [auto|].
      destruct r' as [|b r']; [intros []|]. intros [<-|H]; [left; reflexivity|right; apply IH; exact H].
  Qed.
  Lemma nodes_rules_from off proof forest : nodes_from off proof = ROk forest -> (forall r, In r (flat_map cmd_rules proof) -> R r) -> nodes_in forest.
  Proof.
    intros Hn Hr. unfold nodes_from in Hn. destruct (node_list proof off [] (mkNF [] [])) as [[k fr]| |] eqn:E; try discriminate. cbn [obind snd] in Hn. injection Hn as <-.
    eapply rspec_list; [|exact E|exact Hr|intros n []]. apply Forall_forall. intros c _. apply rspec_all.
  Qed.
  Lemma nodes_rules proof forest : to_nodes proof = ROk forest -> (forall r, In r (flat_map cmd_rules proof) -> R r) -> nodes_in forest.
  Proof. exact (nodes_rules_from 0 proof forest). Qed.
End Rules_in.
