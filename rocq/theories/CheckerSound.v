(** Properties of the sequential checker for an arbitrary rule table: what the "holey" verdict means,
    which proofs are accepted, and soundness relative to the soundness of the rules. *)
From Coq Require Import List String ZArith Bool Arith Lia.
From Verif Require Import Base Term Field Sem Sorting Rules Polyeq Std PolyeqSound Checker.
Import ListNotations.

(** ** Specification: the steps of a proof *)
Fixpoint cmd_steps (c : command) : list step :=
  match c with
  | CAssume _ _ => []
  | CStep s => [s]
  | CSub cs _ _ => flat_map cmd_steps cs
  end.
Definition proof_steps (proof : list command) : list step := flat_map cmd_steps proof.

Section Struct.
  Variable table : bool -> string -> option crule.
  Variable cfg : config.
  Variable prems : list term.
  Notation run := (run table cfg prems).
  Notation run_list := (run_list table cfg prems).
  Notation check := (check table cfg prems).

  (** A step is not really checked when its rule is allowed by name, is unknown, or is a hole. *)
  Definition unchecked (s : step) : bool :=
    memb String.eqb (s_rule s) (allowed cfg)
    || (match table (elaborated cfg) (s_rule s) with None => true | Some _ => false end)
    || memb String.eqb (s_rule s) ["hole"; "lia_generic"]%string.

  Lemma do_step_holey stk st s st' : do_step table cfg stk st s = ROk st' ->
    st_holey st' = st_holey st || unchecked s.
  Proof.
    unfold do_step. intros H. apply obind_ok in H. destruct H as [ra [_ H]].
    apply obind_ok in H. destruct H as [h [Hh H]]. injection H as <-. cbn [st_holey]. f_equal.
    unfold step_core in Hh. unfold unchecked.
    destruct (memb String.eqb (s_rule s) (allowed cfg)); [injection Hh as <-; reflexivity|].
    destruct (negb _ && negb _); [discriminate|].
    destruct (table _ _) as [r|]; cbn [orb].
    - apply obind_ok in Hh. destruct Hh as [_ [_ Hh]]. apply obind_ok in Hh. destruct Hh as [_ [_ Hh]].
      injection Hh as <-. unfold memb. cbn [existsb]. rewrite orb_false_r. reflexivity.
    - destruct (ignore_unknown cfg); [injection Hh as <-; reflexivity|discriminate].
  Qed.
  Lemma run_holey c : forall stk st st', run c stk st = ROk st' ->
    st_holey st' = st_holey st || existsb unchecked (cmd_steps c).
  Proof.
    induction c as [id t|s|cs args k IH] using command_ind'; intros stk st st' H.
    - cbn in H. apply obind_ok in H. destruct H as [b [_ H]]. destruct b; [|discriminate]. injection H as <-.
      cbn. rewrite orb_false_r. reflexivity.
    - cbn [Checker.run do_command] in H. apply do_step_holey in H. cbn. rewrite orb_false_r. exact H.
    - rewrite run_sub in H.
      assert (Hl : forall l i s0 s1, Forall (fun c => In c cs) l -> run_list cs stk l i s0 = ROk s1 ->
        st_holey s1 = st_holey s0 || existsb unchecked (flat_map cmd_steps l)).
      { induction l as [|x r IHl]; intros i s0 s1 Hin Hr; cbn [Checker.run_list flat_map existsb] in *.
        - injection Hr as <-. rewrite orb_false_r. reflexivity.
        - inversion Hin; subst. rewrite Forall_forall in IH. apply obind_ok in Hr. destruct Hr as [s2 [Hs2 Hr]].
          apply IH in Hs2; auto. apply IHl in Hr; auto. rewrite Hr, Hs2, existsb_app, orb_assoc. reflexivity. }
      apply Hl in H; [exact H|]. apply Forall_forall. auto.
  Qed.
  Lemma run_list_holey cs out l : forall i st st', run_list cs out l i st = ROk st' ->
    st_holey st' = st_holey st || existsb unchecked (proof_steps l).
  Proof.
    induction l as [|x r IH]; intros i st st' H; cbn [Checker.run_list proof_steps flat_map existsb] in *.
    - injection H as <-. rewrite orb_false_r. reflexivity.
    - apply obind_ok in H. destruct H as [s2 [H2 Hr]]. apply run_holey in H2. apply IH in Hr.
      rewrite Hr, H2, existsb_app, orb_assoc. reflexivity.
  Qed.
  Theorem check_holey proof b : check proof = ROk b -> b = existsb unchecked (proof_steps proof).
  Proof.
    rewrite check_eq. intros H. apply obind_ok in H. destruct H as [st [Hr H]].
    apply run_list_holey in Hr. destruct (st_reached st); [|discriminate]. injection H as <-. exact Hr.
  Qed.

  (** ** Shape guaranteed by the parser (parser/mod.rs: a subproof has at least two commands and ends
      with a step) *)
  Fixpoint shape_ok (c : command) : bool :=
    match c with
    | CSub cs _ _ => Nat.leb 2 (List.length cs)
        && (match last cs (CAssume "" tTrue) with CStep _ => true | _ => false end)
        && forallb shape_ok cs
    | _ => true
    end.
  Lemma list_last {A} (l : list A) d : 1 <= List.length l -> l = removelast l ++ [last l d].
  Proof. intros H. apply app_removelast_last. destruct l; cbn in H; [lia|discriminate]. Qed.
  Lemma cmd_clause_last cs a k s : cs <> [] -> last cs (CAssume "" tTrue) = CStep s ->
    cmd_clause (CSub cs a k) = Some (s_clause s).
  Proof.
    intros Hne Hl. cbn [cmd_clause]. induction cs as [|x r IH]; [congruence|].
    destruct r as [|y r]; [cbn in Hl; subst; reflexivity|]. apply IH; [discriminate|exact Hl].
  Qed.
  Lemma is_end_nonlast i cs out : i < List.length cs -> is_end_step ((i, cs) :: out) = false.
  Proof.
    intros H. unfold is_end_step. replace (i =? List.length cs) with false; [apply andb_false_r|].
    symmetry. apply Nat.eqb_neq. lia.
  Qed.
  Lemma is_end_last cs e out : is_end_step ((List.length cs, cs) :: e :: out) = true.
  Proof. unfold is_end_step, in_subproof, depth. cbn [List.length]. rewrite Nat.eqb_refl. reflexivity. Qed.
  Lemma do_step_inv stk st s st' : do_step table cfg stk st s = ROk st' ->
    exists ra, mk_rargs stk (st_ctx st) s = ROk ra /\
      st_ctx st' = (if is_end_step stk then tl (st_ctx st) else st_ctx st) /\
      st_reached st' = st_reached st || (Nat.eqb (List.length (s_clause s)) 0 && Nat.eqb (List.length (st_ctx st')) 0) /\
      exists h, step_core table cfg s ra (is_end_step stk)
        (if in_subproof stk then match stk with (_, cs) :: _ => Some cs | [] => None end else None) (depth stk) = ROk h /\
        st_holey st' = st_holey st || h.
  Proof.
    unfold do_step. intros H. apply obind_ok in H. destruct H as [ra [Hra H]].
    apply obind_ok in H. destruct H as [h [Hh H]]. injection H as <-. cbn [st_ctx st_reached st_holey]. eauto 10.
  Qed.

  Definition is_nil {A} (l : list A) : bool := match l with [] => true | _ => false end.
  (** the command concludes the empty clause *)
  Definition concl_empty (c : command) : bool := match cmd_clause c with Some [] => true | _ => false end.
  (** A command which is not the end step of a subproof leaves the context stack unchanged, and it sets
      [reached] exactly if it concludes the empty clause with no open context. *)
  Lemma run_ctx c : forall i cs out st st', run c ((i, cs) :: out) st = ROk st' ->
    shape_ok c = true -> (out = [] \/ i < List.length cs) ->
    st_ctx st' = st_ctx st /\ (match c with CAssume _ _ => true | _ =>
      Bool.eqb (st_reached st') (st_reached st || (is_nil (st_ctx st) && concl_empty c)) end) = true /\
      (match c with CAssume _ _ => st_reached st' = st_reached st | _ => True end).
  Proof.
    assert (Hnil : forall (st : cstate) s,
      (Nat.eqb (List.length (s_clause s)) 0 && Nat.eqb (List.length (st_ctx st)) 0)
      = is_nil (st_ctx st) && (match s_clause s with [] => true | _ => false end)).
    { intros st s. rewrite andb_comm. destruct (st_ctx st), (s_clause s); reflexivity. }
    induction c as [id t|s|sub args k IH] using command_ind'; intros i cs out st st' H Hs Hi.
    - cbn in H. apply obind_ok in H. destruct H as [b [_ H]]. destruct b; [|discriminate]. injection H as <-. auto.
    - cbn [Checker.run do_command] in H. apply do_step_inv in H. destruct H as [ra [_ [Hc [Hr _]]]].
      assert (He : is_end_step ((i, cs) :: out) = false).
      { destruct Hi as [->|Hi]; [reflexivity|]. apply is_end_nonlast; auto. }
      rewrite He in Hc. split; [exact Hc|]. split; [|auto]. rewrite Hr, Hnil, Hc. apply eqb_true_iff. reflexivity.
    - rewrite run_sub in H. cbn [shape_ok] in Hs. rewrite !andb_true_iff in Hs. destruct Hs as [[Hlen Hlast] Hall].
      apply Nat.leb_le in Hlen. destruct (last sub (CAssume "" tTrue)) as [| s |] eqn:El; try discriminate.
      pose proof (list_last sub (CAssume "" tTrue) ltac:(lia)) as Hsplit. rewrite El in Hsplit.
      set (pre := removelast sub) in *.
      assert (Hlp : List.length pre = List.length sub - 1) by (assert (List.length sub = List.length pre + 1) by (rewrite Hsplit at 1; rewrite app_length; reflexivity); lia).
      rewrite Hsplit in H at 2. rewrite run_list_app in H. apply obind_ok in H. destruct H as [s1 [H1 H2]].
      assert (Hpre : forall l j s0 s1, Forall (fun c => In c sub) l -> j + List.length l < List.length sub ->
        run_list sub ((i, cs) :: out) l j s0 = ROk s1 -> st_ctx s0 <> [] ->
        st_ctx s1 = st_ctx s0 /\ st_reached s1 = st_reached s0).
      { induction l as [|x r IHl]; intros j s0 s2 Hin Hj Hr Hne; cbn [Checker.run_list] in Hr.
        - injection Hr as <-. auto.
        - pose proof (Forall_inv Hin) as Hin1. pose proof (Forall_inv_tail Hin) as Hin2. cbn [List.length] in Hj. apply obind_ok in Hr. destruct Hr as [s3 [H3 Hr]].
          rewrite Forall_forall in IH. rewrite forallb_forall in Hall.
          apply IH in H3; auto; [|right; lia]. destruct H3 as [Hc3 Hr3].
          apply IHl in Hr; auto; [|lia|congruence]. destruct Hr as [Hc Hr]. split; [congruence|].
          rewrite Hr. destruct x; [tauto| |]; destruct Hr3 as [Hr3 _]; apply eqb_prop in Hr3; rewrite Hr3;
            destruct (st_ctx s0); try congruence; cbn; apply orb_false_r. }
      apply Hpre in H1.
      2:{ apply Forall_forall. intros x Hx. rewrite Hsplit. apply in_or_app. auto. }
      2:{ cbn. rewrite Hlp. lia. }
      2:{ cbn. discriminate. }
      cbn [st_ctx st_reached] in H1. destruct H1 as [Hc1 Hr1].
      cbn [Checker.run_list] in H2. apply obind_ok in H2. destruct H2 as [s2 [H2 Hx]]. injection Hx as ->.
      cbn [Checker.run do_command] in H2. apply do_step_inv in H2. destruct H2 as [ra [_ [Hc [Hr _]]]].
      replace (S (0 + List.length pre)) with (List.length sub) in * by (rewrite Hlp; lia).
      rewrite is_end_last in Hc. rewrite Hc1 in Hc. cbn [tl] in Hc. split; [exact Hc|]. split; [|auto].
      rewrite Hr, Hnil, Hc, Hr1. apply eqb_true_iff. f_equal. f_equal. unfold concl_empty.
      assert (Hne : sub <> []) by (intros ->; cbn in Hlen; lia).
      rewrite (cmd_clause_last _ _ _ s Hne El). destruct (s_clause s); reflexivity.
  Qed.
  Lemma run_list_ctx cs : forall l i st st', run_list cs [] l i st = ROk st' -> forallb shape_ok l = true -> st_ctx st = [] ->
    st_ctx st' = [] /\ st_reached st' = st_reached st || existsb concl_empty l.
  Proof.
    induction l as [|x r IH]; intros i st st' H Hs Hn; cbn [Checker.run_list forallb existsb] in *.
    - injection H as <-. rewrite orb_false_r. auto.
    - apply andb_true_iff in Hs. destruct Hs as [Hx Hs]. apply obind_ok in H. destruct H as [s1 [H1 H2]].
      apply run_ctx in H1; auto. destruct H1 as [C1 R1]. apply IH in H2; auto; [|congruence]. destruct H2 as [C2 R2].
      split; [exact C2|]. rewrite R2, orb_assoc. f_equal. destruct x.
      + unfold concl_empty. cbn. rewrite orb_false_r. tauto.
      + destruct R1 as [R1 _]. apply eqb_prop in R1. rewrite R1, Hn. reflexivity.
      + destruct R1 as [R1 _]. apply eqb_prop in R1. rewrite R1, Hn. reflexivity.
  Qed.
  Theorem check_reaches proof b : check proof = ROk b -> forallb shape_ok proof = true ->
    exists c, In c proof /\ cmd_clause c = Some [].
  Proof.
    rewrite check_eq. intros H Hs. apply obind_ok in H. destruct H as [st [Hr H]].
    apply run_list_ctx in Hr; auto. destruct Hr as [_ Hr]. destruct (st_reached st); [|discriminate].
    cbn in Hr. symmetry in Hr. apply existsb_exists in Hr. destruct Hr as [c [Hc He]]. exists c. split; [auto|].
    unfold concl_empty in He. destruct (cmd_clause c) as [[|]|]; [reflexivity|discriminate|discriminate].
  Qed.
  (** Once every command is accepted, the verdict depends only on the presence of the empty clause. *)
  Theorem check_verdict proof st : run_list proof [] proof 0 st0 = ROk st -> forallb shape_ok proof = true ->
    check proof = if existsb concl_empty proof then ROk (existsb unchecked (proof_steps proof)) else RErr.
  Proof.
    intros H Hs. rewrite check_eq, H. cbn [obind]. pose proof (run_list_holey _ _ _ _ _ _ H) as Hh.
    apply run_list_ctx in H; auto. destruct H as [_ ->]. cbn [st0 st_reached orb]. rewrite Hh. reflexivity.
  Qed.

  (** ** Every step is really run *)
  (** the rule function of [s] accepted it *)
  Definition accepted (s : step) : Prop := exists r ra, table (elaborated cfg) (s_rule s) = Some r /\ r ra = ROk tt /\
    ra_concl ra = s_clause s /\ ra_args ra = s_args s.
  Lemma run_accepted c : forall stk st st', run c stk st = ROk st' -> forall s, In s (cmd_steps c) -> accepted s \/ unchecked s = true.
  Proof.
    induction c as [id t|s|cs args k IH] using command_ind'; intros stk st st' H s' Hs.
    - contradiction.
    - destruct Hs as [<-|[]]. cbn [Checker.run do_command] in H. apply do_step_inv in H.
      destruct H as [ra [Hra [_ [_ [h [Hcore _]]]]]]. unfold step_core in Hcore. unfold unchecked.
      destruct (memb String.eqb (s_rule s) (allowed cfg)); [auto|].
      destruct (negb _ && negb _); [discriminate|].
      destruct (table _ _) as [r|] eqn:Et; [|auto]. left. exists r, ra. apply obind_ok in Hcore. destruct Hcore as [[] [Hr _]].
      unfold mk_rargs in Hra. apply obind_ok in Hra. destruct Hra as [prev [Hp H]].
      apply obind_ok in H. destruct H as [ps [Hps H]]. apply obind_ok in H. destruct H as [ds [Hds H]]. injection H as <-. auto.
    - rewrite run_sub in H. cbn [cmd_steps] in Hs.
      assert (Hl : forall l i s0 s1, Forall (fun c => In c cs) l -> run_list cs stk l i s0 = ROk s1 ->
        In s' (flat_map cmd_steps l) -> accepted s' \/ unchecked s' = true).
      { induction l as [|x r IHl]; intros i s0 s1 Hin Hr Hin'; cbn [Checker.run_list flat_map] in *; [contradiction|].
        pose proof (Forall_inv Hin) as Hin1. pose proof (Forall_inv_tail Hin) as Hin2. cbv beta in Hin1. rewrite Forall_forall in IH.
        apply obind_ok in Hr. destruct Hr as [s2 [Hs2 Hr]]. apply in_app_or in Hin'. destruct Hin' as [Hin'|Hin']; [eapply IH; eauto|eapply IHl; eauto]. }
      eapply (Hl cs); [apply Forall_forall; auto|exact H|exact Hs].
  Qed.
  Theorem check_accepted proof : check proof = ROk false -> forall s, In s (proof_steps proof) -> accepted s.
  Proof.
    intros H s Hs. pose proof (check_holey _ _ H) as Hh. rewrite check_eq in H. apply obind_ok in H. destruct H as [st [Hr _]].
    assert (Hu : unchecked s = false).
    { destruct (unchecked s) eqn:E; [|reflexivity]. rewrite Hh. symmetry. apply existsb_exists. eauto. }
    assert (Hl : forall l i s0 s1, run_list proof [] l i s0 = ROk s1 -> In s (proof_steps l) -> accepted s \/ unchecked s = true).
    { induction l as [|x r IHl]; intros i s0 s1 Hrr Hin'; cbn [Checker.run_list proof_steps flat_map] in *; [contradiction|].
      apply obind_ok in Hrr. destruct Hrr as [s2 [Hs2 Hrr]]. apply in_app_or in Hin'. destruct Hin' as [Hin'|Hin']; [eapply run_accepted; eauto|eapply IHl; eauto]. }
    destruct (Hl _ _ _ _ Hr Hs); [auto|congruence].
  Qed.

  (** ** Assumptions *)
  Lemma any_polyeq_true t ps : any_polyeq t ps = ROk true -> exists p, In p ps /\ assume_eq t p = ROk true.
  Proof.
    induction ps as [|p r IH]; cbn [any_polyeq]; intros H; [discriminate|].
    apply obind_ok in H. destruct H as [b [Hb H]]. destruct b; [exists p; cbn; auto|].
    apply IH in H. destruct H as [q [Hq He]]. exists q. cbn; auto.
  Qed.
  Lemma check_assume_true t : check_assume cfg prems t false = ROk true ->
    In t prems \/ (elaborated cfg = false /\ exists p, In p prems /\ assume_eq t p = ROk true).
  Proof.
    unfold check_assume. destruct (memb term_eqb t prems) eqn:Em.
    - intros _. left. apply (memb_In term_eqb) in Em; [auto|]. apply term_eqb_eq.
    - destruct (elaborated cfg); [discriminate|]. intros H. right. split; [reflexivity|]. apply any_polyeq_true; auto.
  Qed.
  Lemma run_list_assume cs : forall l i st st', run_list cs [] l i st = ROk st' ->
    forall id t, In (CAssume id t) l -> check_assume cfg prems t false = ROk true.
  Proof.
    induction l as [|x r IH]; intros i st st' H id t Hin; [contradiction|]. cbn [Checker.run_list] in H.
    apply obind_ok in H. destruct H as [s1 [H1 H2]]. destruct Hin as [->|Hin]; [|eapply IH; eauto].
    cbn in H1. apply obind_ok in H1. destruct H1 as [b [Hb H1]]. destruct b; [exact Hb|discriminate].
  Qed.
  Theorem check_assumes proof b : check proof = ROk b -> forall id t, In (CAssume id t) proof ->
    In t prems \/ (elaborated cfg = false /\ exists p, In p prems /\ assume_eq t p = ROk true).
  Proof.
    rewrite check_eq. intros H id t Hin. apply obind_ok in H. destruct H as [st [Hr _]].
    apply check_assume_true. eapply run_list_assume; eauto.
  Qed.

  (** ** Discharging *)
  Lemma check_discharge_ok cs d ds : forall i, check_discharge i cs d ds = ROk tt ->
    forall j id t, nth_error cs j = Some (CAssume id t) -> In (d, i + j) ds.
  Proof.
    induction cs as [|c r IH]; intros i H j id t Hj; [destruct j; discriminate|]. cbn [check_discharge] in H.
    destruct (is_assume c && negb (memb pair_eqb (d, i) ds)) eqn:E; [discriminate|].
    destruct j as [|j]; cbn [nth_error] in Hj.
    - injection Hj as ->. cbn [is_assume andb] in E. apply negb_false_iff in E. apply (memb_In pair_eqb) in E.
      + rewrite Nat.add_0_r. exact E.
      + intros [a1 a2] [b1 b2]. unfold pair_eqb. cbn. rewrite andb_true_iff, !Nat.eqb_eq. split; [intros []; congruence|intros H'; injection H'; auto].
    - replace (i + S j) with (S i + j) by lia. eapply IH; eauto.
  Qed.
  (** Every subproof closed by a checked step discharges all its assumptions. *)
  Lemma run_discharges sub args k i cs out st st' : run (CSub sub args k) ((i, cs) :: out) st = ROk st' ->
    shape_ok (CSub sub args k) = true -> existsb unchecked (cmd_steps (CSub sub args k)) = false ->
    exists s, last sub (CAssume "" tTrue) = CStep s /\
    forall j id t, nth_error sub j = Some (CAssume id t) -> s_rule s = "subproof"%string /\ In (S (List.length out), j) (s_disch s).
  Proof.
    intros H Hs Hu. rewrite run_sub in H. cbn [shape_ok] in Hs. rewrite !andb_true_iff in Hs. destruct Hs as [[Hlen Hlast] _].
    apply Nat.leb_le in Hlen. destruct (last sub (CAssume "" tTrue)) as [| s |] eqn:El; try discriminate.
    exists s. split; [reflexivity|]. intros j id t Hj.
    pose proof (list_last sub (CAssume "" tTrue) ltac:(lia)) as Hsplit. rewrite El in Hsplit.
    assert (Hlp : List.length sub = List.length (removelast sub) + 1) by (rewrite Hsplit at 1; rewrite app_length; reflexivity).
    rewrite Hsplit in H at 2. rewrite run_list_app in H. apply obind_ok in H. destruct H as [s1 [_ H2]].
    cbn [Checker.run_list] in H2. apply obind_ok in H2. destruct H2 as [s2 [H2 Hx]].
    cbn [Checker.run do_command] in H2. apply do_step_inv in H2. destruct H2 as [ra [_ [_ [_ [h [Hcore _]]]]]].
    replace (S (0 + List.length (removelast sub))) with (List.length sub) in * by lia.
    rewrite is_end_last in Hcore. unfold step_core in Hcore.
    assert (Hus : unchecked s = false).
    { destruct (unchecked s) eqn:E; [|reflexivity]. rewrite <- Hu. symmetry. apply existsb_exists. exists s. split; [|auto].
      cbn [cmd_steps]. apply in_flat_map. exists (CStep s). split; [|cbn; auto]. rewrite Hsplit. apply in_or_app. right. left. reflexivity. }
    unfold unchecked in Hus. destruct (memb String.eqb (s_rule s) (allowed cfg)); [discriminate|].
    destruct (negb (List.length (s_disch s) =? 0) && negb (s_rule s =? "subproof")%string) eqn:Ed; [discriminate|].
    destruct (table _ _) as [r|]; [|discriminate].
    apply obind_ok in Hcore. destruct Hcore as [[] [_ Hcore]]. apply obind_ok in Hcore. destruct Hcore as [[] [Hd _]].
    pose proof (check_discharge_ok _ _ _ _ Hd _ _ _ Hj) as Hin. unfold depth in Hin. cbn [List.length Nat.add] in Hin.
    replace (S (S (List.length out)) - 1) with (S (List.length out)) in Hin by lia. split; [|exact Hin].
    apply andb_false_iff in Ed. destruct Ed as [Ed|Ed]; apply negb_false_iff in Ed.
    - apply Nat.eqb_eq in Ed. destruct (s_disch s); [contradiction|discriminate].
    - apply String.eqb_eq in Ed. exact Ed.
  Qed.
End Struct.
