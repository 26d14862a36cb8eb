(** Comparison of two runs of the checker on the same proof: with more premises, with other options, in elaborated and in normal mode. *)
From Coq Require Import List String ZArith Bool Arith Lia.
From Verif Require Import Base Term Rules R_Eq Polyeq Checker CheckerSound CheckerRefute R_Resolution R_ResExact Context R_Binder Table NoPanicPoly ElabSound.
Import ListNotations.
Local Open Scope string_scope.
Local Open Scope nat_scope.
Local Open Scope list_scope.

(** a property of the assumed terms and of the steps of a proof *)
Fixpoint cmd_all (Pa : term -> bool) (Ps : step -> bool) (c : command) : bool :=
  match c with CAssume _ t => Pa t | CStep s => Ps s | CSub cs _ _ => forallb (cmd_all Pa Ps) cs end.

Section Mono.
  Variables (table1 table2 : bool -> string -> option crule) (cfg1 cfg2 : config) (prems1 prems2 : list term).
  Variable hr : bool -> bool -> Prop.
  Variables (Pa : term -> bool) (Ps : step -> bool).
  Hypothesis H0 : hr false false.
  Hypothesis Hor : forall a b c d, hr a b -> hr c d -> hr (a || c) (b || d).
  Hypothesis Hassume : forall t b, Pa t = true -> check_assume cfg1 prems1 t b = ROk true -> check_assume cfg2 prems2 t b = ROk true.
  Hypothesis Hstep : forall s ra e sub d h, Ps s = true -> ra_concl ra = s_clause s -> step_core table1 cfg1 s ra e sub d = ROk h ->
    exists h', step_core table2 cfg2 s ra e sub d = ROk h' /\ hr h h'.
  Definition srel (a b : cstate) : Prop := st_ctx a = st_ctx b /\ st_reached a = st_reached b /\ hr (st_holey a) (st_holey b).
  Lemma mk_rargs_concl stk cx s ra : mk_rargs stk cx s = ROk ra -> ra_concl ra = s_clause s.
  Proof.
    unfold mk_rargs. intros H. apply obind_ok in H. destruct H as (p & _ & H). apply obind_ok in H. destruct H as (q & _ & H). apply obind_ok in H. destruct H as (r & _ & H).
    injection H as <-. reflexivity.
  Qed.
  Lemma do_command_mono c stk st st' r : (match c with CSub _ _ _ => true | _ => cmd_all Pa Ps c end) = true -> srel st st' ->
    do_command table1 cfg1 prems1 stk st c = ROk r -> exists r', do_command table2 cfg2 prems2 stk st' c = ROk r' /\ srel r r'.
  Proof.
    intros Hc (R1 & R2 & R3) H. destruct c as [id t|s|cs args k]; cbn [do_command cmd_all] in *.
    - apply obind_ok in H. destruct H as (b & Hb & H). destruct b; [|discriminate]. injection H as <-. rewrite (Hassume t _ Hc Hb). cbn [obind]. exists st'. split; [reflexivity|]. unfold srel. auto.
    - unfold do_step in *. apply obind_ok in H. destruct H as (ra & Hra & H). rewrite <- R1, Hra. cbn [obind]. apply obind_ok in H. destruct H as (h & Hh & H).
      destruct (Hstep _ _ _ _ _ _ Hc (mk_rargs_concl _ _ _ _ Hra) Hh) as (h' & Hh' & Hr). rewrite Hh'. cbn [obind]. injection H as <-. eexists. split; [reflexivity|].
      unfold srel. cbn [st_ctx st_reached st_holey]. rewrite R2. split; [reflexivity|]. split; [reflexivity|]. apply Hor; auto.
    - injection H as <-. eexists. split; [reflexivity|]. unfold srel. cbn. rewrite R1. auto.
  Qed.
  Lemma run_mono c : forall stk st st' r, cmd_all Pa Ps c = true -> srel st st' -> run table1 cfg1 prems1 c stk st = ROk r ->
    exists r', run table2 cfg2 prems2 c stk st' = ROk r' /\ srel r r'.
  Proof.
    induction c as [id t|s|cs args k IH] using command_ind'; intros stk st st' r Hc Hs H.
    - apply (do_command_mono (CAssume id t) stk st st' r); auto.
    - apply (do_command_mono (CStep s) stk st st' r); auto.
    - rewrite run_sub in *. cbn [cmd_all] in Hc.
      assert (G : forall l i st st' r, Forall (fun c => forall stk st st' r, cmd_all Pa Ps c = true -> srel st st' -> run table1 cfg1 prems1 c stk st = ROk r ->
        exists r', run table2 cfg2 prems2 c stk st' = ROk r' /\ srel r r') l -> forallb (cmd_all Pa Ps) l = true -> srel st st' ->
        run_list table1 cfg1 prems1 cs stk l i st = ROk r -> exists r', run_list table2 cfg2 prems2 cs stk l i st' = ROk r' /\ srel r r').
      { induction l as [|x l IHl]; intros i a a' z HF Hl Ha Hz; cbn [run_list] in *.
        - injection Hz as <-. exists a'. auto.
        - apply Forall_cons_iff in HF. destruct HF as [Hx HF]. cbn [forallb] in Hl. apply andb_true_iff in Hl. destruct Hl as [Hl1 Hl2]. apply obind_ok in Hz. destruct Hz as (y & Hy & Hz).
          destruct (Hx _ _ a' _ Hl1 Ha Hy) as (y' & Hy' & Sy). rewrite Hy'. cbn [obind]. eapply IHl; eauto. }
      eapply G; eauto. destruct Hs as (R1 & R2 & R3). unfold srel. cbn. rewrite R1. auto.
  Qed.
  Lemma check_mono proof b : forallb (cmd_all Pa Ps) proof = true -> check table1 cfg1 prems1 proof = ROk b ->
    exists b', check table2 cfg2 prems2 proof = ROk b' /\ hr b b'.
  Proof.
    intros Hp H. rewrite check_eq in *. apply obind_ok in H. destruct H as (st & Hst & H).
    assert (G : forall l i st st' r, forallb (cmd_all Pa Ps) l = true -> srel st st' ->
      run_list table1 cfg1 prems1 proof [] l i st = ROk r -> exists r', run_list table2 cfg2 prems2 proof [] l i st' = ROk r' /\ srel r r').
    { induction l as [|x l IHl]; intros i a a' z Hl Ha Hz; cbn [run_list] in *.
      - injection Hz as <-. exists a'. auto.
      - cbn [forallb] in Hl. apply andb_true_iff in Hl. destruct Hl as [Hl1 Hl2]. apply obind_ok in Hz. destruct Hz as (y & Hy & Hz).
        destruct (run_mono _ _ _ a' _ Hl1 Ha Hy) as (y' & Hy' & Sy). rewrite Hy'. cbn [obind]. eapply IHl; eauto. }
    destruct (G proof 0 st0 st0 st Hp) as (st' & Hst' & (_ & R2 & R3)); [unfold srel; auto|exact Hst|]. rewrite Hst'. cbn [obind]. rewrite <- R2. destruct (st_reached st); [|discriminate].
    injection H as <-. exists (st_holey st'). auto.
  Qed.
End Mono.

Definition all_true {A} (_ : A) : bool := true.
Lemma cmd_all_true c : cmd_all all_true all_true c = true.
Proof. induction c as [id t|s|cs args k IH] using command_ind'; [reflexivity|reflexivity|]. cbn [cmd_all]. apply forallb_forall. rewrite Forall_forall in IH. exact IH. Qed.
Lemma proof_all_true proof : forallb (cmd_all all_true all_true) proof = true.
Proof. apply forallb_forall. intros c _. apply cmd_all_true. Qed.

(** ** More assertions *)
Section Premises.
  Variable table : bool -> string -> option crule.
  Variable cfg : config.
  Lemma any_more t prems2 : tame t = true -> forallb tame prems2 = true -> (exists p, In p prems2 /\ assume_eq t p = ROk true) -> any_polyeq t prems2 = ROk true.
  Proof.
    intros Ht. induction prems2 as [|p r IH]; intros Hp (q & Hq & E); [destruct Hq|]. cbn [forallb] in Hp. apply andb_true_iff in Hp. destruct Hp as [Hp1 Hp2]. cbn [any_polyeq].
    destruct (peq_total cfg_assume t p Ht Hp1) as [b Eb]. change (peq cfg_assume t p) with (assume_eq t p) in Eb. rewrite Eb. cbn [obind]. destruct b; [reflexivity|]. apply IH; [exact Hp2|].
    destruct Hq as [->|Hq]; [congruence|]. exists q. auto.
  Qed.
  Lemma any_one t prems : any_polyeq t prems = ROk true -> exists p, In p prems /\ assume_eq t p = ROk true.
  Proof.
    induction prems as [|p r IH]; intros H; [discriminate|]. cbn [any_polyeq] in H. apply obind_ok in H. destruct H as (b & Hb & H). destruct b; [exists p; split; [left; reflexivity|exact Hb]|].
    destruct (IH H) as (q & Hq & E). exists q. split; [right; exact Hq|exact E].
  Qed.
  Theorem premises_mono prems1 prems2 proof b : (forall p, In p prems1 -> In p prems2) -> forallb tame prems2 = true -> forallb (cmd_all tame all_true) proof = true ->
    check table cfg prems1 proof = ROk b -> check table cfg prems2 proof = ROk b.
  Proof.
    intros Hi Hp2 Hall H. destruct (check_mono table table cfg cfg prems1 prems2 eq tame all_true) with (proof := proof) (b := b) as (b' & Hb' & <-); auto.
    - congruence.
    - intros t i Ht Ha. unfold check_assume in *. destruct i; [reflexivity|]. destruct (memb term_eqb t prems2) eqn:E2; [reflexivity|].
      destruct (memb term_eqb t prems1) eqn:E1.
      { exfalso. apply (memb_In term_eqb term_eqb_eq) in E1. apply Hi in E1. apply (memb_In term_eqb term_eqb_eq) in E1. congruence. }
      destruct (elaborated cfg); [discriminate|]. apply any_more; auto. destruct (any_one _ _ Ha) as (p & Hp & E). exists p. auto.
    - intros s ra e sub d h _ _ Hs. exists h. auto.
  Qed.
End Premises.

(** ** More lenient options *)
Section Options.
  Variable table : bool -> string -> option crule.
  Theorem options_mono e prems i1 i2 a1 a2 proof b : (i1 = true -> i2 = true) -> (forall r, In r a1 -> In r a2) ->
    check table (mkCfg e i1 a1) prems proof = ROk b -> exists b', check table (mkCfg e i2 a2) prems proof = ROk b' /\ (b = true -> b' = true).
  Proof.
    intros Hi Ha H. apply (check_mono table table (mkCfg e i1 a1) (mkCfg e i2 a2) prems prems (fun x y => x = true -> y = true) all_true all_true) with (proof := proof) (b := b); auto.
    - intros [] [] [] []; cbn; auto.
    - intros s ra is_end sub d h _ _. unfold step_core. cbn [allowed elaborated ignore_unknown].
      destruct (memb String.eqb (s_rule s) a2) eqn:E2; [intros _; exists true; auto|]. destruct (memb String.eqb (s_rule s) a1) eqn:E1.
      { exfalso. apply (memb_In String.eqb String.eqb_eq) in E1. apply Ha in E1. apply (memb_In String.eqb String.eqb_eq) in E1. congruence. }
      destruct (_ && _); [discriminate|]. destruct (table e (s_rule s)) as [f|]; [intros Hf; exists h; auto|]. destruct i1; [|discriminate]. rewrite (Hi eq_refl). intros [= <-]. exists true. auto.
    - apply proof_all_true.
  Qed.
  Lemma cmd_all_steps Ps c : (forall s, In s (cmd_steps c) -> Ps s = true) -> cmd_all all_true Ps c = true.
  Proof.
    induction c as [id t|s|cs args k IH] using command_ind'; intros H; [reflexivity|apply H; left; reflexivity|]. cbn [cmd_all]. apply forallb_forall. intros x Hx. rewrite Forall_forall in IH. apply IH; [exact Hx|].
    intros s Hs. apply H. cbn [cmd_steps]. apply in_flat_map. exists x. auto.
  Qed.
  (** options that were not used do not matter *)
  Theorem options_unused e prems i a proof : check table (mkCfg e i a) prems proof = ROk false -> check table (mkCfg e false []) prems proof = ROk false.
  Proof.
    intros H. pose (Ps := fun s => negb (memb String.eqb (s_rule s) a) && match table e (s_rule s) with Some _ => true | None => false end).
    destruct (check_mono table table (mkCfg e i a) (mkCfg e false []) prems prems eq all_true Ps) with (proof := proof) (b := false) as (b' & Hb' & <-); auto.
    - congruence.
    - intros s ra is_end sub d h Hs _. unfold step_core. cbn [allowed elaborated ignore_unknown]. change (memb String.eqb (s_rule s) []) with false. unfold Ps in Hs. apply andb_true_iff in Hs. destruct Hs as [H1 H2]. apply negb_true_iff in H1. rewrite H1.
      destruct (_ && _); [discriminate|]. destruct (table e (s_rule s)); [eauto|discriminate].
    - apply forallb_forall. intros c Hc. apply cmd_all_steps. intros s Hs. unfold Ps.
      assert (N : ~ (In (s_rule s) a \/ table e (s_rule s) = None)).
      { intros Hor. apply (holey_exact _ _ _ _ _) in H. enough (false = true) by discriminate. apply H. exists s. split; [unfold proof_steps; apply in_flat_map; exists c; auto|]. cbn [allowed elaborated]. tauto. }
      apply andb_true_iff. split; [apply negb_true_iff|].
      + destruct (memb String.eqb (s_rule s) a) eqn:E; [|reflexivity]. apply (memb_In String.eqb String.eqb_eq) in E. tauto.
      + destruct (table e (s_rule s)); [reflexivity|tauto].
  Qed.
End Options.

(** ** Elaborated mode is stricter *)
Section Strict.
  Variable other : string -> crule.
  Notation T := (rule_table (fun _ => other)).
  Lemma res_strict c ps args : r_resolution_with_args c ps args = ROk tt -> r_resolution c ps args = ROk tt.
  Proof.
    intros H. unfold r_resolution. destruct args as [|x args]; [|exact H]. exfalso. apply resolution_with_args_exact in H. destruct H as (p0 & p1 & rest & pv & -> & Hp & HL & _). inversion Hp; subst. discriminate.
  Qed.
  Lemma alpha_refl a : alpha_equiv a a = ROk true.
  Proof. unfold alpha_equiv, peq, eq_rc. change (renamed (st_new cfg_alpha)) with false. rewrite term_eqb_rf. reflexivity. Qed.
  Lemma refl_strict ra : forallb tame (ra_concl ra) = true -> r_strict_refl ra = ROk tt -> r_refl ra = ROk tt.
  Proof.
    unfold r_strict_refl, r_refl. destruct (fresh_stack (ra_ctx ra)) as [|lv st] eqn:Est; set (stk := fresh_stack (ra_ctx ra)) in *; intros Ht H; apply obind_ok in H; destruct H as (st' & H & _); unfold strict_refl_st, refl_pair in *;
      apply obind_ok in H; destruct H as ([] & H1 & H); rewrite H1; cbn [obind]; apply obind_ok in H; destruct H as (c0 & H2 & H); rewrite H2; cbn [obind]; apply obind_ok in H; destruct H as ((l, r) & H3 & H); rewrite H3; cbn [obind].
    1,2: assert (Hlr : tame l = true /\ tame r = true).
    1,3: destruct (ra_concl ra) as [|t [|]]; try discriminate; cbn in H2; injection H2 as <-; cbn [forallb] in Ht; rewrite andb_true_r in Ht; apply m_op2_ok in H3; subst; cbn [tame forallb] in Ht; rewrite !andb_true_iff in Ht; tauto.
    - destruct (term_eqb l r) eqn:E; [|discriminate]. apply term_eqb_eq in E. subst r. rewrite alpha_refl. reflexivity.
    - destruct (term_eqb l r) eqn:E; [apply term_eqb_eq in E; subst r; rewrite alpha_refl; reflexivity|].
      destruct (peq_total cfg_alpha l r (proj1 Hlr) (proj2 Hlr)) as [b Eb]. change (peq cfg_alpha l r) with (alpha_equiv l r) in Eb. rewrite Eb. cbn [obind]. destruct b; [reflexivity|].
      cbn [rassert obind] in *. apply obind_ok in H. destruct H as ((l', st1) & H4 & H). rewrite H4. cbn [obind]. apply obind_ok in H. destruct H as ([] & H5 & _). apply rassert_ok in H5. apply term_eqb_eq in H5. subst l'.
      rewrite alpha_refl. reflexivity.
  Qed.
  Lemma assoc_app {A} name (a b : list (string * A)) : assoc name (a ++ b) = match assoc name a with Some x => Some x | None => assoc name b end.
  Proof. induction a as [|[n x] r IH]; cbn [assoc app]; [reflexivity|]. destruct (String.eqb name n); auto. Qed.
  (** a rule of elaborated mode is known in normal mode and accepts what it accepted *)
  Lemma table_strict name f : T true name = Some f -> exists g, T false name = Some g /\
    forall ra, (if String.eqb name "refl" then forallb tame (ra_concl ra) else true) = true -> f ra = ROk tt -> g ra = ROk tt.
  Proof.
    unfold rule_table, entries, binder_rules. generalize (map (fun p => (fst p, e_plain (snd p))) plain_rules) (map (fun p => (fst p, e_partial (fst (snd p)) (snd (snd p)))) partial_rules).
    intros l1 l2. rewrite !assoc_app. destruct (assoc name l1) as [e|]; [intros [= <-]; eauto|]. destruct (assoc name l2) as [e|]; [intros [= <-]; eauto|].
    cbn [assoc app]. destruct (String.eqb name "resolution").
    { intros [= <-]. eexists. split; [reflexivity|]. intros ra _. apply res_strict. }
    destruct (String.eqb name "th_resolution").
    { intros [= <-]. eexists. split; [reflexivity|]. intros ra _. apply res_strict. }
    destruct (String.eqb name "refl").
    { intros [= <-]. eexists. split; [reflexivity|]. intros ra. apply refl_strict. }
    intros H. exists f. split; [exact H|auto].
  Qed.
  Lemma table_none name : T true name = None -> T false name = None.
  Proof.
    unfold rule_table, entries, binder_rules. generalize (map (fun p => (fst p, e_plain (snd p))) plain_rules) (map (fun p => (fst p, e_partial (fst (snd p)) (snd (snd p)))) partial_rules).
    intros l1 l2. rewrite !assoc_app. destruct (assoc name l1) as [x|]; [discriminate|]. destruct (assoc name l2) as [x|]; [discriminate|].
    cbn [assoc app]. destruct (String.eqb name "resolution"); [discriminate|]. destruct (String.eqb name "th_resolution"); [discriminate|]. destruct (String.eqb name "refl"); [discriminate|]. intros H. exact H.
  Qed.
  Lemma unit_ok (x : outcome unit) (k : outcome bool) h : (x ;; k) = ROk h -> x = ROk tt /\ k = ROk h.
  Proof. intros H. apply obind_ok in H. destruct H as ([] & H1 & H2). auto. Qed.
  (** the steps by refl conclude terms whose comparison cannot panic *)
  Definition refl_tame (s : step) : bool := if String.eqb (s_rule s) "refl" then forallb tame (s_clause s) else true.
  Theorem strict_mono i a prems proof b : forallb (cmd_all all_true refl_tame) proof = true ->
    check T (mkCfg true i a) prems proof = ROk b -> check T (mkCfg false i a) prems proof = ROk b.
  Proof.
    intros Hall H. destruct (check_mono T T (mkCfg true i a) (mkCfg false i a) prems prems eq all_true refl_tame) with (proof := proof) (b := b) as (b' & Hb' & <-); auto.
    - congruence.
    - intros t in_sub _. unfold check_assume. cbn [elaborated]. destruct in_sub; [auto|]. destruct (memb term_eqb t prems); [auto|discriminate].
    - intros s ra e sub d h Hs Hc. unfold step_core. cbn [allowed elaborated ignore_unknown]. destruct (memb String.eqb (s_rule s) a); [eauto|]. destruct (_ && _); [discriminate|].
      destruct (T true (s_rule s)) as [f|] eqn:Ef.
      + intros H'. destruct (table_strict _ _ Ef) as (g & Eg & Hg). rewrite Eg. apply unit_ok in H'. destruct H' as [H1 H2]. unfold refl_tame in Hs. rewrite <- Hc in Hs. rewrite (Hg ra Hs H1). cbn [obind]. eauto.
      + rewrite (table_none _ Ef). intros H'. exists h. auto.
  Qed.
End Strict.

(** ** Names of commands *)
Section Rename.
  Variables (f : string -> string) (g : nat -> nat).
  Definition ren_step (s : step) : step := mkStep (f (s_id s)) (s_clause s) (s_rule s) (s_prems s) (s_args s) (s_disch s).
  (** the proof with the names of its commands replaced by [f] and the identifiers of its contexts by [g] *)
  Fixpoint ren (c : command) : command :=
    match c with CAssume id t => CAssume (f id) t | CStep s => CStep (ren_step s) | CSub cs args k => CSub (map ren cs) args (g k) end.
  Definition ren_stack (stk : stack) : stack := map (fun e => (fst e, map ren (snd e))) stk.
  Definition ren_ra (ra : rargs) : rargs := mkRA (ra_concl ra) (ra_prems ra) (ra_args ra) (ra_ctx ra) (ra_prev ra) (map ren (ra_disch ra)).
  (** the rules do not look at names *)
  Definition blind (r : crule) : Prop := forall ra, r (ren_ra ra) = r ra.
  Lemma ren_clause c : cmd_clause (ren c) = cmd_clause c.
  Proof.
    induction c as [id t|s|cs args k IH] using command_ind'; [reflexivity|reflexivity|]. cbn [ren cmd_clause].
    induction cs as [|x r IHr]; [reflexivity|]. apply Forall_cons_iff in IH. destruct IH as [Hx Hr]. destruct r as [|y r]; [exact Hx|]. cbn [map]. cbn [map] in IHr. apply IHr. exact Hr.
  Qed.
  Lemma blind_plain r : blind (plain r).
  Proof. intros ra. reflexivity. Qed.
  Lemma ren_disch ds : forall c, disch_ok (map ren ds) c = disch_ok ds c.
  Proof. induction ds as [|[id t|s|cs args k] ds IH]; intros [|x c]; cbn [map ren disch_ok]; auto. destruct (rm_neg x) as [y| |]; cbn [obind]; auto. destruct (assert_polyeq t y); cbn [obind]; auto. Qed.
  Lemma blind_subproof : blind subproof.
  Proof. intros ra. unfold subproof. cbn [ren_ra ra_prev ra_concl ra_disch]. rewrite map_length, ren_disch. reflexivity. Qed.
  Lemma blind_entries elab name e : assoc name (entries elab) = Some e -> blind (e_run e).
  Proof.
    unfold entries. intros H. apply assoc_In in H. rewrite !in_app_iff in H. destruct H as [H|[H|[H|[H|H]]]].
    - apply in_map_iff in H. destruct H as (p & [= <- <-] & _). apply blind_plain.
    - apply in_map_iff in H. destruct H as (p & [= <- <-] & _). apply blind_plain.
    - destruct elab; destruct H as [H|[H|[]]]; injection H as <- <-; apply blind_plain.
    - unfold binder_rules in H. cbn [In] in H. destruct elab; destruct H as [H|[H|[H|[H|[H|[H|[H|[]]]]]]]]; injection H as <- <-; intros ra; reflexivity.
    - destruct H as [H|[]]. injection H as <- <-. apply blind_subproof.
  Qed.
  Lemma blind_table other : (forall e n, blind (other e n)) -> forall e n r, rule_table other e n = Some r -> blind r.
  Proof.
    intros Ho e n r. unfold rule_table. destruct (assoc n (entries e)) as [x|] eqn:E; [intros [= <-]; eapply blind_entries; eauto|]. destruct (memb _ _ _); [intros [= <-]; apply Ho|].
    destruct (_ || _); [intros [= <-] ra; reflexivity|discriminate].
  Qed.
  Section Table.
    Variable T : bool -> string -> option crule.
    Variables (cfg : config) (prems : list term).
    Hypothesis HT : forall e n r, T e n = Some r -> blind r.
    Lemma ren_get stk p : get_command (ren_stack stk) p = do c <- get_command stk p ; ROk (ren c).
    Proof.
      unfold get_command, ren_stack. rewrite <- map_rev, nth_error_map. destruct (nth_error (rev stk) (fst p)) as [e|]; cbn [option_map unwrap obind]; [|reflexivity].
      cbn [snd]. rewrite nth_error_map. destruct (nth_error (snd e) (snd p)); reflexivity.
    Qed.
    Lemma ren_premise stk p : get_premise (ren_stack stk) p = get_premise stk p.
    Proof. unfold get_premise. rewrite ren_get. destruct (get_command stk p); cbn [obind]; [|reflexivity|reflexivity]. rewrite ren_clause. reflexivity. Qed.
    Lemma ren_end stk : is_end_step (ren_stack stk) = is_end_step stk.
    Proof. unfold is_end_step, in_subproof, depth, ren_stack. rewrite map_length. destruct stk as [|[i cs] r]; [reflexivity|]. cbn [map fst snd]. rewrite map_length. reflexivity. Qed.
    Lemma ren_prev stk : previous_command (ren_stack stk) = previous_command stk.
    Proof.
      unfold previous_command. rewrite ren_end. destruct (is_end_step stk); [|reflexivity]. destruct stk as [|[i cs] r]; [reflexivity|]. cbn [ren_stack map fst snd]. rewrite map_length. destruct (Nat.ltb _ _); [reflexivity|].
      rewrite nth_error_map. destruct (nth_error cs _); [|reflexivity]. cbn [option_map]. rewrite ren_clause. reflexivity.
    Qed.
    Lemma ren_omap stk l : omap (get_command (ren_stack stk)) l = do r <- omap (get_command stk) l ; ROk (map ren r).
    Proof. induction l as [|p l IH]; [reflexivity|]. cbn [omap]. rewrite ren_get, IH. destruct (get_command stk p); cbn [obind]; auto. destruct (omap (get_command stk) l); cbn [obind]; auto. Qed.
    Lemma ren_omap_p stk l : omap (get_premise (ren_stack stk)) l = omap (get_premise stk) l.
    Proof. induction l as [|p l IH]; [reflexivity|]. cbn [omap]. rewrite ren_premise, IH. reflexivity. Qed.
    Lemma ren_check_discharge d ds : forall cs i, check_discharge i (map ren cs) d ds = check_discharge i cs d ds.
    Proof. induction cs as [|c cs IH]; intros i; [reflexivity|]. cbn [map check_discharge]. rewrite IH. destruct c; reflexivity. Qed.
    Lemma ren_step_core s ra e sub d : step_core T cfg (ren_step s) (ren_ra ra) e (option_map (map ren) sub) d = step_core T cfg s ra e sub d.
    Proof.
      unfold step_core. cbn [ren_step s_rule s_disch]. destruct (memb _ _ _); [reflexivity|]. destruct (_ && _); [reflexivity|]. destruct (T (elaborated cfg) (s_rule s)) as [r|] eqn:Er; [|reflexivity]. rewrite (HT _ _ _ Er ra).
      destruct (r ra); cbn [obind]; auto. destruct e; [|reflexivity]. destruct sub as [cs|]; [|reflexivity]. cbn [option_map]. rewrite ren_check_discharge. reflexivity.
    Qed.
    Lemma ren_do stk st c : do_command T cfg prems (ren_stack stk) st (ren c) = do_command T cfg prems stk st c.
    Proof.
      destruct c as [id t|s|cs args k]; cbn [ren do_command].
      - unfold in_subproof, depth, ren_stack. rewrite map_length. reflexivity.
      - unfold do_step, mk_rargs. rewrite ren_prev. destruct (previous_command stk) as [prev| |]; cbn [obind]; auto. cbn [ren_step s_prems s_disch s_clause s_args]. rewrite ren_omap_p.
        destruct (omap (get_premise stk) (s_prems s)) as [ps| |]; cbn [obind]; auto. rewrite ren_omap. destruct (omap (get_command stk) (s_disch s)) as [ds| |]; cbn [obind]; auto.
        change (mkRA (s_clause s) ps (s_args s) (st_ctx st) prev (map ren ds)) with (ren_ra (mkRA (s_clause s) ps (s_args s) (st_ctx st) prev ds)). rewrite ren_end.
        replace (in_subproof (ren_stack stk)) with (in_subproof stk) by (unfold in_subproof, depth, ren_stack; rewrite map_length; reflexivity).
        replace (depth (ren_stack stk)) with (depth stk) by (unfold depth, ren_stack; rewrite map_length; reflexivity).
        replace (if in_subproof stk then match ren_stack stk with (_, cs) :: _ => Some cs | [] => None end else None)
          with (option_map (map ren) (if in_subproof stk then match stk with (_, cs) :: _ => Some cs | [] => None end else None)) by (destruct (in_subproof stk); [destruct stk as [|[? ?] ?]|]; reflexivity).
        change (mkStep (f (s_id s)) (s_clause s) (s_rule s) (s_prems s) (s_args s) (s_disch s)) with (ren_step s). rewrite ren_step_core. reflexivity.
      - reflexivity.
    Qed.
    Lemma ren_run c : forall stk st, run T cfg prems (ren c) (ren_stack stk) st = run T cfg prems c stk st.
    Proof.
      induction c as [id t|s|cs args k IH] using command_ind'; intros stk st.
      - apply (ren_do stk st (CAssume id t)).
      - apply (ren_do stk st (CStep s)).
      - cbn [ren]. rewrite !run_sub. generalize (mkSt (args :: st_ctx st) (st_reached st) (st_holey st)). generalize 0.
        assert (G : forall l, Forall (fun c => forall stk st, run T cfg prems (ren c) (ren_stack stk) st = run T cfg prems c stk st) l -> forall n a,
          run_list T cfg prems (map ren cs) (ren_stack stk) (map ren l) n a = run_list T cfg prems cs stk l n a).
        { induction l as [|x l IHl]; intros HF n a; [reflexivity|]. apply Forall_cons_iff in HF. destruct HF as [Hx HF]. cbn [map run_list]. rewrite <- Hx. cbn [ren_stack map fst snd]. destruct (run T cfg prems (ren x) _ a); cbn [obind]; auto. }
        auto.
    Qed.
    Theorem ren_check proof : check T cfg prems (map ren proof) = check T cfg prems proof.
    Proof.
      rewrite !check_eq. f_equal. generalize st0. generalize 0.
      assert (G : forall l n a, run_list T cfg prems (map ren proof) [] (map ren l) n a = run_list T cfg prems proof [] l n a); [|auto].
      induction l as [|x l IHl]; intros n a; [reflexivity|]. cbn [map run_list]. rewrite <- (ren_run x). cbn [ren_stack map fst snd]. destruct (run T cfg prems (ren x) _ a); cbn [obind]; auto.
    Qed.
  End Table.
End Rename.

(** ** The order in which commands are visited *)
(** a proof in textual order: every command with the number of subproofs around it and whether it closes the innermost one;
    a subproof counts as inside of itself, as it does for the checker *)
Fixpoint textual (d : nat) (last : bool) (c : command) : list (command * nat * bool) :=
  match c with
  | CSub cs _ _ => (c, S d, match cs with [] => true | _ => false end) ::
      (fix go l := match l with [] => [] | x :: r => textual (S d) (match r with [] => true | _ => false end) x ++ go r end) cs
  | _ => [(c, d, match d with 0 => false | _ => last end)]
  end.
Fixpoint textual_list (d : nat) (l : list command) : list (command * nat * bool) :=
  match l with [] => [] | x :: r => textual d (match r with [] => true | _ => false end) x ++ textual_list d r end.
Lemma textual_sub d b cs args k : textual d b (CSub cs args k) = (CSub cs args k, S d, match cs with [] => true | _ => false end) :: textual_list (S d) cs.
Proof. cbn [textual]. f_equal. induction cs as [|x r IH]; [reflexivity|]. cbn [textual_list]. rewrite <- IH. reflexivity. Qed.
(** what the calls of [next] return, with the answers of [depth] and [is_end_step] after each call *)
Inductive visits : stack -> list (command * nat * bool) -> Prop :=
| V_end stk : iter_next stk = None -> visits stk []
| V_next stk c stk' l : iter_next stk = Some (c, stk') -> visits stk' l -> visits stk ((c, depth stk', is_end_step stk') :: l).
Lemma visits_skip cs j x out l : nth_error cs j = None -> visits (x :: out) l -> visits ((j, cs) :: x :: out) l.
Proof.
  intros Hj H. assert (E : iter_next ((j, cs) :: x :: out) = iter_next (x :: out)) by (destruct x; cbn [iter_next]; rewrite Hj; reflexivity).
  inversion H; subst; [apply V_end; congruence|apply V_next; [congruence|assumption]].
Qed.
Lemma visits_cmd c : forall sub out i l, nth_error sub i = Some c -> visits ((S i, sub) :: out) l ->
  visits ((i, sub) :: out) (textual (List.length out) (Nat.eqb (S i) (List.length sub)) c ++ l).
Proof.
  induction c as [id t|s|cs args k IH] using command_ind'; intros sub out i l Hn Hl.
  1,2: cbn [textual app]; match goal with |- visits _ ((?c, ?a, ?b) :: _) => replace b with (is_end_step ((S i, sub) :: out)); [replace a with (depth ((S i, sub) :: out)) by (unfold depth; cbn; lia)|] end;
    [apply V_next; [cbn [iter_next]; rewrite Hn; reflexivity|exact Hl]|unfold is_end_step, in_subproof, depth; cbn [List.length]; rewrite Nat.sub_succ, Nat.sub_0_r; destruct (List.length out); reflexivity].
  rewrite textual_sub. cbn [app].
  assert (G : forall r j, (forall n x, nth_error r n = Some x -> nth_error cs (j + n) = Some x) -> j + List.length r = List.length cs ->
    visits ((j, cs) :: (S i, sub) :: out) (textual_list (S (List.length out)) r ++ l)).
  { induction r as [|x r IHr]; intros j Hr Hlen; cbn [textual_list app].
    - cbn [List.length] in Hlen. apply visits_skip; [apply nth_error_None; lia|exact Hl].
    - assert (Hx : nth_error cs j = Some x) by (rewrite <- (Nat.add_0_r j); apply (Hr 0); reflexivity). rewrite <- app_assoc. cbn [List.length] in Hlen.
      replace (match r with [] => true | _ => false end) with (Nat.eqb (S j) (List.length cs)) by (destruct r; cbn [List.length] in Hlen; [apply Nat.eqb_eq; lia|apply Nat.eqb_neq; lia]).
      rewrite Forall_forall in IH. change (S (List.length out)) with (List.length ((S i, sub) :: out)). apply IH; [apply nth_error_In in Hx; exact Hx|exact Hx|].
      cbn [List.length]. apply IHr; [|lia]. intros n y Hy. replace (S j + n) with (j + S n) by lia. apply Hr. exact Hy. }
  replace (S (List.length out)) with (depth ((0, cs) :: (S i, sub) :: out)) at 1 by (unfold depth; cbn; lia).
  replace (match cs with [] => true | _ => false end) with (is_end_step ((0, cs) :: (S i, sub) :: out)) by (unfold is_end_step, in_subproof, depth; destruct cs; cbn; reflexivity).
  apply V_next; [cbn [iter_next]; rewrite Hn; reflexivity|]. apply G; auto.
Qed.
Theorem visits_textual proof : visits [(0, proof)] (textual_list 0 proof).
Proof.
  assert (G : forall r j, (forall n x, nth_error r n = Some x -> nth_error proof (j + n) = Some x) -> j + List.length r = List.length proof -> visits [(j, proof)] (textual_list 0 r)).
  { induction r as [|x r IHr]; intros j Hr Hlen; cbn [textual_list].
    - cbn [List.length] in Hlen. apply V_end. cbn [iter_next]. replace (nth_error proof j) with (@None command); [reflexivity|]. symmetry. apply nth_error_None. lia.
    - cbn [List.length] in Hlen. replace (match r with [] => true | _ => false end) with (Nat.eqb (S j) (List.length proof)) by (destruct r; cbn [List.length] in Hlen; [apply Nat.eqb_eq; lia|apply Nat.eqb_neq; lia]).
      change 0 with (List.length (@nil (nat * list command))) at 1. apply visits_cmd; [rewrite <- (Nat.add_0_r j); apply (Hr 0); reflexivity|]. apply IHr; [|lia]. intros n y Hy. replace (S j + n) with (j + S n) by lia. apply Hr. exact Hy. }
  apply G; auto.
Qed.
Lemma visits_fun stk l1 : visits stk l1 -> forall l2, visits stk l2 -> l1 = l2.
Proof. induction 1 as [stk He|stk c stk' l He Hv IH]; intros l2 H2; inversion H2; subst; try congruence. rewrite He in H. injection H as <- <-. f_equal. auto. Qed.
