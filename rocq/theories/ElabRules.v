(** The elaboration of refl, forall_inst, ite_intro and bfun_elim steps in the first pass of the elaborator (elaborator/reflexivity.rs, quantifiers.rs,
    tautology.rs, clausification.rs; called by elaborate_polyeq, elaborator/mod.rs:146-176). *)
From Coq Require Import List String ZArith Bool Arith Lia.
From Verif Require Import Base Term Sem Rules Utils Std Checker Polyeq PolyeqSound Subst Context R_Eq R_Claus R_Bfun R_Binder R_Quant R_Resolution R_Extras R_ResExact R_Simp StrSound CheckMono Table Elab ElabSound ElabCong ElabUncrowd ElabUncrowdSound ElabPolyeq ElabPolyeqSound.
Import ListNotations.
Open Scope string_scope.
Local Open Scope nat_scope.
Local Open Scope list_scope.

(** The functions below return errors; elaborate_polyeq unwraps them (mod.rs:167), see [unwrapped]. Ids and depths are left out, as in Elab.v. *)
Definition unwrapped {A} (x : outcome A) : outcome A := match x with RErr => RPanic | _ => x end.

Section Elab.
  (** [PolyeqElaborator::new(ids, depth, is_alpha_equivalence).elaborate(a, b)]. Without alpha-equivalence it is [pelab] of ElabPolyeq.v; with
      alpha-equivalence it is not modelled *)
  Variable eqn : bool -> term -> term -> outcome enode.

  (** elaborate_equality, reflexivity.rs:15-24 *)
  Definition equality_step (l r : term) : outcome enode := do e <- polyeq l r ; eqn (negb e) l r.
  (** add_refl_step, elaborator/mod.rs:251-265 *)
  Definition add_refl (a b : term) : enode := EStep [tEq a b] "refl" [] [].

  (** refl, reflexivity.rs:26-109. The context stack starts without calculated contexts, as in [r_refl]. *)
  Definition elab_refl (cx : list (list anchor)) (c : clause) (ps : list enode) (args : list term) : outcome enode :=
    passert (Nat.eqb (List.length c) 1) ;;
    do c0 <- idx c 0 ;
    do lr <- m_op2 OEquals c0 ;
    let (l, r) := lr in
    if term_eqb l r then ROk (EStep c "refl" ps args) else
    do x <- ctx_apply (fresh_stack cx) l ;
    let (l', st1) := x in
    if term_eqb l' r then ROk (EStep c "refl" ps args) else
    do y <- ctx_apply st1 r ;
    let (r', st2) := y in
    if term_eqb l r' then add_symm (add_refl r r') else
    if term_eqb l' r' then
      do right_symm <- add_symm (add_refl r r') ;
      add_trans [add_refl l l'; right_symm]
    else
    do e0 <- alpha_equiv l r ;
    if e0 then equality_step l r else
    do e1 <- alpha_equiv l' r ;
    if e1 then do p <- equality_step l' r ; add_trans [add_refl l l'; p] else
    do e2 <- alpha_equiv l r' ;
    if e2 then
      do p <- equality_step l r' ;
      do right_symm <- add_symm (add_refl r r') ;
      add_trans [p; right_symm]
    else
    do e3 <- alpha_equiv l' r' ;
    if e3 then
      do p <- equality_step l' r' ;
      do right_symm <- add_symm (add_refl r r') ;
      add_trans [add_refl l l'; p; right_symm]
    else RErr.

  (** the last steps of the elaboration of forall_inst and bfun_elim: from [eq], a step with the clause [(= p q)], and a step [s] with the clause [p] *)
  Definition rewrite_step (p q : term) (eq s : enode) : enode :=
    EStep [q] "resolution" [EStep [tNot p; q] "equiv1" [eq] []; s] [p; tFalse].

  (** forall_inst, quantifiers.rs:5-112 *)
  Definition elab_forall_inst (c : clause) (ps : list enode) (args : list term) : outcome enode :=
    passert (Nat.eqb (List.length c) 1) ;;
    do x <- idx c 0 ;
    do lr <- m_op2 OOr x ;
    do q <- m_op1 ONot (fst lr) ;
    do bo <- m_bind BForall q ;
    passert (Nat.eqb (List.length args) (List.length (fst bo))) ;;
    ofor (fun p => passert (sort_eqb (snd (fst p)) (sort_of (snd p)))) (combine (fst bo) args) ;;
    do m <- subst_new (inst_map (fst bo) args) ;
    do e <- subst m (snd bo) ;
    if term_eqb (snd lr) e then ROk (EStep c "forall_inst" ps args) else
    do eq <- equality_step e (snd lr) ;
    let p := TOp OOr [tNot q; e] in
    let p' := TOp OOr [tNot q; snd lr] in
    ROk (rewrite_step p p' (EStep [tEq p p'] "cong" [eq] []) (EStep [p] "forall_inst" [] args)).

  (** bfun_elim, clausification.rs:8-57 *)
  Definition elab_bfun_elim (c : clause) (ps : list enode) (args : list term) : outcome enode :=
    passert (Nat.eqb (List.length ps) 1) ;;
    passert (Nat.eqb (List.length c) 1) ;;
    do n <- idx ps 0 ;
    do psi <- idx (eclause n) 0 ;
    do e <- bfun_term psi ;
    do g <- idx c 0 ;
    if term_eqb g (fst e) then ROk (EStep c "bfun_elim" ps args) else
    do eq <- eqn false (fst e) g ;
    ROk (rewrite_step (fst e) g eq (EStep [fst e] "bfun_elim" ps [])).

  (** tautology.rs:27-54: the definition that is expected for [u] *)
  Definition fixed_def (u : term) : outcome term :=
    do x <- unwrap (op3 OIte u) ;
    let '(cond, e1, e2) := x in
    do ab <- unwrap (op2 OEquals e1) ;
    do cd <- unwrap (op2 OEquals e2) ;
    let (a, b) := ab in let (c, d) := cd in
    do v1 <- ite_valid cond a b c d ;
    do v2 <- (if v1 then ROk true else ite_valid cond b a c d) ;
    do v3 <- (if v2 then ROk true else ite_valid cond a b d c) ;
    do v4 <- (if v3 then ROk true else ite_valid cond b a d c) ;
    let go r1 r2 := let s := TOp OIte [cond; r1; r2] in ROk (TOp OIte [cond; tEq s r1; tEq s r2]) in
    if v1 then go a c else if v2 then go b c else if v3 then go a d else if v4 then go b d else RPanic.
  (** ite_intro, tautology.rs:4-81 *)
  Definition elab_ite_intro (c : clause) (ps : list enode) (args : list term) : outcome enode :=
    passert (Nat.eqb (List.length c) 1) ;;
    do c0 <- idx c 0 ;
    do tu <- m_op2 OEquals c0 ;
    let (root, right_) := tu in
    do e <- polyeq root right_ ;
    if e then eqn false root right_ else
    do us <- m_ops OAnd right_ ;
    passert (Nat.ltb 0 (List.length us)) ;;
    do ds <- omap fixed_def (skipn 1 us) ;
    let fixed := TOp OAnd (root :: ds) in
    if term_eqb right_ fixed then ROk (EStep c "ite_intro" ps args) else
    do p <- eqn false fixed right_ ;
    add_trans [EStep [tEq root fixed] "ite_intro" [] []; p].
End Elab.

(** ** The elaborated step *)
(** [o] is a derivation of [c] that the checker accepts in elaborated mode *)
Definition derives (other : bool -> string -> crule) (cx : list (list anchor)) (o : outcome enode) (c : clause) : Prop :=
  exists n, o = ROk n /\ eclause n = c /\ accepted other cx n.

(** [feq] is transitive *)
Lemma all2_trans {A} (f : A -> A -> bool) la : Forall (fun a => forall b c, f a b = true -> f b c = true -> f a c = true) la ->
  forall lb lc, all2 f la lb = true -> all2 f lb lc = true -> List.length la = List.length lb -> List.length lb = List.length lc -> all2 f la lc = true.
Proof.
  induction 1 as [|a la Ha _ IH]; intros [|b lb] [|c lc] H1 H2 L1 L2; try discriminate; [reflexivity|]. injection L1 as L1. injection L2 as L2. cbn [all2] in *.
  apply andb_true_iff in H1, H2. destruct H1, H2. rewrite (Ha b c), (IH lb lc); auto.
Qed.
Lemma feq_trans a : forall b c, feq a b = true -> feq b c = true -> feq a c = true.
Proof.
  induction a using term_ind'; intros y z H1 H2.
  all: match goal with H : feq ?a ?b = true |- feq ?a _ = true => destruct (term_eqb a b) eqn:Et; [apply term_eqb_eq in Et; rewrite Et; exact H2|] end.
  all: match goal with H : feq ?a ?b = true, H' : feq ?b ?c = true |- _ => destruct (term_eqb b c) eqn:Et'; [apply term_eqb_eq in Et'; rewrite <- Et'; exact H1|] end.
  all: destruct y; cbn [feq] in H1; rewrite Et in H1; cbn [orb] in H1; try discriminate.
  all: destruct z; cbn [feq] in H2; rewrite Et' in H2; cbn [orb] in H2; try discriminate.
  all: cbn [feq]; apply orb_true_iff; right.
  - rewrite !andb_true_iff in *. destruct H1 as [[A1 A2] A3], H2 as [[B1 B2] B3]. apply Nat.eqb_eq in A2, B2. split; [split; [eapply IHa; eauto|apply Nat.eqb_eq; congruence]|]. eapply all2_trans; eauto.
  - match goal with |- _ || match ?la with _ => _ end = true => rename la into l1 end.
    apply orb_true_iff in H1, H2.
    destruct H1 as [H1|H1], H2 as [H2|H2].
    + apply orb_true_iff. left. rewrite !andb_true_iff in *. destruct H1 as [[A1 A2] A3], H2 as [[B1 B2] B3]. apply Nat.eqb_eq in A2, B2. apply op_eqb_eq in A1, B1. subst. split; [split; [apply op_eqb_eq; reflexivity|apply Nat.eqb_eq; congruence]|]. eapply all2_trans; eauto.
    + destruct args0 as [|b1 [|b2 [|]]]; try discriminate. destruct args1 as [|c1 [|c2 [|]]]; try discriminate. rewrite !andb_true_iff in H1; rewrite !andb_true_iff in H2. destruct H1 as [[A1 A2] A3], H2 as [[[B1 B2] B3] B4].
      apply Nat.eqb_eq in A2. destruct l1 as [|a1 [|a2 [|]]]; try discriminate. cbn [all2] in A3. rewrite !andb_true_iff in A3. destruct A3 as (X1 & X2 & _). apply op_eqb_eq in A1. subst.
      apply Forall_cons_iff in H. destruct H as [F1 H]. apply Forall_cons_iff in H. destruct H as [F2 _]. apply orb_true_iff. right. rewrite B1, B2, (F1 b1 c2), (F2 b2 c1) by auto. reflexivity.
    + destruct l1 as [|a1 [|a2 [|]]]; try discriminate. destruct args0 as [|b1 [|b2 [|]]]; try discriminate. rewrite !andb_true_iff in H1; rewrite !andb_true_iff in H2. destruct H2 as [[A1 A2] A3], H1 as [[[B1 B2] B3] B4].
      apply Nat.eqb_eq in A2. destruct args1 as [|c1 [|c2 [|]]]; try discriminate. cbn [all2] in A3. rewrite !andb_true_iff in A3. destruct A3 as (X1 & X2 & _). apply op_eqb_eq in A1. subst.
      apply Forall_cons_iff in H. destruct H as [F1 H]. apply Forall_cons_iff in H. destruct H as [F2 _]. apply orb_true_iff. right. rewrite B1, B2, (F1 b2 c2), (F2 b1 c1) by auto. reflexivity.
    + destruct l1 as [|a1 [|a2 [|]]]; try discriminate. destruct args0 as [|b1 [|b2 [|]]]; try discriminate. destruct args1 as [|c1 [|c2 [|]]]; try discriminate. rewrite !andb_true_iff in H1; rewrite !andb_true_iff in H2. destruct H2 as [[[A1 A2] A3] A4], H1 as [[[B1 B2] B3] B4].
      apply op_eqb_eq in A1, A2, B1. subst. apply Forall_cons_iff in H. destruct H as [F1 H]. apply Forall_cons_iff in H. destruct H as [F2 _].
      apply orb_true_iff. left. cbn [List.length Nat.eqb all2]. rewrite (F1 b2 c1), (F2 b1 c2) by auto. reflexivity.
  - rewrite !andb_true_iff in *. destruct H1 as [[A1 A2] A3], H2 as [[B1 B2] B3]. apply list_eqb_sv in A2, B2. subst. split; [split|eapply IHa; eauto]; [|rewrite list_eqb_eq by apply svar_eqb_eq; reflexivity].
    match goal with |- binder_beq ?x ?z = true => destruct x, z; try reflexivity end; match goal with H : binder_beq _ ?y = true, H' : binder_beq ?y _ = true |- _ => destruct y; discriminate end.
  - rewrite !andb_true_iff in *. destruct H1 as [[A1 A2] A3], H2 as [[B1 B2] B3]. apply Nat.eqb_eq in A1, B1. split; [split; [apply Nat.eqb_eq; congruence|]|eapply IHa; eauto].
    eapply all2_trans; [|exact A2|exact B2|auto|auto]. apply Forall_forall. intros x Hx y' z' Hxy Hyz. rewrite Forall_forall in H. rewrite andb_true_iff in *. destruct Hxy as [X1 X2], Hyz as [Y1 Y2]. apply String.eqb_eq in X1, Y1. split; [apply String.eqb_eq; congruence|]. eapply H; eauto.
  - rewrite !andb_true_iff in *. destruct H1 as [[[A1 A2] A3] A4], H2 as [[[B1 B2] B3] B4]. apply Nat.eqb_eq in A3, B3. rewrite list_eqb_eq in A2, B2 by apply term_eqb_eq. subst. split; [split; [split|apply Nat.eqb_eq; congruence]|eapply all2_trans; eauto].
    + match goal with |- pop_beq ?x ?z = true => destruct x, z; try reflexivity end; match goal with H : pop_beq _ ?y = true, H' : pop_beq ?y _ = true |- _ => destruct y; discriminate end.
    + rewrite list_eqb_eq by apply term_eqb_eq. reflexivity.
Qed.

Section Sound.
  Variable other : bool -> string -> crule.
  Notation accepted := (accepted other).
  Notation derives := (derives other).
  Notation run := (run other).
  Lemma run_of name r ra : rule_table other true name = Some (plain r) -> r (ra_concl ra) (ra_prems ra) (ra_args ra) = ROk tt -> run name ra.
  Proof. intros H1 H2. exists (plain r). split; [exact H1|exact H2]. Qed.
  Lemma trans3_ok cx n1 n2 n3 a b c d : eclause n1 = [tEq a b] -> eclause n2 = [tEq b c] -> eclause n3 = [tEq c d] -> accepted cx n1 -> accepted cx n2 -> accepted cx n3 ->
    derives cx (add_trans [n1; n2; n3]) [tEq a d].
  Proof.
    intros H1 H2 H3 A1 A2 A3. exists (EStep [tEq a d] "trans" [n1; n2; n3] []). split; [|split; [reflexivity|]].
    - unfold add_trans. cbn [idx nth_error unwrap obind List.length Nat.sub]. rewrite H1, H3. reflexivity.
    - apply accepted_step. split; [|repeat constructor; auto]. apply (run_plain other "trans" r_trans); [cbn; tauto|].
      cbn [ra_concl ra_prems ra_args map]. rewrite H1, H2, H3. unfold r_trans. cbn [len_is List.length Nat.eqb rassert obind idx nth_error unwrap].
      rewrite m_op2_eq. cbn [obind omap fst snd]. rewrite !(proj2 (prem_eq_clause _ _ _) eq_refl). cbn [obind List.length find_chain find_eq].
      destruct (term_eqb a d); [reflexivity|]. rewrite term_eqb_rf. cbn [swap_tail find_chain find_eq]. destruct (term_eqb b d); [reflexivity|].
      rewrite term_eqb_rf. cbn [swap_tail find_chain find_eq]. destruct (term_eqb c d); [reflexivity|]. rewrite term_eqb_rf. cbn [swap_tail find_chain]. rewrite term_eqb_rf. reflexivity.
  Qed.
  Lemma ran_not p : remove_all_negations (tNot p) = neg_lit (remove_all_negations p).
  Proof. change (remove_all_negations (tNot p)) with (let (n, u) := remove_all_negations p in (S n, u)). unfold neg_lit. destruct (remove_all_negations p); reflexivity. Qed.
  Lemma cut_false_ok cx p t n m : t <> tNot p -> eclause n = [tNot p; t] -> eclause m = [p] -> accepted cx n -> accepted cx m -> accepted cx (EStep [t] "resolution" [n; m] [p; tFalse]).
  Proof.
    intros Hne En Em Hn Hm. apply accepted_step. split; [|repeat constructor; auto]. apply (run_plain other "resolution" r_resolution_with_args); [cbn; tauto|]. cbn [ra_concl ra_prems ra_args map]. rewrite En, Em.
    apply resolution_with_args_exact. exists [tNot p; t], [p], [], [(remove_all_negations p, false)]. split; [reflexivity|]. split; [repeat constructor|]. split; [reflexivity|]. cbn [combine].
    apply (Chain_cons _ _ _ _ (R_ResExact.lits [t])); [|constructor; intros x; tauto].
    split; [left; apply ran_not|]. exists [], []. split; [reflexivity|]. split; [intros []|].
    intros x. cbn [In R_ResExact.lits map]. rewrite ran_not. split; [|intros [[[H|[H|[]]] Hx]|[[]|[]]]; [congruence|auto]].
    intros [<-|[]]. left. split; [auto|]. rewrite <- ran_not. intros E. apply ran_inj in E. auto.
  Qed.
  Lemma rewrite_step_ok cx p q eq s : q <> tNot p -> eclause eq = [tEq p q] -> eclause s = [p] -> accepted cx eq -> accepted cx s -> accepted cx (rewrite_step p q eq s).
  Proof. intros Hne H1 H2 H3 H4. apply cut_false_ok; auto. apply equiv1_ok; auto. Qed.
  Lemma feq_not p : feq p (tNot p) = false.
  Proof.
    assert (T : forall t, term_eqb t (tNot t) = false).
    { intros t. destruct (term_eqb t (tNot t)) eqn:E; [|reflexivity]. apply term_eqb_eq in E. apply (f_equal tsize) in E. cbn [tNot tsize map list_sum fold_right] in E. lia. }
    induction p using term_ind'; cbn [feq]; rewrite ?T; cbn [orb]; try reflexivity.
    destruct args as [|a [|b l]]; cbn [tNot List.length Nat.eqb]; [destruct (op_eqb o ONot); reflexivity| |destruct (op_eqb o ONot); destruct l; reflexivity].
    cbn [all2]. rewrite andb_true_r, orb_false_r. destruct (op_eqb o ONot) eqn:E; [|reflexivity]. apply op_eqb_eq in E. subst o. cbn [andb].
    apply Forall_cons_iff in H. destruct H as [H _]. rewrite andb_true_r. exact H.
  Qed.

  (** *** refl *)
  Definition applied (cx : list (list anchor)) (l l' r r' : term) : Prop := exists st1 st2 st3,
    ctx_apply (fresh_stack cx) l = ROk (l', st1) /\ ctx_apply st1 r = ROk (r', st2) /\ ctx_apply (fresh_stack cx) r = ROk (r', st3).
  Lemma strict_refl_ok cx l l' st ps args : ctx_apply (fresh_stack cx) l = ROk (l', st) -> Forall (accepted cx) ps -> accepted cx (EStep [tEq l l'] "refl" ps args).
  Proof.
    intros H HF. apply accepted_step. split; [|exact HF]. apply run_refl. unfold r_strict_refl. cbn [ra_ctx ra_concl].
    unfold strict_refl_st. cbn [len_is List.length Nat.eqb rassert obind idx nth_error unwrap]. rewrite m_op2_eq. cbn [obind].
    destruct (term_eqb l l') eqn:E; [reflexivity|]. destruct cx as [|a cx].
    - injection H as <- _. rewrite term_eqb_rf in E. discriminate.
    - cbn [fresh_stack map rassert obind]. cbn [fresh_stack map] in H. rewrite H. cbn [obind]. rewrite term_eqb_rf. reflexivity.
  Qed.
  Lemma strict_same_ok cx l ps args : Forall (accepted cx) ps -> accepted cx (EStep [tEq l l] "refl" ps args).
  Proof.
    intros HF. apply accepted_step. split; [|exact HF]. apply run_refl. unfold r_strict_refl. cbn [ra_ctx ra_concl].
    unfold strict_refl_st. cbn [len_is List.length Nat.eqb rassert obind idx nth_error unwrap]. rewrite m_op2_eq. cbn [obind]. rewrite term_eqb_rf. reflexivity.
  Qed.
  Theorem elab_refl_ok eqn cx l r l' r' x y st ps args : applied cx l l' r r' -> refl_pair (fresh_stack cx) [tEq l r] = ROk (x, y, st) -> Forall (accepted cx) ps ->
    derives cx (equality_step eqn x y) [tEq x y] -> derives cx (elab_refl eqn cx [tEq l r] ps args) [tEq l r].
  Proof.
    intros (st1 & st2 & st3 & A1 & A2 & A3) HR HF HE. unfold elab_refl. cbn [List.length Nat.eqb passert obind idx nth_error unwrap]. rewrite m_op2_eq. cbn [obind].
    destruct (term_eqb l r) eqn:T0.
    { apply term_eqb_eq in T0. subst r. eexists. split; [reflexivity|]. split; [reflexivity|]. apply strict_same_ok, HF. }
    rewrite A1. cbn [obind]. destruct (term_eqb l' r) eqn:T1.
    { apply term_eqb_eq in T1. subst l'. eexists. split; [reflexivity|]. split; [reflexivity|]. eapply strict_refl_ok; eauto. }
    rewrite A2. cbn [obind].
    assert (AR : accepted cx (add_refl r r')) by (eapply strict_refl_ok; [exact A3|constructor]).
    assert (AL : accepted cx (add_refl l l')) by (eapply strict_refl_ok; [exact A1|constructor]).
    destruct (add_symm_ok other cx _ r r' AR eq_refl) as (sy & S1 & S2 & S3).
    destruct (term_eqb l r') eqn:T2.
    { apply term_eqb_eq in T2. subst r'. exists sy. auto. }
    rewrite S1. cbn [obind]. destruct (term_eqb l' r') eqn:T3.
    { apply term_eqb_eq in T3. subst r'. apply (trans2_ok other cx _ _ l l' r); auto. }
    unfold refl_pair in HR. cbn [len_is List.length Nat.eqb rassert obind idx nth_error unwrap] in HR. rewrite m_op2_eq in HR. cbn [obind] in HR.
    apply obind_ok in HR. destruct HR as (e0 & E0 & HR). rewrite E0. cbn [obind]. destruct e0.
    { injection HR as <- <- <-. exact HE. }
    apply obind_ok in HR. destruct HR as ([] & Hst & HR). rewrite A1 in HR. cbn [obind] in HR.
    apply obind_ok in HR. destruct HR as (e1 & E1 & HR). rewrite E1. cbn [obind]. destruct e1.
    { injection HR as <- <- <-. destruct HE as (p & P1 & P2 & P3). rewrite P1. cbn [obind]. apply (trans2_ok other cx _ _ l l' r); auto. }
    rewrite A2 in HR. cbn [obind] in HR.
    apply obind_ok in HR. destruct HR as (e2 & E2 & HR). rewrite E2. cbn [obind]. destruct e2.
    { injection HR as <- <- <-. destruct HE as (p & P1 & P2 & P3). rewrite P1. cbn [obind]. apply (trans2_ok other cx _ _ l r' r); auto. }
    apply obind_ok in HR. destruct HR as (e3 & E3 & HR). rewrite E3. cbn [obind]. apply obind_ok in HR. destruct HR as ([] & H3 & HR). destruct e3; [|discriminate].
    injection HR as <- <- <-. destruct HE as (p & P1 & P2 & P3). rewrite P1. cbn [obind]. apply (trans3_ok cx _ _ _ l l' r' r); auto.
  Qed.

  (** *** forall_inst *)
  Lemma ofor_passert {A} (f : A -> bool) l : ofor (fun x => rassert (f x)) l = ROk tt -> ofor (fun x => passert (f x)) l = ROk tt.
  Proof.
    induction l as [|a l IH]; [auto|]. cbn [ofor]. intros H. apply obind_ok in H. destruct H as ([] & H1 & H2). apply rassert_ok in H1. rewrite H1. cbn [passert obind]. auto.
  Qed.
  Theorem elab_forall_inst_ok eqn cx c ps args : r_forall_inst c (map eclause ps) args = ROk tt -> Forall (accepted cx) ps ->
    (forall q bs body e p', c = [TOp OOr [tNot q; p']] -> q = TBind BForall bs body -> (do m <- subst_new (inst_map bs args) ; subst m body) = ROk e -> e <> p' -> derives cx (equality_step eqn e p') [tEq e p']) ->
    derives cx (elab_forall_inst eqn c ps args) c.
  Proof.
    intros H HF HE. pose proof H as H0. unfold r_forall_inst in H.
    apply obind_ok in H. destruct H as ([] & H1 & H). unfold len_is in H1. apply rassert_ok in H1. apply Nat.eqb_eq in H1. destruct c as [|c0 [|]]; try discriminate.
    cbn [idx nth_error unwrap obind] in H. apply obind_ok in H. destruct H as ([nq p'] & H2 & H). pose proof H2 as H2'. unfold m_op2 in H2'. destruct (op2 OOr c0) as [[u v]|] eqn:E2; [|discriminate]. cbn in H2'. injection H2' as -> ->. apply op2_some in E2. subst c0.
    apply obind_ok in H. cbn [fst snd] in H. destruct H as (q & H3 & H). pose proof H3 as H3'. unfold m_op1 in H3'. destruct (op1 ONot nq) as [u|] eqn:E3; [|discriminate]. cbn in H3'. injection H3' as ->. apply op1_some in E3. subst nq.
    apply obind_ok in H. destruct H as ([bs body] & H4 & H). cbn [fst snd] in H.
    apply obind_ok in H. destruct H as ([] & H5 & H). unfold len_is in H5. apply rassert_ok in H5.
    apply obind_ok in H. destruct H as ([] & H6 & H). apply obind_ok in H. destruct H as (m & H7 & H). apply obind_ok in H. destruct H as (e & H8 & H). apply obind_ok in H. destruct H as (b & H9 & H). apply rassert_ok in H. subst b.
    unfold elab_forall_inst. cbn [List.length Nat.eqb passert obind idx nth_error unwrap]. rewrite H2. cbn [obind fst snd]. rewrite H3. cbn [obind]. rewrite H4. cbn [obind fst snd]. rewrite H5. cbn [passert obind].
    rewrite (ofor_passert _ _ H6). cbn [obind]. rewrite H7. cbn [obind]. rewrite H8. cbn [obind]. destruct (term_eqb p' e) eqn:T.
    { eexists. split; [reflexivity|]. split; [reflexivity|]. apply accepted_step. split; [|exact HF]. apply (run_of "forall_inst" r_forall_inst); [reflexivity|]. exact H0. }
    assert (Hq : q = TBind BForall bs body). { unfold m_bind in H4. destruct (as_bind BForall q) as [[x0 y0]|] eqn:Eb; [|discriminate]. cbn in H4. injection H4 as -> ->. destruct q; try discriminate. cbn in Eb. destruct b; try discriminate. injection Eb as -> ->. reflexivity. }
    destruct (HE q bs body e p') as (n & N1 & N2 & N3); [reflexivity|exact Hq|rewrite H7; exact H8|intros ->; rewrite term_eqb_rf in T; discriminate|]. rewrite N1. cbn [obind].
    eexists. split; [reflexivity|]. split; [reflexivity|]. apply rewrite_step_ok; try reflexivity; [discriminate| |].
    - apply (cong_accepted other cx _ _ [tNot q; e] [tNot q; p'] [n] [(e, p')]); try reflexivity; [| |repeat constructor; auto|discriminate].
      + cbn [map omap]. rewrite N2. rewrite (proj2 (prem_eq_clause _ e p') eq_refl). reflexivity.
      + pose proof (cong_filter [tNot q; e] [tNot q; p'] eq_refl) as HC. cbn [combine filter] in HC. unfold differ in HC. cbn [fst snd] in HC. rewrite term_eqb_rf in HC. cbn [negb] in HC.
        destruct (term_eqb e p') eqn:T'; [apply term_eqb_eq in T'; subst; rewrite term_eqb_rf in T; discriminate|exact HC].
    - apply accepted_step. split; [|constructor]. apply (run_of "forall_inst" r_forall_inst); [reflexivity|]. cbn [ra_concl ra_prems ra_args map]. unfold r_forall_inst. unfold len_is at 1. cbn [List.length Nat.eqb rassert obind idx nth_error unwrap].
      change (m_op2 OOr (TOp OOr [tNot q; e])) with (ROk (tNot q, e)). cbn [obind fst snd]. change (m_op1 ONot (tNot q)) with (ROk q). cbn [obind]. rewrite H4. cbn [obind fst snd]. unfold len_is. rewrite H5. cbn [rassert obind]. rewrite H6. cbn [obind]. rewrite H7. cbn [obind]. rewrite H8. cbn [obind].
      rewrite alpha_refl. reflexivity.
  Qed.

  (** *** bfun_elim *)
  Theorem elab_bfun_elim_ok eqn cx c ps args : r_bfun_elim c (map eclause ps) args = ROk tt -> Forall (accepted cx) ps ->
    (forall psi e b g, map eclause ps = [[psi]] -> bfun_term psi = ROk (e, b) -> c = [g] -> e <> g -> g <> tNot e /\ derives cx (eqn false e g) [tEq e g]) ->
    derives cx (elab_bfun_elim eqn c ps args) c.
  Proof.
    intros H HF HE. pose proof H as H0. unfold r_bfun_elim in H. apply obind_ok in H. destruct H as ([] & H1 & H). unfold len_is in H1. apply rassert_ok in H1. apply Nat.eqb_eq in H1. rewrite map_length in H1. destruct ps as [|n [|]]; try discriminate.
    apply obind_ok in H. destruct H as ([] & H2 & H). unfold len_is in H2. apply rassert_ok in H2. apply Nat.eqb_eq in H2. destruct c as [|g [|]]; try discriminate. cbn [map idx nth_error unwrap obind] in H.
    apply obind_ok in H. destruct H as (psi & H3 & H). assert (Hn : eclause n = [psi]). { unfold premise_term in H3. destruct (eclause n) as [|x0 [|]]; try discriminate. cbn in H3. congruence. }
    apply obind_ok in H. destruct H as ([e b] & H4 & H). cbn [fst] in H.
    unfold elab_bfun_elim. cbn [List.length Nat.eqb passert obind idx nth_error unwrap]. rewrite Hn. cbn [idx nth_error unwrap obind]. rewrite H4. cbn [obind fst].
    destruct (term_eqb g e) eqn:T.
    { eexists. split; [reflexivity|]. split; [reflexivity|]. apply accepted_step. split; [|exact HF]. apply (run_of "bfun_elim" r_bfun_elim); [reflexivity|]. exact H0. }
    destruct (HE psi e b g) as (Hne & m & N1 & N2 & N3); [cbn [map]; rewrite Hn; reflexivity|exact H4|reflexivity|intros ->; rewrite term_eqb_rf in T; discriminate|]. rewrite N1. cbn [obind].
    eexists. split; [reflexivity|]. split; [reflexivity|]. apply rewrite_step_ok; try reflexivity; auto.
    apply accepted_step. split; [|exact HF]. apply (run_of "bfun_elim" r_bfun_elim); [reflexivity|]. cbn [ra_concl ra_prems ra_args map]. rewrite Hn. unfold r_bfun_elim. cbn [len_is List.length Nat.eqb rassert obind idx nth_error unwrap premise_term].
    rewrite H4. cbn [obind fst]. unfold assert_polyeq. rewrite polyeq_refl. reflexivity.
  Qed.

  (** *** ite_intro *)
  Definition plain_op (o : op) : bool := negb (op_eqb o ORealDiv) && negb (op_eqb o OSub).
  Lemma efrag_build k o args : plain_op o = true -> forallb (efrag k) args = true -> efrag k (TOp o args) = true.
  Proof.
    intros Ho Ha. apply andb_true_iff in Ho. destruct Ho as [Ho1 Ho2]. apply negb_true_iff in Ho1, Ho2. unfold efrag. cbn [all_sub]. apply andb_true_iff. split; [|exact Ha].
    unfold efrag1. cbn [frag1 negb orb]. rewrite Ho1, Ho2. destruct args as [|x [|y l]]; reflexivity.
  Qed.
  Lemma valid_dec k cond r1 s1 r2 s2 : efrag k cond = true -> efrag k r1 = true -> efrag k s1 = true -> efrag k r2 = true -> efrag k s2 = true ->
    exists b, ite_valid cond r1 s1 r2 s2 = ROk b /\ (b = true -> feq (TOp OIte [cond; r1; r2]) s1 = true /\ feq (TOp OIte [cond; r1; r2]) s2 = true).
  Proof.
    intros Fc F1 G1 F2 G2. unfold ite_valid, aand. rewrite (polyeq_feq k s1 s2) by auto. cbn [obind]. destruct (feq s1 s2) eqn:E; [|exists false; split; [reflexivity|discriminate]].
    destruct (op3 OIte s1) as [[[a b] c]|] eqn:E3; [|exists false; split; [reflexivity|discriminate]]. apply op3_some in E3. subst s1.
    assert (Fa : efrag k a = true) by (apply (efrag_op k _ _ _ G1); left; reflexivity).
    assert (Fb : efrag k b = true) by (apply (efrag_op k _ _ _ G1); right; left; reflexivity).
    assert (Fd : efrag k c = true) by (apply (efrag_op k _ _ _ G1); right; right; left; reflexivity).
    rewrite (polyeq_feq k a cond), (polyeq_feq k b r1), (polyeq_feq k c r2) by auto. cbn [obind].
    destruct (feq a cond) eqn:X1; [|exists false; split; [reflexivity|discriminate]]. destruct (feq b r1) eqn:X2; [|exists false; split; [reflexivity|discriminate]].
    cbn [obind]. destruct (feq c r2) eqn:X3; [|exists false; split; [reflexivity|discriminate]]. exists true. split; [reflexivity|]. intros _.
    assert (HX : feq (TOp OIte [cond; r1; r2]) (TOp OIte [a; b; c]) = true).
    { cbn [feq]. apply orb_true_iff. right. apply orb_true_iff. left. rewrite op_eqb_refl. cbn [List.length Nat.eqb andb all2]. rewrite !feq_sym by auto. reflexivity. }
    split; [exact HX|]. eapply feq_trans; eauto.
  Qed.
  Definition good_def (k : bool) (v : term) : Prop := exists cond r1 r2, efrag k cond = true /\ efrag k r1 = true /\ efrag k r2 = true /\
    v = TOp OIte [cond; tEq (TOp OIte [cond; r1; r2]) r1; tEq (TOp OIte [cond; r1; r2]) r2].
  Lemma good_efrag k v : good_def k v -> efrag k v = true.
  Proof.
    intros (cond & r1 & r2 & F1 & F2 & F3 & ->).
    assert (Fs : efrag k (TOp OIte [cond; r1; r2]) = true) by (apply efrag_build; [reflexivity|]; cbn [forallb]; rewrite F1, F2, F3; reflexivity).
    apply efrag_build; [reflexivity|]. cbn [forallb]. rewrite F1. unfold tEq. rewrite !(efrag_build k OEquals); [reflexivity|reflexivity| |reflexivity|]; cbn [forallb]; rewrite Fs, ?F2, ?F3; reflexivity.
  Qed.
  Lemma good_accepted k v : good_def k v -> ite_def v = ROk tt.
  Proof.
    intros (cond & r1 & r2 & F1 & F2 & F3 & ->). set (s := TOp OIte [cond; r1; r2]).
    assert (Fs : efrag k s = true) by (apply efrag_build; [reflexivity|]; cbn [forallb]; rewrite F1, F2, F3; reflexivity).
    unfold ite_def. change (m_op3 OIte (TOp OIte [cond; tEq s r1; tEq s r2])) with (ROk (cond, tEq s r1, tEq s r2)). cbn [obind]. rewrite !m_op2_eq. cbn [obind].
    destruct (valid_dec k cond s r1 s r2) as (b1 & -> & _); auto. destruct (valid_dec k cond r1 s s r2) as (b2 & -> & _); auto. destruct (valid_dec k cond s r1 r2 s) as (b3 & -> & _); auto.
    assert (H4 : ite_valid cond r1 s r2 s = ROk true).
    { unfold ite_valid, aand. rewrite polyeq_refl. cbn [obind]. unfold s. change (op3 OIte (TOp OIte [cond; r1; r2])) with (Some (cond, r1, r2)). cbn iota beta. rewrite !polyeq_refl. reflexivity. }
    rewrite H4. destruct b1, b2, b3; reflexivity.
  Qed.
  Lemma fixed_def_ok k u : efrag k u = true -> ite_def u = ROk tt -> exists v, fixed_def u = ROk v /\ good_def k v /\ feq v u = true.
  Proof.
    intros Fu H. unfold ite_def, m_op3, m_op2 in H. unfold fixed_def.
    destruct (op3 OIte u) as [[[cond e1] e2]|] eqn:E3; [|discriminate]. cbn [ok_or unwrap obind] in *. apply op3_some in E3. subst u.
    destruct (op2 OEquals e1) as [[a b]|] eqn:Ea; [|discriminate]. cbn [ok_or unwrap obind] in *. apply op2_some in Ea. subst e1.
    destruct (op2 OEquals e2) as [[c d]|] eqn:Ec; [|discriminate]. cbn [ok_or unwrap obind] in *. apply op2_some in Ec. subst e2.
    assert (Fc : efrag k cond = true) by (apply (efrag_op k _ _ _ Fu); left; reflexivity).
    assert (Fe1 : efrag k (TOp OEquals [a; b]) = true) by (apply (efrag_op k _ _ _ Fu); right; left; reflexivity).
    assert (Fe2 : efrag k (TOp OEquals [c; d]) = true) by (apply (efrag_op k _ _ _ Fu); right; right; left; reflexivity).
    assert (Fa : efrag k a = true) by (apply (efrag_op k _ _ _ Fe1); left; reflexivity). assert (Fb : efrag k b = true) by (apply (efrag_op k _ _ _ Fe1); right; left; reflexivity).
    assert (Fd : efrag k c = true) by (apply (efrag_op k _ _ _ Fe2); left; reflexivity). assert (Fe : efrag k d = true) by (apply (efrag_op k _ _ _ Fe2); right; left; reflexivity). clear Fe1 Fe2 Fu.
    assert (DONE : forall r1 r2 x y z w, efrag k r1 = true -> efrag k r2 = true -> feq (TOp OIte [cond; r1; r2]) x = true -> feq (TOp OIte [cond; r1; r2]) y = true ->
      (z = TOp OEquals [r1; x] \/ z = TOp OEquals [x; r1]) -> (w = TOp OEquals [r2; y] \/ w = TOp OEquals [y; r2]) ->
      exists v, ROk (TOp OIte [cond; tEq (TOp OIte [cond; r1; r2]) r1; tEq (TOp OIte [cond; r1; r2]) r2]) = ROk v /\ good_def k v /\ feq v (TOp OIte [cond; z; w]) = true).
    { intros r1 r2 x y z w F1 F2 Hx Hy Hz Hw. eexists. split; [reflexivity|]. split; [exists cond, r1, r2; auto|]. set (s := TOp OIte [cond; r1; r2]) in *.
      assert (EQ : forall r x z, feq s x = true -> (z = TOp OEquals [r; x] \/ z = TOp OEquals [x; r]) -> feq (tEq s r) z = true).
      { intros r x' z' H1 [-> | ->]; unfold tEq; cbn [feq]; apply orb_true_iff; right; apply orb_true_iff; [right|left]; rewrite !op_eqb_refl; cbn [List.length Nat.eqb andb all2]; rewrite H1, feq_refl; reflexivity. }
      assert (Z1 : feq (tEq s r1) z = true) by (apply (EQ r1 x z); auto). assert (Z2 : feq (tEq s r2) w = true) by (apply (EQ r2 y w); auto).
      change (feq (TOp OIte [cond; tEq s r1; tEq s r2]) (TOp OIte [cond; z; w])) with
        (term_eqb (TOp OIte [cond; tEq s r1; tEq s r2]) (TOp OIte [cond; z; w]) || (op_eqb OIte OIte && (3 =? 3) && (feq cond cond && (feq (tEq s r1) z && (feq (tEq s r2) w && true))) || false)).
      rewrite Z1, Z2, feq_refl. cbn. apply orb_true_r. }
    destruct (valid_dec k cond a b c d) as (b1 & E1 & V1); auto. destruct (valid_dec k cond b a c d) as (b2 & E2 & V2); auto. destruct (valid_dec k cond a b d c) as (b3 & E3 & V3); auto. destruct (valid_dec k cond b a d c) as (b4 & E4 & V4); auto.
    rewrite E1, E2, E3, E4 in *. unfold aor in H. cbn [obind] in *. destruct b1; cbn [obind].
    { destruct V1 as [X Y]; [reflexivity|]. apply (DONE a c b d); auto. }
    destruct b2; cbn [obind] in *.
    { destruct V2 as [X Y]; [reflexivity|]. apply (DONE b c a d); auto. }
    destruct b3; cbn [obind] in *.
    { destruct V3 as [X Y]; [reflexivity|]. apply (DONE a d b c); auto. }
    destruct b4; [|discriminate]. destruct V4 as [X Y]; [reflexivity|]. apply (DONE b d a c); auto.
  Qed.
  Lemma fixed_defs_ok k us : forallb (efrag k) us = true -> ofor ite_def us = ROk tt -> exists vs, omap fixed_def us = ROk vs /\ Forall (good_def k) vs /\ List.length vs = List.length us /\ all2 feq vs us = true.
  Proof.
    induction us as [|u us IH]; intros Hf H; [exists []; repeat split; constructor|]. cbn [forallb ofor] in *. apply andb_true_iff in Hf. destruct Hf as [F1 F2]. apply obind_ok in H. destruct H as ([] & H1 & H2).
    destruct (fixed_def_ok k u F1 H1) as (v & V1 & V2 & V3). destruct (IH F2 H2) as (vs & W1 & W2 & W3 & W4). exists (v :: vs). cbn [omap]. rewrite V1. cbn [obind]. rewrite W1. cbn [obind all2 List.length]. rewrite V3, W4, W3. repeat split; auto.
  Qed.
  Lemma good_defs_accepted k vs : Forall (good_def k) vs -> ofor ite_def vs = ROk tt.
  Proof. induction 1 as [|v vs Hv _ IH]; [reflexivity|]. cbn [ofor]. rewrite (good_accepted k v Hv). exact IH. Qed.
  Theorem elab_ite_intro_ok k seen d cx c ps args : forallb (efrag k) c = true -> r_ite_intro c (map eclause ps) args = ROk tt -> Forall (accepted cx) ps ->
    derives cx (elab_ite_intro (fun _ => pelab seen d) c ps args) c.
  Proof.
    intros Hfr H HF. pose proof H as H0. unfold r_ite_intro in H. apply obind_ok in H. destruct H as ([] & H1 & H). unfold len_is in H1. apply rassert_ok in H1. apply Nat.eqb_eq in H1. destruct c as [|c0 [|]]; try discriminate.
    cbn [idx nth_error unwrap obind] in H. apply obind_ok in H. destruct H as ([t u] & H2 & H). unfold m_op2 in H2. destruct (op2 OEquals c0) as [[x y]|] eqn:E2; [|discriminate]. cbn in H2. injection H2 as -> ->. apply op2_some in E2. subst c0.
    cbn [forallb] in Hfr. rewrite andb_true_r in Hfr.
    assert (Ft : efrag k t = true) by (apply (efrag_op k _ _ _ Hfr); left; reflexivity).
    assert (Fu : efrag k u = true) by (apply (efrag_op k _ _ _ Hfr); right; left; reflexivity).
    unfold elab_ite_intro. cbn [List.length Nat.eqb passert obind idx nth_error unwrap]. change (TOp OEquals [t; u]) with (tEq t u). rewrite m_op2_eq. cbn [obind].
    rewrite (polyeq_feq k) in * by auto. cbn [obind] in *. destruct (feq t u) eqn:Etu.
    { destruct (pelab_ok other seen k d t u Ft Fu) as (n & N1 & N2 & _ & N3); [rewrite (polyeq_feq k), Etu by auto; reflexivity|]. exists n. auto. }
    apply obind_ok in H. destruct H as (us & H3 & H). rewrite H3. cbn [obind]. unfold m_ops in H3. destruct (as_op OAnd u) as [us'|] eqn:E3; [|discriminate]. cbn in H3. injection H3 as ->. apply as_op_some in E3. subst u.
    apply obind_ok in H. destruct H as (u0 & H4 & H). destruct us as [|u1 us]; [discriminate|]. cbn in H4. injection H4 as ->. cbn [skipn] in *.
    apply obind_ok in H. destruct H as ([] & H5 & H). apply obind_ok in H. destruct H as ([] & H6 & _).
    assert (Fus : forallb (efrag k) (u0 :: us) = true) by (apply forallb_forall; intros x Hx; apply (efrag_op k _ _ _ Fu Hx)).
    cbn [forallb] in Fus. apply andb_true_iff in Fus. destruct Fus as [F0 Fus]. unfold assert_polyeq in H5. rewrite (polyeq_feq k u0 t) in H5 by auto. cbn [obind] in H5. apply rassert_ok in H5.
    destruct (fixed_defs_ok k us Fus H6) as (vs & V1 & V2 & V3 & V4). cbn [List.length Nat.ltb Nat.leb passert obind]. rewrite V1. cbn [obind].
    destruct (term_eqb (TOp OAnd (u0 :: us)) (TOp OAnd (t :: vs))) eqn:T.
    { eexists. split; [reflexivity|]. split; [reflexivity|]. apply accepted_step. split; [|exact HF]. apply (run_of "ite_intro" r_ite_intro); [reflexivity|]. exact H0. }
    assert (Ffix : efrag k (TOp OAnd (t :: vs)) = true).
    { apply efrag_build; [reflexivity|]. cbn [forallb]. rewrite Ft. apply forallb_forall. intros v Hv. rewrite Forall_forall in V2. apply good_efrag; auto. }
    destruct (pelab_ok other seen k d (TOp OAnd (t :: vs)) (TOp OAnd (u0 :: us)) Ffix Fu) as (n & N1 & N2 & _ & N3).
    { rewrite (polyeq_feq k) by auto. f_equal. change (feq (TOp OAnd (t :: vs)) (TOp OAnd (u0 :: us))) with
        (term_eqb (TOp OAnd (t :: vs)) (TOp OAnd (u0 :: us)) || (op_eqb OAnd OAnd && (S (List.length vs) =? S (List.length us)) && (feq t u0 && all2 feq vs us) || match vs, us with [a2], [b2] => op_eqb OAnd OEquals && op_eqb OAnd OEquals && feq t b2 && feq a2 u0 | _, _ => false end)).
      rewrite (feq_sym _ _ H5), V4, V3, Nat.eqb_refl, op_eqb_refl. cbn [andb orb]. apply orb_true_r. }
    rewrite N1. cbn [obind]. apply (trans2_ok other cx _ _ t (TOp OAnd (t :: vs)) (TOp OAnd (u0 :: us))); auto.
    apply accepted_step. split; [|constructor]. apply (run_of "ite_intro" r_ite_intro); [reflexivity|]. cbn [ra_concl ra_prems ra_args map]. unfold r_ite_intro. cbn [len_is List.length Nat.eqb rassert obind idx nth_error unwrap].
    rewrite m_op2_eq. cbn [obind]. rewrite (polyeq_feq k) by auto. cbn [obind]. destruct (feq t (TOp OAnd (t :: vs))); [reflexivity|]. change (m_ops OAnd (TOp OAnd (t :: vs))) with (ROk (t :: vs)). cbn [obind idx nth_error unwrap skipn].
    unfold assert_polyeq. rewrite polyeq_refl. cbn [obind rassert]. rewrite (good_defs_accepted k vs V2). reflexivity.
  Qed.
End Sound.

(** ** The pass over a proof *)
(** get_elaboration_function, elaborator/mod.rs:147-156, without subproof (ElabSubproof.v), and the call in 165-172 *)
Definition polyeq_step (eqn : bool -> term -> term -> outcome enode) (cx : list (list anchor)) (c : clause) (r : string) (ps : list enode) (args : list term) : outcome enode :=
  if String.eqb r "refl" then unwrapped (elab_refl eqn cx c ps args)
  else if String.eqb r "forall_inst" then unwrapped (elab_forall_inst eqn c ps args)
  else if String.eqb r "ite_intro" then unwrapped (elab_ite_intro eqn c ps args)
  else if String.eqb r "bfun_elim" then unwrapped (elab_bfun_elim eqn c ps args)
  else ROk (EStep c r ps args).
Definition is_polyeq (r : string) : bool := memb String.eqb r ["refl"; "forall_inst"; "ite_intro"; "bfun_elim"; "subproof"].
(** elaborate_polyeq, elaborator/mod.rs:146-176, with mutate: the premises of a step and the steps of a subproof are elaborated first.
    Assumptions are left alone here (ElabPolyeq.v has their elaboration), and so are the last steps of subproofs. *)
Fixpoint polyeq_pass (eqn : bool -> term -> term -> outcome enode) (cx : list (list anchor)) (n : enode) : outcome enode :=
  match n with
  | EPrem c => ROk (EPrem c)
  | EStep c r ps args =>
      do ps' <- (fix all (l : list enode) := match l with [] => ROk [] | x :: l => do y <- polyeq_pass eqn cx x ; do k <- all l ; ROk (y :: k) end) ps ;
      polyeq_step eqn cx c r ps' args
  | ESub a c r ps args prev =>
      do ps' <- (fix all (l : list enode) := match l with [] => ROk [] | x :: l => do y <- polyeq_pass eqn cx x ; do k <- all l ; ROk (y :: k) end) ps ;
      do prev' <- polyeq_pass eqn (a :: cx) prev ;
      ROk (ESub a c r ps' args prev')
  end.
(** the elaborator of polyequal terms: [alpha] is its mode for alpha-equivalent terms *)
Definition eq_elab (seen : nat -> term -> term -> bool) (alpha : term -> term -> outcome enode) (d : nat) : bool -> term -> term -> outcome enode :=
  fun is_alpha => if is_alpha then alpha else pelab seen d.

Section Pass.
  Variable other : bool -> string -> crule.
  Variable seen : nat -> term -> term -> bool.
  Variable alpha : term -> term -> outcome enode.
  Variable d : nat.
  Variable k : bool.
  Notation accepted := (accepted other).
  Notation derives := (derives other).
  (** [x] and [y] are equal up to the sides of equalities, and in the fragment of ElabPolyeqSound.v *)
  Definition poly (x y : term) : Prop := efrag k x = true /\ efrag k y = true /\ polyeq x y = ROk true.
  Lemma poly_sym x y : poly x y -> poly y x.
  Proof.
    intros (F1 & F2 & H). split; [exact F2|]. split; [exact F1|]. rewrite (polyeq_feq k) in * by auto. injection H as H. f_equal. apply feq_sym. exact H.
  Qed.
  Lemma poly_equality cx x y : poly x y -> derives cx (equality_step (eq_elab seen alpha d) x y) [tEq x y].
  Proof.
    intros (F1 & F2 & H). unfold equality_step. rewrite H. cbn [obind negb eq_elab]. destruct (pelab_ok other seen k d x y F1 F2 H) as (n & N1 & N2 & _ & N3). exists n. auto.
  Qed.
  (** A step of the original proof that the checker accepts: where the elaboration has to compare two terms, they are [poly]. *)
  Inductive polyeq_fits (cx : list (list anchor)) (c : clause) (ps : list clause) (args : list term) : string -> Prop :=
  | PF_refl l r l' r' x y st : c = [tEq l r] -> applied cx l l' r r' -> refl_pair (fresh_stack cx) c = ROk (x, y, st) -> poly x y -> polyeq_fits cx c ps args "refl"
  | PF_forall_inst bs body e p : c = [TOp OOr [tNot (TBind BForall bs body); p]] -> r_forall_inst c ps args = ROk tt ->
      (do m <- subst_new (inst_map bs args) ; subst m body) = ROk e -> poly p e -> polyeq_fits cx c ps args "forall_inst"
  | PF_ite_intro : r_ite_intro c ps args = ROk tt -> forallb (efrag k) c = true -> polyeq_fits cx c ps args "ite_intro"
  | PF_bfun_elim psi e b g : ps = [[psi]] -> c = [g] -> r_bfun_elim c ps args = ROk tt -> bfun_term psi = ROk (e, b) -> efrag k e = true -> efrag k g = true -> polyeq_fits cx c ps args "bfun_elim"
  | PF_other r : is_polyeq r = false -> run other r (mkRA c ps args cx None []) -> polyeq_fits cx c ps args r.
  Lemma unwrapped_ok cx o c : derives cx o c -> derives cx (unwrapped o) c.
  Proof. intros (n & -> & H). exists n. auto. Qed.
  Lemma polyeq_step_ok cx c ps args r : polyeq_fits cx c (map eclause ps) args r -> Forall (accepted cx) ps -> derives cx (polyeq_step (eq_elab seen alpha d) cx c r ps args) c.
  Proof.
    intros H HF. inversion H as [l rr l' r' x y st H1 H2 H3 H4|bs body e p H1 H2 H3 H4|H1 H2|psi e b g H1 H2 H3 H4 H5 H6|r0 H1 H2]; subst r; unfold polyeq_step; cbn [String.eqb Ascii.eqb Bool.eqb]; try apply unwrapped_ok.
    - subst c. eapply elab_refl_ok; eauto. apply poly_equality, H4.
    - apply elab_forall_inst_ok; auto. intros q bs' body' e' p' E1 E2 E3 _. rewrite E1 in H1. subst q. injection H1 as -> -> ->. rewrite H3 in E3. injection E3 as <-. apply poly_equality, poly_sym, H4.
    - change (elab_ite_intro (eq_elab seen alpha d) c ps args) with (elab_ite_intro (fun _ => pelab seen d) c ps args). apply (elab_ite_intro_ok other k); auto.
    - subst c. apply elab_bfun_elim_ok; auto. intros psi' e' b' g' E1 E2 E3 _. rewrite E1 in H1. injection H1 as ->. injection E3 as <-. rewrite E2 in H4. injection H4 as -> ->.
      assert (HP : poly e g).
      { apply poly_sym. split; [exact H6|]. split; [exact H5|]. unfold r_bfun_elim in H3. rewrite E1 in H3. cbn [len_is List.length Nat.eqb rassert obind idx nth_error unwrap premise_term] in H3. rewrite E2 in H3. cbn [obind fst] in H3.
        unfold assert_polyeq in H3. apply obind_ok in H3. destruct H3 as (v & V1 & V2). apply rassert_ok in V2. subst v. exact V1. }
      split.
      + intros ->. destruct HP as (_ & F & HP). rewrite (polyeq_feq k) in HP by auto. rewrite feq_not in HP. discriminate.
      + destruct HP as (F1 & F2 & HP). destruct (pelab_ok other seen k d e g F1 F2 HP) as (n & N1 & N2 & _ & N3). exists n. auto.
    - assert (E : polyeq_step (eq_elab seen alpha d) cx c r0 ps args = ROk (EStep c r0 ps args)).
      { unfold polyeq_step. unfold is_polyeq in H1. cbn [memb existsb] in H1. repeat (apply orb_false_iff in H1; destruct H1 as [? H1]).
        repeat match goal with Hx : String.eqb r0 _ = false |- _ => rewrite Hx; clear Hx end. reflexivity. }
      unfold polyeq_step in E. rewrite E. eexists. split; [reflexivity|]. split; [reflexivity|]. apply accepted_step. auto.
  Qed.
  Fixpoint polyeq_fits_all (cx : list (list anchor)) (n : enode) : Prop :=
    match n with
    | EPrem _ => True
    | EStep c r ps args =>
        polyeq_fits cx c (map eclause ps) args r /\
        (fix all (l : list enode) : Prop := match l with [] => True | x :: l => polyeq_fits_all cx x /\ all l end) ps
    | ESub a c r ps args prev =>
        run other r (mkRA c (map eclause ps) args (a :: cx) (Some (eclause prev)) []) /\
        (fix all (l : list enode) : Prop := match l with [] => True | x :: l => polyeq_fits_all cx x /\ all l end) ps /\
        polyeq_fits_all (a :: cx) prev
    end.
  Theorem polyeq_pass_ok : forall n cx, polyeq_fits_all cx n -> derives cx (polyeq_pass (eq_elab seen alpha d) cx n) (eclause n).
  Proof.
    fix IH 1. intros n cx. destruct n as [c|c r ps args|a c r ps args prev]; intros H.
    - exists (EPrem c). repeat split.
    - destruct H as [Hs H]. assert (G : exists ps', (fix all (l : list enode) := match l with [] => ROk [] | x :: l => do y <- polyeq_pass (eq_elab seen alpha d) cx x ; do k <- all l ; ROk (y :: k) end) ps = ROk ps' /\
        map eclause ps' = map eclause ps /\ Forall (accepted cx) ps').
      { clear Hs. induction ps as [|p ps IHp]; [exists []; repeat split; constructor|]. destruct H as [H1 H2]. destruct (IH p cx H1) as (p' & E1 & C1 & A1). destruct (IHp H2) as (ps' & E2 & C2 & A2).
        exists (p' :: ps'). rewrite E1. cbn [obind]. rewrite E2. split; [reflexivity|]. split; [cbn; congruence|constructor; auto]. }
      destruct G as (ps' & E & C & A). cbn [polyeq_pass]. rewrite E. cbn [obind eclause]. apply polyeq_step_ok; [rewrite C; exact Hs|exact A].
    - destruct H as (Hs & H & Hp). assert (G : exists ps', (fix all (l : list enode) := match l with [] => ROk [] | x :: l => do y <- polyeq_pass (eq_elab seen alpha d) cx x ; do k <- all l ; ROk (y :: k) end) ps = ROk ps' /\
        map eclause ps' = map eclause ps /\ Forall (accepted cx) ps').
      { clear Hs. induction ps as [|p ps IHp]; [exists []; repeat split; constructor|]. destruct H as [H1 H2]. destruct (IH p cx H1) as (p' & E1 & C1 & A1). destruct (IHp H2) as (ps' & E2 & C2 & A2).
        exists (p' :: ps'). rewrite E1. cbn [obind]. rewrite E2. split; [reflexivity|]. split; [cbn; congruence|constructor; auto]. }
      destruct G as (ps' & E & C & A). destruct (IH prev (a :: cx) Hp) as (prev' & Ep & Cp & Ap). exists (ESub a c r ps' args prev'). cbn [polyeq_pass]. rewrite E. cbn [obind]. rewrite Ep.
      split; [reflexivity|]. split; [reflexivity|]. apply accepted_sub. rewrite C, Cp. auto.
  Qed.
End Pass.
