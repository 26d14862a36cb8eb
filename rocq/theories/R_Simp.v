(** The Boolean simplification rules, checker/rules/simplification.rs:1-392. *)
From Coq Require Import List String ZArith QArith Bool Arith Lia.
From Verif Require Import Term Field Sem Sorting Base Rules R_Taut Utils Num R_Resolution.
Import ListNotations.
Local Open Scope nat_scope.

(** ** The [simplify!] macro (simplification.rs:13-42): the first alternative whose pattern and guard
    match gives the result *)
Fixpoint pick (l : list (option term)) : option term :=
  match l with [] => None | Some t :: _ => Some t | None :: r => pick r end.
Definition guard (b : bool) (t : term) : option term := if b then Some t else None.
Definition with1 {A} (o : option A) (f : A -> option term) : option term :=
  match o with Some a => f a | None => None end.

(** ** simplify_until_fixed_point (simplification.rs:51-68).  [simp] may panic (comparisons of fractions),
    hence its type.  The Rust loop has no fuel: [None] is "fuel exhausted", shown unreachable below for
    the fuel used in [generic_simplify]. *)
Definition stepper : Type := term -> outcome (option term).
Fixpoint until_fixed (simp : stepper) (fuel : nat) (seen : list term) (current goal : term) : option (outcome term) :=
  match fuel with
  | O => None
  | S n =>
      if memb term_eqb current seen then Some RErr
      else match simp current with
           | ROk (Some next) => if term_eqb next goal then Some (ROk next) else until_fixed simp n (current :: seen) next goal
           | ROk None => Some (ROk current)
           | RErr => Some RErr
           | RPanic => Some RPanic
           end
  end.
Fixpoint tsize (t : term) : nat :=
  match t with
  | TConst _ | TVar _ _ | TSort _ => 1
  | TApp f l => S (tsize f + list_sum (map tsize l))
  | TOp _ l => S (list_sum (map tsize l))
  | TBind _ _ b => S (tsize b)
  | TLet bs b => S (list_sum (map (fun p => tsize (snd p)) bs) + tsize b)
  | TPOp _ a l => S (list_sum (map tsize a) + list_sum (map tsize l))
  end.
Definition simp_fuel (t : term) : nat := 2 * tsize t + 5.
(** out of fuel is counted as a panic: [simp_never_stuck] shows that it does not happen *)
Definition fix_point (simp : stepper) (t goal : term) : outcome term :=
  match until_fixed simp (simp_fuel t) [] t goal with Some r => r | None => RPanic end.
(** generic_simplify_rule, simplification.rs:44-86 *)
Definition generic_simplify (simp : stepper) : rule := fun c _ _ =>
  len_is c 1 ;;
  do c0 <- idx c 0 ;
  do lr <- m_op2 OEquals c0 ;
  let '(lhs, rhs) := lr in
  do result <- fix_point simp lhs rhs ;
  if term_eqb result rhs then ROk tt
  else do back <- fix_point simp rhs lhs ; rassert (term_eqb back lhs).
Definition pure (f : term -> option term) : stepper := fun t => ROk (f t).

(** ** ite_simplify, simplification.rs:88-140 *)
Definition ite_step (t : term) : option term :=
  with1 (op3 OIte t) (fun p => let '(c, a, b) := p in
  pick [ guard (is_true c) a
       ; guard (is_false c) b
       ; guard (term_eqb a b) a
       ; guard (is_true a && is_false b) c
       ; guard (is_false a && is_true b) (tNot c)
       ; with1 (op1 ONot c) (fun phi => Some (TOp OIte [phi; b; a]))
       ; with1 (op3 OIte a) (fun q => let '(c', t1, _) := q in guard (term_eqb c c') (TOp OIte [c; t1; b]))
       ; with1 (op3 OIte b) (fun q => let '(c', _, t3) := q in guard (term_eqb c c') (TOp OIte [c; a; t3]))
       ; guard (is_true a) (TOp OOr [c; b])
       ; guard (is_false b) (TOp OAnd [c; a])
       ; guard (is_false a) (TOp OAnd [tNot c; b])
       ; guard (is_true b) (TOp OOr [tNot c; a]) ]).

(** ** eq_simplify, simplification.rs:142-160 *)
Definition eq_step (t : term) : option term :=
  pick [ with1 (op2 OEquals t) (fun p => guard (term_eqb (fst p) (snd p)) tTrue)
       ; with1 (op2 OEquals t) (fun p =>
           match as_signed_number (fst p), as_signed_number (snd p) with
           | Some x, Some y => guard (negb (Qeq_bool x y)) tFalse
           | _, _ => None
           end)
       ; with1 (op1 ONot t) (fun e => with1 (op2 OEquals e) (fun p =>
           guard (term_eqb (fst p) (snd p) && is_signed_number (fst p)) tFalse)) ].

(** ** not_simplify, simplification.rs:268-281 *)
Definition not_step (t : term) : option term :=
  with1 (op1 ONot t) (fun a =>
  pick [ with1 (op1 ONot a) (fun phi => Some phi)
       ; guard (is_false a) tTrue
       ; guard (is_true a) tFalse ]).

(** ** implies_simplify, simplification.rs:283-319 *)
Definition implies_step (t : term) : option term :=
  with1 (op2 OImplies t) (fun p => let '(a, b) := p in
  pick [ with1 (op1 ONot a) (fun x => with1 (op1 ONot b) (fun y => Some (TOp OImplies [y; x])))
       ; guard (is_false a) tTrue
       ; guard (is_true b) tTrue
       ; guard (is_true a) b
       ; guard (is_false b) (tNot a)
       ; guard (term_eqb a b) tTrue
       ; guard (match remove_negation a with Some x => term_eqb x b | None => false end
                || match remove_negation b with Some y => term_eqb y a | None => false end) b
       ; with1 (op2 OImplies a) (fun q => guard (term_eqb (snd q) b) (TOp OOr [fst q; snd q])) ]).

(** ** equiv_simplify, simplification.rs:321-352 *)
Definition equiv_step (t : term) : option term :=
  with1 (op2 OEquals t) (fun p => let '(a, b) := p in
  pick [ with1 (op1 ONot a) (fun x => with1 (op1 ONot b) (fun y => Some (tEq x y)))
       ; guard (term_eqb a b) tTrue
       ; with1 (op1 ONot b) (fun y => guard (term_eqb a y) tFalse)
       ; with1 (op1 ONot a) (fun x => guard (term_eqb x b) tFalse)
       ; guard (is_true a) b
       ; guard (is_true b) a
       ; guard (is_false a) (tNot b)
       ; guard (is_false b) (tNot a) ]).

(** ** bool_simplify, simplification.rs:354-392 *)
Definition bool_step (t : term) : option term :=
  pick [ with1 (op1 ONot t) (fun e => with1 (op2 OImplies e) (fun p => Some (TOp OAnd [fst p; tNot (snd p)])))
       ; with1 (op1 ONot t) (fun e => with1 (op2 OOr e) (fun p => Some (TOp OAnd [tNot (fst p); tNot (snd p)])))
       ; with1 (op1 ONot t) (fun e => with1 (op2 OAnd e) (fun p => Some (TOp OOr [tNot (fst p); tNot (snd p)])))
       ; with1 (op2 OImplies t) (fun p => with1 (op2 OImplies (snd p)) (fun q =>
           Some (TOp OImplies [TOp OAnd [fst p; fst q]; snd q])))
       ; with1 (op2 OImplies t) (fun p => with1 (op2 OImplies (fst p)) (fun q =>
           guard (term_eqb (snd q) (snd p)) (TOp OOr [fst q; snd q])))
       ; with1 (op2 OAnd t) (fun p => with1 (op2 OImplies (snd p)) (fun q =>
           guard (term_eqb (fst p) (fst q)) (TOp OAnd [fst p; snd q])))
       ; with1 (op2 OAnd t) (fun p => with1 (op2 OImplies (fst p)) (fun q =>
           guard (term_eqb (fst q) (snd p)) (TOp OAnd [fst q; snd q]))) ].

Definition r_ite_simplify := generic_simplify (pure ite_step).
Definition r_eq_simplify := generic_simplify (pure eq_step).
Definition r_not_simplify := generic_simplify (pure not_step).
Definition r_implies_simplify := generic_simplify (pure implies_step).
Definition r_equiv_simplify := generic_simplify (pure equiv_step).
Definition r_bool_simplify := generic_simplify (pure bool_step).

(** ** generic_and_or_simplify, simplification.rs:162-266; [k] is And or Or.
    [dedup] models [retain(|t| seen.insert(t))]: keeps first occurrences. *)
Fixpoint dedup_from (seen l : list term) : list term :=
  match l with
  | [] => []
  | t :: r => if memb term_eqb t seen then dedup_from seen r else t :: dedup_from (t :: seen) r
  end.
Definition dedup (l : list term) : list term := dedup_from [] l.
Definition and_or_simplify (k : op) (skip : bool) : rule := fun c _ _ =>
  len_is c 1 ;;
  do c0 <- idx c 0 ;
  do lr <- m_op2 OEquals c0 ;
  let '(lhs, result_term) := lr in
  do phis <- m_ops k lhs ;
  let result_args := match as_op k result_term with Some l => l | None => [result_term] end in
  let phis := match phis with
              | [p] => match as_op k p with Some l => l | None => phis end
              | _ => phis
              end in
  let phis := filter (fun t => negb (is_bool_const t skip)) phis in
  if list_eqb term_eqb result_args phis then ROk tt else
  let phis := dedup phis in
  if list_eqb term_eqb result_args phis then ROk tt else
  let seen := map rm_neg_polarity phis in
  if existsb (fun t => memb blit_eqb (negb (fst (rm_neg_polarity t)), snd (rm_neg_polarity t)) seen
                       || is_bool_const t (negb skip)) phis
  then match result_args with [r] => rassert (is_bool_const r (negb skip)) | _ => RErr end
  else match phis with
       | [] => match result_args with [r] => rassert (is_bool_const r skip) | _ => RErr end
       | _ => rassert (list_eqb term_eqb result_args phis)
       end.
Definition r_and_simplify := and_or_simplify OAnd true.
Definition r_or_simplify := and_or_simplify OOr false.

(** ** qnt_simplify, simplification.rs:394-404 *)
Definition as_quant (t : term) : option (binder * list sorted_var * term) :=
  match t with
  | TBind BForall vs b => Some (BForall, vs, b)
  | TBind BExists vs b => Some (BExists, vs, b)
  | _ => None
  end.
Definition r_qnt_simplify : rule := fun c _ _ =>
  len_is c 1 ;;
  do c0 <- idx c 0 ;
  do lr <- m_op2 OEquals c0 ;
  do q <- ok_or (as_quant (fst lr)) ;
  rassert (is_false (snd q) || is_true (snd q)) ;;
  teq (snd lr) (snd q).

(** * Soundness *)
Lemma pick_In l t : pick l = Some t -> In (Some t) l.
Proof.
  induction l as [|[x|] r IH]; simpl; [discriminate| |].
  - intros H. left. congruence.
  - intros H. right. auto.
Qed.
Lemma guard_some b x t : guard b x = Some t -> b = true /\ t = x.
Proof. unfold guard. destruct b; [|discriminate]. intros H. split; congruence. Qed.
Lemma with1_some {A} (o : option A) f t : with1 o f = Some t -> exists a, o = Some a /\ f a = Some t.
Proof. destruct o; simpl; [eauto|discriminate]. Qed.

(** what one simplification step must guarantee, on terms satisfying an invariant [P] *)
Definition step_keeps (P : term -> Prop) (f : stepper) : Prop :=
  forall t t', f t = ROk (Some t') -> wt t = true -> P t ->
    wt t' = true /\ P t' /\ sort_of t' = sort_of t /\
    forall (I : interp) (E : env I), env_ok E -> eval t' E = eval t E.
Lemma until_fixed_sound P f : step_keeps P f -> forall fuel seen t goal r,
  until_fixed f fuel seen t goal = Some (ROk r) -> wt t = true -> P t ->
  forall (I : interp) (E : env I), env_ok E -> eval r E = eval t E.
Proof.
  intros Hf. induction fuel as [|n IH]; simpl; intros seen t goal r H Hw HP I E HE; [discriminate|].
  destruct (memb term_eqb t seen); [discriminate|].
  destruct (f t) as [[next|]| |] eqn:Ef; try discriminate.
  - destruct (Hf _ _ Ef Hw HP) as [Hw' [HP' [_ Hv]]].
    destruct (term_eqb next goal).
    + injection H as <-. auto.
    + rewrite (IH _ _ _ _ H Hw' HP') by auto. auto.
  - injection H as <-. reflexivity.
Qed.
Lemma fix_point_sound P f t goal r : step_keeps P f -> fix_point f t goal = ROk r -> wt t = true -> P t ->
  forall (I : interp) (E : env I), env_ok E -> eval r E = eval t E.
Proof.
  intros Hf. unfold fix_point. destruct (until_fixed f (simp_fuel t) [] t goal) eqn:Eu; [|discriminate].
  intros ->. eapply until_fixed_sound; eauto.
Qed.
Lemma generic_simplify_ok P f c ps args : step_keeps P f -> generic_simplify f c ps args = ROk tt ->
  clause_wt c = true -> (forall l r, c = [tEq l r] -> P l /\ P r) -> entails ps c.
Proof.
  intros Hf H Hw HP. unfold generic_simplify in H. rinv.
  destruct (HP _ _ eq_refl) as [Hl Hr].
  unfold clause_wt in Hw. simpl in Hw. rewrite andb_true_r in Hw. apply bool_term_wt, eq_args_wt in Hw.
  destruct Hw as [Wl [Wr _]]. intros I E HE _. apply clause_holds_b. simpl. rewrite orb_false_r.
  apply holds_eq_iff.
  match type of H with context [term_eqb ?x ?y] => destruct (term_eqb x y) eqn:Et end.
  - apply term_eqb_eq in Et. subst. symmetry. eapply fix_point_sound; eauto.
  - rinv. apply term_eqb_eq in H. subst. eapply fix_point_sound; eauto.
Qed.
Lemma generic_simplify_sound f : step_keeps (fun _ => True) f -> rule_sound (generic_simplify f).
Proof. intros Hf c ps args H Hw _. eapply generic_simplify_ok; eauto. Qed.

(** ** Sorting of small Boolean terms *)
Lemma sort_eqb_sym a b : sort_eqb a b = sort_eqb b a.
Proof.
  destruct (sort_eqb a b) eqn:E1, (sort_eqb b a) eqn:E2; auto.
  - apply sort_eqb_eq in E1. subst. rewrite sort_eqb_refl in E2. discriminate.
  - apply sort_eqb_eq in E2. subst. rewrite sort_eqb_refl in E1. discriminate.
Qed.
Lemma bt_true : bool_term tTrue = true. Proof. reflexivity. Qed.
Lemma bt_false : bool_term tFalse = true. Proof. reflexivity. Qed.
Lemma bt_and a b : bool_term (TOp OAnd [a; b]) = bool_term a && bool_term b.
Proof.
  rewrite bool_term_op by (reflexivity || discriminate). cbn [forallb map op_wt]. unfold bool_term.
  unfold min_len. cbn [List.length Nat.leb]. rewrite !(sort_eqb_sym SBool).
  destruct (wt a), (wt b), (sort_eqb (sort_of a) SBool), (sort_eqb (sort_of b) SBool); reflexivity.
Qed.
Lemma bt_or a b : bool_term (TOp OOr [a; b]) = bool_term a && bool_term b.
Proof.
  rewrite bool_term_op by (reflexivity || discriminate). cbn [forallb map op_wt]. unfold bool_term.
  unfold min_len. cbn [List.length Nat.leb]. rewrite !(sort_eqb_sym SBool).
  destruct (wt a), (wt b), (sort_eqb (sort_of a) SBool), (sort_eqb (sort_of b) SBool); reflexivity.
Qed.
Lemma bt_implies a b : bool_term (TOp OImplies [a; b]) = bool_term a && bool_term b.
Proof.
  rewrite bool_term_op by (reflexivity || discriminate). cbn [forallb map op_wt]. unfold bool_term.
  unfold min_len. cbn [List.length Nat.leb]. rewrite !(sort_eqb_sym SBool).
  destruct (wt a), (wt b), (sort_eqb (sort_of a) SBool), (sort_eqb (sort_of b) SBool); reflexivity.
Qed.
Lemma wt_bt o l : (o = ONot \/ o = OAnd \/ o = OOr \/ o = OImplies \/ o = OEquals) -> wt (TOp o l) = true -> bool_term (TOp o l) = true.
Proof.
  intros Ho H. unfold bool_term. rewrite H. simpl.
  destruct Ho as [->|[->|[->|[->| ->]]]]; reflexivity.
Qed.
Lemma bt_eq a b : wt a = true -> wt b = true -> sort_of a = sort_of b -> bool_term (tEq a b) = true.
Proof.
  intros Ha Hb Hs. unfold tEq. rewrite bool_term_op by (reflexivity || discriminate).
  cbn [forallb map op_wt all_eq]. rewrite Ha, Hb, Hs, sort_eqb_refl. reflexivity.
Qed.
Lemma wt_ite c a b : bool_term c = true -> wt a = true -> wt b = true -> sort_of a = sort_of b ->
  wt (TOp OIte [c; a; b]) = true.
Proof.
  intros Hc Ha Hb Hs. cbn [wt forallb map op_wt]. rewrite (bool_term_wt _ Hc), Ha, Hb, (bool_term_sort _ Hc), Hs.
  rewrite !sort_eqb_refl. reflexivity.
Qed.
Lemma bt_intro t : wt t = true -> sort_of t = SBool -> bool_term t = true.
Proof. intros H1 H2. unfold bool_term. rewrite H1, H2. reflexivity. Qed.

(** a step between Boolean terms, judged by truth values *)
Lemma step_bool t t' : bool_term t = true -> bool_term t' = true ->
  (forall (I : interp) (E : env I), env_ok E -> holds E t' = holds E t) ->
  wt t' = true /\ True /\ sort_of t' = sort_of t /\ forall (I : interp) (E : env I), env_ok E -> eval t' E = eval t E.
Proof.
  intros H1 H2 H. split; [apply bool_term_wt; auto|]. split; [exact Logic.I|].
  split; [rewrite !bool_term_sort by auto; reflexivity|].
  intros I E HE. rewrite !eval_bool by auto. rewrite H; auto.
Qed.
Lemma pure_some f t t' : pure f t = ROk (Some t') -> f t = Some t'.
Proof. unfold pure. congruence. Qed.
Ltac sinv1 :=
  match goal with
  | H : pure _ _ = ROk (Some _) |- _ => apply pure_some in H
  | H : pick _ = Some _ |- _ => apply pick_In in H; simpl In in H
  | H : _ \/ _ |- _ => destruct H as [H|H]
  | H : False |- _ => destruct H
  | H : with1 _ _ = Some _ |- _ => apply with1_some in H; destruct H as [? [? H]]
  | H : guard _ _ = Some _ |- _ => apply guard_some in H; destruct H as [H ->]
  | H : Some _ = Some _ |- _ => injection H as <-
  | H : ?x = TOp _ _ |- _ => is_var x; subst x
  | H : op1 _ _ = Some _ |- _ => apply op1_some in H; subst
  | H : op2 _ _ = Some ?p |- _ => destruct p; apply op2_some in H; subst; cbn [fst snd] in *
  | H : op3 _ _ = Some ?p |- _ => destruct p as [[? ?] ?]; apply op3_some in H; subst
  | H : remove_negation _ = Some _ |- _ => apply op1_some in H; subst
  | H : term_eqb _ _ = true |- _ => apply term_eqb_eq in H; subst
  | H : is_true _ = true |- _ => apply is_true_eq in H; subst
  | H : is_false _ = true |- _ => apply is_false_eq in H; subst
  | H : (_ && _)%bool = true |- _ => apply andb_true_iff in H; destruct H
  end.
Ltac sinv := repeat sinv1.
(** break [bool_term] hypotheses down to the immediate atoms *)
Ltac bts :=
  fold tTrue tFalse in *; repeat match goal with
  | H : bool_term (tNot _) = true |- _ => rewrite bool_term_not in H
  | H : bool_term (TOp ONot [?a]) = true |- _ => change (bool_term (tNot a) = true) in H; rewrite bool_term_not in H
  | H : bool_term (TOp OAnd [_; _]) = true |- _ => rewrite bt_and in H; apply andb_true_iff in H; destruct H
  | H : bool_term (TOp OOr [_; _]) = true |- _ => rewrite bt_or in H; apply andb_true_iff in H; destruct H
  | H : bool_term (TOp OImplies [_; _]) = true |- _ => rewrite bt_implies in H; apply andb_true_iff in H; destruct H
  | |- bool_term (TOp ONot [?a]) = true => change (bool_term (tNot a) = true); rewrite bool_term_not
  | |- bool_term (tNot ?a) = true => rewrite bool_term_not
  | |- bool_term (TOp OAnd [_; _]) = true => rewrite bt_and; apply andb_true_iff; split
  | |- bool_term (TOp OOr [_; _]) = true => rewrite bt_or; apply andb_true_iff; split
  | |- bool_term (TOp OImplies [_; _]) = true => rewrite bt_implies; apply andb_true_iff; split
  end; try assumption; try reflexivity.
Ltac bval := intros I E HE; unfold tTrue, tFalse; hsimp; hsolve.

Lemma not_keeps : step_keeps (fun _ => True) (pure not_step).
Proof.
  intros t t' H Hw _. unfold not_step in H. sinv; apply wt_bt in Hw; auto;
    apply step_bool; try (bts; fail); bval.
Qed.
Lemma implies_keeps : step_keeps (fun _ => True) (pure implies_step).
Proof.
  intros t t' H Hw _. unfold implies_step in H. sinv.
  all: try match goal with H : (_ || _)%bool = true |- _ => apply orb_true_iff in H; destruct H as [H|H];
     match type of H with match ?x with _ => _ end = true => destruct x eqn:?; [|discriminate]; sinv end end.
  all: apply wt_bt in Hw; auto; apply step_bool; try (bts; fail); try bval.
Qed.
Lemma bool_keeps : step_keeps (fun _ => True) (pure bool_step).
Proof.
  intros t t' H Hw _. unfold bool_step in H. sinv; apply wt_bt in Hw; auto; try tauto;
    apply step_bool; try (bts; fail); try bval.
Qed.

Lemma ite_keeps : step_keeps (fun _ => True) (pure ite_step).
Proof.
  intros t t' H Hw _. unfold ite_step in H. sinv.
  all: pose proof (ite_args_wt _ _ _ Hw) as [Hc [Ha [Hb Hs]]].
  all: assert (So : forall c a b, sort_of (TOp OIte [c; a; b]) = sort_of a) by reflexivity.
  - split; [auto|]. split; [auto|]. split; [reflexivity|]. intros I E HE. reflexivity.
  - split; [auto|]. split; [auto|]. split; [symmetry; auto|]. intros I E HE. reflexivity.
  - split; [auto|]. split; [auto|]. split; [reflexivity|]. intros I E HE. cbn [eval map eval_op].
    destruct (truth (eval t0 E)); reflexivity.
  - apply step_bool; auto; [apply bt_intro; [auto|reflexivity]|]. bval.
  - apply step_bool; auto; [apply bt_intro; [auto|reflexivity]|bts|]. bval.
  - bts. split; [apply wt_ite; auto|]. split; [auto|]. split; [rewrite !So; auto|]. intros I E HE. cbn [eval map eval_op truth].
    destruct (truth (eval x E)); reflexivity.
  - pose proof (ite_args_wt _ _ _ Ha) as [Hc' [Ha' [Hb' Hs']]]. rewrite So in Hs.
    split; [apply wt_ite; auto|]. split; [auto|]. split; [reflexivity|]. intros I E HE. cbn [eval map eval_op truth].
    repeat match goal with |- context [truth (eval ?x E)] => destruct (truth (eval x E)) end; reflexivity.
  - pose proof (ite_args_wt _ _ _ Hb) as [Hc' [Ha' [Hb' Hs']]]. rewrite So in Hs.
    split; [apply wt_ite; auto; congruence|]. split; [auto|]. split; [reflexivity|]. intros I E HE. cbn [eval map eval_op truth].
    repeat match goal with |- context [truth (eval ?x E)] => destruct (truth (eval x E)) end; reflexivity.
  - repeat match goal with K : wt ?x = true |- _ => is_var x;
      assert (bool_term x = true) by (apply bt_intro; [exact K|(rewrite Hs; reflexivity) || (rewrite <- Hs; reflexivity)]); clear K end.
    apply step_bool; auto; [apply bt_intro; [auto|reflexivity]|bts|bval].
  - repeat match goal with K : wt ?x = true |- _ => is_var x;
      assert (bool_term x = true) by (apply bt_intro; [exact K|(rewrite Hs; reflexivity) || (rewrite <- Hs; reflexivity)]); clear K end.
    apply step_bool; auto; [apply bt_intro; [auto|rewrite So; apply bool_term_sort; auto]|bts|bval].
  - repeat match goal with K : wt ?x = true |- _ => is_var x;
      assert (bool_term x = true) by (apply bt_intro; [exact K|(rewrite Hs; reflexivity) || (rewrite <- Hs; reflexivity)]); clear K end.
    apply step_bool; auto; [apply bt_intro; [auto|reflexivity]|bts|bval].
  - repeat match goal with K : wt ?x = true |- _ => is_var x;
      assert (bool_term x = true) by (apply bt_intro; [exact K|(rewrite Hs; reflexivity) || (rewrite <- Hs; reflexivity)]); clear K end.
    apply step_bool; auto; [apply bt_intro; [auto|rewrite So; apply bool_term_sort; auto]|bts|bval].
Qed.

Lemma signed_number_eq_iff a b x y : as_signed_number a = Some x -> as_signed_number b = Some y ->
  Qeq_bool x y = false -> forall (I : interp) (E : env I), holds E (TOp OEquals [a; b]) = false.
Proof.
  intros Ha Hb Hq I E. rewrite holds_eq', (as_signed_number_eval E _ _ Ha), (as_signed_number_eval E _ _ Hb).
  cbn. rewrite injQ_eqb. exact Hq.
Qed.
Lemma holds_eq_refl {I} (E : env I) a : holds E (TOp OEquals [a; a]) = true.
Proof. apply (holds_eq_iff E a a). reflexivity. Qed.
Lemma eq_keeps : step_keeps (fun _ => True) (pure eq_step).
Proof.
  intros t t' H Hw _. unfold eq_step in H. sinv; apply wt_bt in Hw; auto.
  - apply step_bool; try (bts; fail). intros I E HE. rewrite (holds_eq_refl E). reflexivity.
  - destruct (as_signed_number t0) eqn:E0; [|discriminate]. destruct (as_signed_number t1) eqn:E1; [|discriminate].
    sinv. apply negb_true_iff in H. apply step_bool; try (bts; fail). intros I E HE.
    rewrite (signed_number_eq_iff _ _ _ _ E0 E1 H). reflexivity.
  - apply step_bool; try (bts; fail). intros I E HE. rewrite holds_not', holds_eq_refl. reflexivity.
Qed.
Lemma eq_bt_args a b : bool_term (TOp OEquals [a; b]) = true -> bool_term a = true -> bool_term b = true.
Proof. intros H Ha. apply (eq_bools a b); auto. Qed.
Lemma eq_bt_args' a b : bool_term (TOp OEquals [a; b]) = true -> bool_term b = true -> bool_term a = true.
Proof. intros H Ha. apply (bool_eq_r a b); auto. apply bool_term_sort; auto. Qed.
Lemma holds_eqv {I} (E : env I) a b : bool_term a = true -> bool_term b = true -> env_ok E ->
  holds E (TOp OEquals [a; b]) = Bool.eqb (holds E a) (holds E b).
Proof. apply holds_eq_bool. Qed.
Lemma wt_bt_not a : wt (TOp ONot [a]) = true -> bool_term a = true.
Proof. intros H. rewrite <- bool_term_not. apply wt_bt; auto. Qed.
Lemma bt_not a : bool_term a = true -> bool_term (TOp ONot [a]) = true.
Proof. intros H. change (bool_term (tNot a) = true). rewrite bool_term_not. exact H. Qed.
Lemma equiv_keeps : step_keeps (fun _ => True) (pure equiv_step).
Proof.
  intros t t' H Hw _. unfold equiv_step in H. sinv; pose proof (eq_args_wt _ _ Hw) as [Wa [Wb Ws]]; apply wt_bt in Hw; auto.
  - apply wt_bt_not in Wa, Wb.
    assert (bool_term (tEq x x0) = true).
    { apply bt_eq; try (apply bool_term_wt; auto; fail). rewrite !bool_term_sort; auto. }
    apply step_bool; auto. intros I E HE. unfold tEq. rewrite !holds_eqv, !holds_not' by (auto; apply bt_not; auto).
    destruct (holds E x), (holds E x0); reflexivity.
  - apply step_bool; auto. intros I E HE. rewrite (holds_eq_refl E). reflexivity.
  - apply wt_bt_not in Wb. apply step_bool; auto. intros I E HE. rewrite !holds_eqv, !holds_not' by (auto; apply bt_not; auto).
    match goal with |- context [holds E ?x] => destruct (holds E x); reflexivity end.
  - apply wt_bt_not in Wa. apply step_bool; auto. intros I E HE. rewrite !holds_eqv, !holds_not' by (auto; apply bt_not; auto).
    match goal with |- context [Bool.eqb _ (holds E ?x)] => destruct (holds E x); reflexivity end.
  - pose proof (eq_bt_args _ _ Hw eq_refl). apply step_bool; auto. intros I E HE. rewrite !holds_eqv by auto.
    change (holds E tTrue) with true. destruct (holds E t1); reflexivity.
  - pose proof (eq_bt_args' _ _ Hw eq_refl). apply step_bool; auto. intros I E HE. rewrite !holds_eqv by auto.
    change (holds E tTrue) with true. destruct (holds E t0); reflexivity.
  - pose proof (eq_bt_args _ _ Hw eq_refl). apply step_bool; [auto|bts|]. intros I E HE. unfold tNot. rewrite !holds_eqv, holds_not' by auto.
    change (holds E tFalse) with false. destruct (holds E t1); reflexivity.
  - pose proof (eq_bt_args' _ _ Hw eq_refl). apply step_bool; [auto|bts|]. intros I E HE. unfold tNot. rewrite !holds_eqv, holds_not' by auto.
    change (holds E tFalse) with false. destruct (holds E t0); reflexivity.
Qed.

(** ** and_simplify / or_simplify *)
Section AndOr.
  Context {I : interp} (E : env I).
  (** value of a conjunction/disjunction; [s] is the skip constant *)
  Definition fold_ao (s : bool) (l : list term) : bool := if s then forallb (holds E) l else existsb (holds E) l.
  Lemma fold_ao_iff s l : fold_ao s l = s <-> (forall t, In t l -> holds E t = s).
  Proof.
    unfold fold_ao. destruct s.
    - apply forallb_forall.
    - split.
      + intros H t Ht. destruct (holds E t) eqn:Et; auto. rewrite <- H. symmetry. apply existsb_exists. eauto.
      + intros H. destruct (existsb (holds E) l) eqn:Ee; auto. apply existsb_exists in Ee. destruct Ee as [t [Ht Hh]].
        rewrite H in Hh by auto. auto.
  Qed.
  Lemma fold_ao_ext s l m : (forall t, In t l -> holds E t = negb s -> exists u, In u m /\ holds E u = negb s) ->
    (forall t, In t m -> holds E t = negb s -> exists u, In u l /\ holds E u = negb s) -> fold_ao s l = fold_ao s m.
  Proof.
    assert (K : forall l, fold_ao s l = negb s <-> exists t, In t l /\ holds E t = negb s).
    { clear. intros l. unfold fold_ao. destruct s; simpl.
      - split.
        + induction l as [|x r IH]; simpl; [discriminate|]. destruct (holds E x) eqn:Ex; simpl; intros H.
          * destruct (IH H) as [t [Ht Hh]]. eauto.
          * eauto.
        + intros [t [Ht Hh]]. destruct (forallb (holds E) l) eqn:Ef; auto. rewrite forallb_forall in Ef. rewrite Ef in Hh; auto.
      - apply existsb_exists. }
    intros H1 H2. destruct (bool_dec (fold_ao s l) (negb s)) as [Hl|Hl].
    - rewrite Hl. symmetry. apply K. apply K in Hl. destruct Hl as [t [Ht Hh]]. eauto.
    - destruct (bool_dec (fold_ao s m) (negb s)) as [Hm|Hm].
      + exfalso. apply Hl. apply K. apply K in Hm. destruct Hm as [t [Ht Hh]]. eauto.
      + destruct (fold_ao s l), (fold_ao s m), s; simpl in *; congruence.
  Qed.
  Lemma fold_ao_op (s : bool) l : holds E (TOp (if s then OAnd else OOr) l) = fold_ao s l.
  Proof. destruct s; [apply holds_and|apply holds_or]. Qed.
  Lemma fold_ao_1 s (t : term) : fold_ao s [t] = holds E t.
  Proof. destruct s; simpl; [apply andb_true_r|apply orb_false_r]. Qed.
  Lemma is_bool_const_holds (t : term) b : is_bool_const t b = true -> holds E t = b.
  Proof. destruct b; intros H; [apply is_true_eq in H|apply is_false_eq in H]; subst; reflexivity. Qed.
  Lemma fold_ao_filter s l : fold_ao s (filter (fun t => negb (is_bool_const t s)) l) = fold_ao s l.
  Proof.
    apply fold_ao_ext.
    - intros t Ht Hh. apply filter_In in Ht. exists t. tauto.
    - intros t Ht Hh. exists t. split; auto. apply filter_In. split; auto.
      destruct (is_bool_const t s) eqn:Ei; auto. apply is_bool_const_holds in Ei. rewrite Ei in Hh. destruct s; discriminate.
  Qed.
  Lemma dedup_from_In seen l t : In t (dedup_from seen l) <-> In t l /\ ~ In t seen.
  Proof.
    revert seen. induction l as [|x r IH]; simpl; intros seen; [tauto|].
    destruct (memb term_eqb x seen) eqn:Em.
    - rewrite IH. apply (memb_In _ term_eqb_eq) in Em. intuition. subst. contradiction.
    - assert (~ In x seen). { intros Hx. apply (memb_In _ term_eqb_eq) in Hx. congruence. }
      simpl. rewrite IH. simpl. intuition; subst; auto.
      destruct (term_dec x t); [left; auto|]. right. intuition.
  Qed.
  Lemma dedup_In l t : In t (dedup l) <-> In t l.
  Proof. unfold dedup. rewrite dedup_from_In. simpl. tauto. Qed.
  Lemma fold_ao_dedup s l : fold_ao s (dedup l) = fold_ao s l.
  Proof. apply fold_ao_ext; intros t Ht Hh; exists t; split; auto; apply dedup_In; auto. Qed.
  Lemma fold_ao_short s l : existsb (fun t => memb blit_eqb (negb (fst (rm_neg_polarity t)), snd (rm_neg_polarity t)) (map rm_neg_polarity l)
                       || is_bool_const t (negb s)) l = true -> fold_ao s l = negb s.
  Proof.
    intros H. apply existsb_exists in H. destruct H as [t [Ht H]].
    assert (K : exists u, In u l /\ holds E u = negb s).
    { apply orb_true_iff in H. destruct H as [H|H].
      - apply (memb_In _ blit_eqb_eq) in H. apply in_map_iff in H. destruct H as [u [Hu Hin]].
        pose proof (rm_neg_polarity_sem E t) as St. pose proof (rm_neg_polarity_sem E u) as Su.
        rewrite Hu in Su. unfold hblit in *. cbn [fst snd] in *.
        assert (holds E u = negb (holds E t)).
        { rewrite <- Su, <- St. destruct (fst (rm_neg_polarity t)), (holds E (snd (rm_neg_polarity t))); reflexivity. }
        destruct (bool_dec (holds E t) s) as [Hs|Hs]; [exists u|exists t]; split; auto; [congruence|].
        destruct (holds E t), s; simpl in *; congruence.
      - exists t. split; auto. apply is_bool_const_holds; auto. }
    destruct K as [u [Hu Hh]]. destruct (bool_dec (fold_ao s l) (negb s)) as [Hl|Hl]; auto.
    assert (fold_ao s l = s) by (destruct (fold_ao s l), s; simpl in *; congruence).
    rewrite fold_ao_iff in H0. rewrite H0 in Hh by auto. destruct s; discriminate.
  Qed.
End AndOr.
Lemma and_or_simplify_sound (s : bool) : rule_sound (and_or_simplify (if s then OAnd else OOr) s).
Proof.
  intros c ps args H Hw _ I E HE _. unfold and_or_simplify in H. rinv.
  unfold clause_wt in Hw. simpl in Hw. rewrite andb_true_r in Hw.
  apply clause_holds_b. simpl. rewrite orb_false_r.
  match goal with H : context [as_op _ ?r] |- _ => set (ra := match as_op (if s then OAnd else OOr) r with Some l => l | None => [r] end) in H end.
  match type of Hw with bool_term (TOp OEquals [TOp _ ?l; ?r]) = true => rename l into phis; rename r into res end.
  assert (Bl : bool_term (TOp (if s then OAnd else OOr) phis) = true).
  { apply bool_term_wt, eq_args_wt in Hw. destruct Hw as [W1 _]. apply wt_bt; [destruct s; auto|exact W1]. }
  assert (Br : bool_term res = true) by (eapply eq_bt_args; eauto).
  rewrite holds_eqv by auto. apply eqb_true_iff. rewrite fold_ao_op.
  assert (Hra : holds E res = fold_ao E s ra).
  { subst ra. destruct (as_op (if s then OAnd else OOr) res) as [l|] eqn:Eo.
    - apply as_op_some in Eo. subst res. apply fold_ao_op.
    - symmetry. apply fold_ao_1. }
  set (ph1 := match phis with [p] => match as_op (if s then OAnd else OOr) p with Some l => l | None => phis end | _ => phis end) in H.
  assert (H1 : fold_ao E s phis = fold_ao E s ph1).
  { subst ph1. destruct phis as [|p [|q r]]; auto. destruct (as_op (if s then OAnd else OOr) p) as [l|] eqn:Eo; auto.
    apply as_op_some in Eo. subst p. rewrite fold_ao_1. apply fold_ao_op. }
  rewrite H1, Hra. clearbody ra ph1. rewrite <- (fold_ao_filter E s ph1).
  set (ph2 := filter (fun t => negb (is_bool_const t s)) ph1) in *. clearbody ph2. clear - H.
  destruct (list_eqb term_eqb ra ph2) eqn:E1.
  { apply (list_eqb_eq term_eqb) in E1; [subst; reflexivity|apply term_eqb_eq]. }
  rewrite <- (fold_ao_dedup E s ph2). set (ph3 := dedup ph2) in *. clearbody ph3. clear E1.
  destruct (list_eqb term_eqb ra ph3) eqn:E1.
  { apply (list_eqb_eq term_eqb) in E1; [subst; reflexivity|apply term_eqb_eq]. }
  match type of H with (if ?b then _ else _) = _ => destruct b eqn:Eb end.
  - apply (fold_ao_short E) in Eb. rewrite Eb. destruct ra as [|r [|r' ra]]; try discriminate.
    rinv. rewrite fold_ao_1. symmetry. apply is_bool_const_holds; auto.
  - destruct ph3 as [|p ph3].
    + destruct ra as [|r [|r' ra]]; try discriminate. rinv. rewrite fold_ao_1.
      rewrite (is_bool_const_holds E r s) by auto. destruct s; reflexivity.
    + rinv. congruence.
Qed.
Lemma r_qnt_simplify_sound : rule_sound r_qnt_simplify.
Proof.
  intros c ps args H Hw _ I E HE _. unfold r_qnt_simplify in H. rinv.
  apply clause_holds_b. simpl. rewrite orb_false_r. apply holds_eq_iff.

  match goal with K : ok_or _ = ROk _ |- _ => apply ok_or_ok in K end.
  match goal with K : (is_false _ || _)%bool = true |- _ => rename K into H1 end.
  match goal with H : as_quant ?t = Some ?q |- _ => destruct q as [[b vs] body]; destruct t; try discriminate; rename H into Hq end.
  cbn [snd] in *.
  assert (Hk : exists k, body = tBool k).
  { apply orb_true_iff in H1. destruct H1 as [H1|H1]; [exists false; apply is_false_eq|exists true; apply is_true_eq]; auto. }
  destruct Hk as [k Hk].
  destruct (vals_exist (I := I) (map snd vs)) as [vals Hd].
  assert (Kt : forall k', eval_all vs (fun _ => k') E = k').
  { intros k'. destruct k'.
    - apply eval_all_true. reflexivity.
    - destruct (eval_all vs (fun _ => false) E) eqn:Ea; auto. rewrite eval_all_true in Ea. symmetry. apply (Ea vals Hd). }
  destruct b0; try discriminate; injection Hq as <- <- <-; subst; destruct k; cbn; rewrite Kt; reflexivity.
Qed.

(** * Termination of the fixed-point loop *)
Lemma until_fixed_terminates f (m : term -> nat) : (forall t t', f t = ROk (Some t') -> m t' < m t) ->
  forall fuel seen t goal, m t < fuel -> (forall u, In u seen -> m t < m u) ->
  exists r, until_fixed f fuel seen t goal = Some r /\ ((forall u, f u <> RErr) -> r <> RErr).
Proof.
  intros Hm. induction fuel as [|n IH]; simpl; intros seen t goal Hf Hs; [lia|].
  destruct (memb term_eqb t seen) eqn:Em.
  { apply (memb_In _ term_eqb_eq) in Em. apply Hs in Em. lia. }
  destruct (f t) as [[next|]| |] eqn:Ef.
  - destruct (term_eqb next goal); [eexists; split; [reflexivity|discriminate]|].
    apply Hm in Ef. apply IH; [lia|]. intros u [<-|Hu]; [exact Ef|]. apply Hs in Hu. lia.
  - eexists; split; [reflexivity|discriminate].
  - eexists; split; [reflexivity|]. intros K. destruct (K _ Ef).
  - eexists; split; [reflexivity|discriminate].
Qed.
(** the fuel of [fix_point] suffices, whatever the term, and no cycle is reported *)
Definition terminating (f : stepper) : Prop := forall t goal,
  exists r, until_fixed f (simp_fuel t) [] t goal = Some r /\ r <> RErr.
Lemma terminating_by f (m : term -> nat) : (forall t t', f t = ROk (Some t') -> m t' < m t) ->
  (forall t, m t <= 2 * tsize t + 4) -> (forall t, f t <> RErr) -> terminating f.
Proof.
  intros H1 H2 H3 t goal. destruct (until_fixed_terminates f m H1 (simp_fuel t) [] t goal) as [r [Hr K]].
  - unfold simp_fuel. specialize (H2 t). lia.
  - intros u [].
  - exists r. split; auto.
Qed.
Lemma tsize_pos t : 1 <= tsize t.
Proof. destruct t; cbn [tsize]; lia. Qed.
Lemma pure_not_err f t : pure f t <> RErr.
Proof. discriminate. Qed.
Ltac tsz :=
  cbn [tsize map list_sum fold_right];
  repeat match goal with |- context [tsize ?x] => 
    lazymatch goal with K : 1 <= tsize x |- _ => fail | _ => pose proof (tsize_pos x) end end; lia.
Ltac sterm f := apply (terminating_by _ tsize); [|intros; lia|apply pure_not_err];
  intros t t' H; unfold f in H; sinv.
Definition ite_measure (t : term) : nat :=
  match t with TOp o _ => if op_eqb o OIte then tsize t else 0 | _ => 0 end.
Lemma ite_measure_le t : ite_measure t <= tsize t.
Proof. destruct t; cbn [ite_measure]; try lia. destruct (op_eqb o OIte); lia. Qed.
Lemma ite_term : terminating (pure ite_step).
Proof.
  apply (terminating_by _ ite_measure); [|intros t; pose proof (ite_measure_le t); lia|apply pure_not_err].
  intros t t' H; unfold ite_step in H; sinv; try (cbn; lia);
  match goal with |- ite_measure ?x < _ => pose proof (ite_measure_le x); apply (Nat.le_lt_trans _ (tsize x)); [assumption|] end;
  unfold ite_measure, tNot; cbn [op_eqb op_code N.eqb Pos.eqb]; tsz.
Qed.
Lemma not_term : terminating (pure not_step).
Proof. sterm not_step; unfold tNot, tEq, tTrue, tFalse in *; tsz. Qed.
Lemma equiv_term : terminating (pure equiv_step).
Proof. sterm equiv_step; unfold tNot, tEq, tTrue, tFalse in *; tsz. Qed.
Lemma implies_term : terminating (pure implies_step).
Proof.
  sterm implies_step; unfold tNot, tEq, tTrue, tFalse in *; try tsz.
Qed.
Lemma eq_term : terminating (pure eq_step).
Proof.
  sterm eq_step; try (unfold tNot, tEq, tTrue, tFalse in *; tsz).
  match goal with H : match ?x with _ => _ end = _ |- _ => destruct x; [|discriminate];
    match goal with H : match ?y with _ => _ end = _ |- _ => destruct y; [|discriminate] end end.
  sinv. unfold tNot, tEq, tTrue, tFalse in *; tsz.
Qed.
(** bool_simplify does not always shrink the term: it moves implications to the left *)
Fixpoint imp_spine (t : term) : nat :=
  match t with
  | TOp o [_; b] => if op_eqb o OImplies then S (imp_spine b) else 0
  | _ => 0
  end.
Definition bool_measure (t : term) : nat :=
  match t with
  | TOp o _ => if op_eqb o ONot then 2 * tsize t + 3 else if op_eqb o OAnd then 2 * tsize t
               else if op_eqb o OImplies then imp_spine t else 0
  | _ => 0
  end.
Lemma imp_spine_size t : imp_spine t <= tsize t.
Proof.
  induction t using term_ind'; cbn [imp_spine tsize]; try lia.
  destruct args as [|a [|b [|c r]]]; try lia. destruct (op_eqb o OImplies); [|lia].
  apply Forall_inv_tail, Forall_inv in H. simpl. lia.
Qed.
Lemma bool_term_step : terminating (pure bool_step).
Proof.
  apply (terminating_by _ bool_measure); [| |apply pure_not_err].
  - intros t t' H; unfold bool_step in H; sinv; unfold bool_measure, tNot in *; cbn [op_eqb op_code N.eqb Pos.eqb imp_spine]; try lia;
      unfold tNot, tEq, tTrue, tFalse in *; tsz.
  - intros t. unfold bool_measure. destruct t as [| | |o l| | | |]; try lia.
    pose proof (imp_spine_size (TOp o l)).
    destruct (op_eqb o ONot); [lia|]. destruct (op_eqb o OAnd); [lia|]. destruct (op_eqb o OImplies); lia.
Qed.

Definition bool_simp_rules : list (string * rule) :=
  [("ite_simplify", r_ite_simplify); ("eq_simplify", r_eq_simplify); ("and_simplify", r_and_simplify);
   ("or_simplify", r_or_simplify); ("not_simplify", r_not_simplify); ("implies_simplify", r_implies_simplify);
   ("equiv_simplify", r_equiv_simplify); ("bool_simplify", r_bool_simplify); ("qnt_simplify", r_qnt_simplify)]%string.
Lemma bool_simp_rules_sound : forall name r, In (name, r) bool_simp_rules -> rule_sound r.
Proof.
  intros name r H. simpl in H.
  repeat (destruct H as [H|H]; [injection H as <- <-|]); [..|contradiction];
  first [apply generic_simplify_sound, ite_keeps|apply generic_simplify_sound, eq_keeps|apply (and_or_simplify_sound true)
        |apply (and_or_simplify_sound false)|apply generic_simplify_sound, not_keeps|apply generic_simplify_sound, implies_keeps
        |apply generic_simplify_sound, equiv_keeps|apply generic_simplify_sound, bool_keeps|apply r_qnt_simplify_sound].
Qed.
