(** Equality rules: eq_reflexive (checker/rules/reflexivity.rs:4-8), transitivity.rs, congruence.rs and
    the symmetry rules of extras.rs.  [refl] and [strict_refl] need contexts; see R_Refl.v. *)
From Coq Require Import List String ZArith Bool Arith Lia.
From Verif Require Import Term Field Sem Sorting Base Rules R_Taut.
Import ListNotations.
Open Scope string_scope.
Local Open Scope nat_scope.

Definition teq_b : term -> term -> bool := term_eqb.
Definition pair_is (p : term * term) (a b : term) : bool :=
  term_eqb a (fst p) && term_eqb b (snd p) || term_eqb a (snd p) && term_eqb b (fst p).

(** eq_reflexive, reflexivity.rs:4-8 *)
Definition r_eq_reflexive : rule := fun c _ _ =>
  len_is c 1 ;; do x <- idx c 0 ; do p <- m_op2 OEquals x ; teq (fst p) (snd p).

(** find_chain, transitivity.rs:6-43: the [find_map] *)
Fixpoint find_eq (a : term) (ps : list (term * term)) : option (nat * term) :=
  match ps with
  | [] => None
  | (t, u) :: r =>
      if term_eqb t a then Some (0, u)
      else if term_eqb u a then Some (0, t)
      else match find_eq a r with Some (i, x) => Some (S i, x) | None => None end
  end.
Fixpoint set_nth {A} (i : nat) (a : A) (l : list A) : list A :=
  match i, l with
  | _, [] => []
  | 0, _ :: r => a :: r
  | S i, x :: r => x :: set_nth i a r
  end.
(** [premises.swap(0, index)] followed by [&mut premises[1..]] *)
Definition swap_tail {A} (i : nat) (l : list A) : list A :=
  match l with
  | [] => []
  | x :: r => match i with 0 => r | S i => set_nth i x r end
  end.
Fixpoint find_chain (fuel : nat) (a b : term) (ps : list (term * term)) : outcome unit :=
  if term_eqb a b then ROk tt else
  match find_eq a ps with
  | None => RErr
  | Some (i, x) =>
      match fuel with
      | 0 => RPanic (* unreachable: every call removes one premise, see [find_chain_fuel] *)
      | S f => find_chain f x b (swap_tail i ps)
      end
  end.
Definition not_eq (t : term) : outcome (term * term) := do x <- rm_neg t ; m_op2 OEquals x.
Definition prem_eq (p : clause) : outcome (term * term) := do t <- premise_term p ; m_op2 OEquals t.
(** eq_transitive, transitivity.rs:45-60 *)
Definition r_eq_transitive : rule := fun c _ _ =>
  len_ge c 3 ;;
  do l <- unwrap (nth_error c (List.length c - 1)) ;
  do p <- m_op2 OEquals l ;
  do ps <- omap not_eq (firstn (List.length c - 1) c) ;
  find_chain (List.length ps) (fst p) (snd p) ps.
(** trans, transitivity.rs:62-72 *)
Definition r_trans : rule := fun c ps _ =>
  len_is c 1 ;; do x <- idx c 0 ; do p <- m_op2 OEquals x ;
  do qs <- omap prem_eq ps ;
  find_chain (List.length qs) (fst p) (snd p) qs.

(** generic_congruent_rule, congruence.rs:39-88 *)
Definition generic_congruent (prems : list (term * term)) (p q : term) : outcome unit :=
  do fg <- match p, q with
           | TApp f a, TApp g b => rassert (term_eqb f g) ;; ROk (a, b)
           | TOp f a, TOp g b => rassert (op_eqb f g) ;; ROk (a, b)
           | _, _ => RErr
           end ;
  rassert (Nat.eqb (List.length (fst fg)) (List.length (snd fg))) ;;
  rassert (Nat.leb (List.length prems) (List.length (fst fg))) ;;
  rassert (Nat.eqb (List.length prems) (List.length (fst fg))) ;;
  ofor (fun x => rassert (pair_is (fst x) (fst (snd x)) (snd (snd x))))
       (combine prems (combine (fst fg) (snd fg))).
(** eq_congruent, congruence.rs:6-15 *)
Definition r_eq_congruent : rule := fun c _ _ =>
  len_ge c 2 ;;
  do l <- unwrap (nth_error c (List.length c - 1)) ;
  do p <- m_op2 OEquals l ;
  do ps <- omap not_eq (firstn (List.length c - 1) c) ;
  generic_congruent ps (fst p) (snd p).
(** eq_congruent_pred, congruence.rs:17-34 *)
Definition r_eq_congruent_pred : rule := fun c _ _ =>
  len_ge c 3 ;;
  do p <- unwrap (nth_error c (List.length c - 2)) ;
  do q <- unwrap (nth_error c (List.length c - 1)) ;
  do pq <- match remove_negation p with
           | Some p' => ROk (p', q)
           | None => do q' <- rm_neg q ; ROk (p, q')
           end ;
  do ps <- omap not_eq (firstn (List.length c - 2) c) ;
  generic_congruent ps (fst pq) (snd pq).

(** check_cong, congruence.rs:92-131 *)
Fixpoint check_cong (ps : list (term * term)) (fa ga : list term) : outcome unit :=
  match fa, ga with
  | f :: fr, g :: gr =>
      match ps with
      | p :: pr => if pair_is p f g then check_cong pr fr gr
                   else if term_eqb f g then check_cong ps fr gr else RErr
      | [] => if term_eqb f g then check_cong ps fr gr else RErr
      end
  | _, _ => match ps with [] => ROk tt | _ => RErr end
  end.
Definition is_ok (o : outcome unit) : bool := match o with ROk _ => true | _ => false end.
(** cong, congruence.rs:133-207 *)
Definition r_cong : rule := fun c ps _ =>
  len_is c 1 ;; len_ge ps 1 ;;
  do qs <- omap prem_eq ps ;
  do x <- idx c 0 ; do p <- m_op2 OEquals x ;
  match op2 OEquals (fst p), op2 OEquals (snd p) with
  | Some (f0, f1), Some (g0, g1) =>
      rassert (is_ok (check_cong qs [f0; f1] [g0; g1]) || is_ok (check_cong qs [f1; f0] [g0; g1])
               || is_ok (check_cong qs [f0; f1] [g1; g0]) || is_ok (check_cong qs [f1; f0] [g1; g0]))
  | _, _ =>
      do fg <- match fst p, snd p with
               | TApp f a, TApp g b => rassert (term_eqb f g) ;; ROk (a, b)
               | TOp f a, TOp g b => rassert (op_eqb f g) ;; ROk (a, b)
               | TPOp f fo a, TPOp g go b => rassert (pop_beq f g && list_eqb term_eqb fo go) ;; ROk (a, b)
               | _, _ => RErr
               end ;
      rassert (Nat.eqb (List.length (fst fg)) (List.length (snd fg))) ;;
      check_cong qs (fst fg) (snd fg)
  end.
(** ho_cong, congruence.rs:209-234 *)
Definition r_ho_cong : rule := fun c ps _ =>
  len_is c 1 ;; len_ge ps 1 ;;
  do qs <- omap prem_eq ps ;
  do x <- idx c 0 ; do p <- m_op2 OEquals x ;
  match fst p, snd p with
  | TApp f a, TApp g b =>
      rassert (Nat.eqb (List.length a) (List.length b)) ;; check_cong qs (f :: a) (g :: b)
  | _, _ => RErr
  end.

(** symm, not_symm, eq_symmetric: extras.rs:50-77 *)
Definition r_symm : rule := fun c ps _ =>
  len_is ps 1 ;; len_is c 1 ;;
  do pr <- idx ps 0 ; do t <- premise_term pr ; do p <- m_op2 OEquals t ;
  do x <- idx c 0 ; do q <- m_op2 OEquals x ;
  teq (fst p) (snd q) ;; teq (snd p) (fst q).
Definition r_not_symm : rule := fun c ps _ =>
  len_is ps 1 ;; len_is c 1 ;;
  do pr <- idx ps 0 ; do t <- premise_term pr ; do p <- not_eq t ;
  do x <- idx c 0 ; do q <- not_eq x ;
  teq (fst p) (snd q) ;; teq (snd p) (fst q).
Definition r_eq_symmetric : rule := fun c _ _ =>
  len_is c 1 ;; do x <- idx c 0 ; do pq <- m_op2 OEquals x ;
  do p <- m_op2 OEquals (fst pq) ; do q <- m_op2 OEquals (snd pq) ;
  teq (fst p) (snd q) ;; teq (snd p) (fst q).

(** ** Soundness *)
Section S.
  Context {I : interp}.
  Implicit Types E : env I.
  Definition same E (p : term * term) : Prop := eval (fst p) E = eval (snd p) E.

  Lemma pair_is_same E p a b : pair_is p a b = true -> same E p -> eval a E = eval b E.
  Proof.
    unfold pair_is, same. rewrite orb_true_iff, !andb_true_iff, !term_eqb_eq.
    intros [[-> ->]|[-> ->]] H; congruence.
  Qed.
  Lemma find_eq_same E a ps i x : find_eq a ps = Some (i, x) -> Forall (same E) ps -> eval a E = eval x E.
  Proof.
    revert i x. induction ps as [|[t u] r IH]; simpl; intros i x H HF; [discriminate|].
    inversion HF as [|? ? H1 H2]; subst. unfold same in H1; simpl in H1.
    destruct (term_eqb t a) eqn:Et.
    { apply term_eqb_eq in Et. injection H as <- <-. congruence. }
    destruct (term_eqb u a) eqn:Eu.
    { apply term_eqb_eq in Eu. injection H as <- <-. congruence. }
    destruct (find_eq a r) as [[j y]|]; [|discriminate]. injection H as <- <-. eauto.
  Qed.
  Lemma set_nth_Forall {A} (P : A -> Prop) i a l : P a -> Forall P l -> Forall P (set_nth i a l).
  Proof.
    intros Ha H. revert i. induction H as [|x l Hx Hl IH]; intros i; destruct i; simpl; constructor; auto.
  Qed.
  Lemma swap_tail_Forall {A} (P : A -> Prop) i l : Forall P l -> Forall P (swap_tail i l).
  Proof. intros H. destruct H; simpl; [constructor|]. destruct i; auto. apply set_nth_Forall; auto. Qed.
  Lemma find_chain_same E fuel a b ps : find_chain fuel a b ps = ROk tt -> Forall (same E) ps ->
    eval a E = eval b E.
  Proof.
    revert a ps. induction fuel as [|f IH]; simpl; intros a ps H HF.
    - destruct (term_eqb a b) eqn:Ea; [apply term_eqb_eq in Ea; congruence|].
      destruct (find_eq a ps) as [[i x]|]; discriminate.
    - destruct (term_eqb a b) eqn:Ea; [apply term_eqb_eq in Ea; congruence|].
      destruct (find_eq a ps) as [[i x]|] eqn:Ef; [|discriminate].
      rewrite (find_eq_same E _ _ _ _ Ef HF). eapply IH; eauto. apply swap_tail_Forall; auto.
  Qed.
  Lemma omap_Forall2 {A B} (f : A -> outcome B) l bs : omap f l = ROk bs ->
    Forall2 (fun a b => f a = ROk b) l bs.
  Proof.
    revert bs. induction l as [|x r IH]; simpl; intros bs H.
    - injection H as <-. constructor.
    - apply obind_ok in H. destruct H as [b [Hb H]]. apply obind_ok in H. destruct H as [bs' [Hbs H]].
      injection H as <-. constructor; auto.
  Qed.
  Lemma not_eq_ok t p : not_eq t = ROk p -> t = tNot (tEq (fst p) (snd p)).
  Proof. unfold not_eq. intros H. rinv. reflexivity. Qed.
  Lemma prem_eq_ok t p : prem_eq t = ROk p -> t = [tEq (fst p) (snd p)].
  Proof. unfold prem_eq. intros H. rinv. reflexivity. Qed.
  Lemma prems_same E ps qs : omap prem_eq ps = ROk qs -> (forall p, In p ps -> clause_holds E p) ->
    Forall (same E) qs.
  Proof.
    intros H HP. apply omap_Forall2 in H. induction H as [|p q ps qs Hpq _ IH]; constructor.
    - apply prem_eq_ok in Hpq. subst. specialize (HP _ (or_introl eq_refl)).
      apply clause_holds_one in HP. apply holds_eq_iff in HP. exact HP.
    - apply IH. intros p' Hp'. apply HP. right; auto.
  Qed.
  (** negated premise equalities: one of the literals holds or all equalities do *)
  Lemma neg_lits_same E c qs : omap not_eq c = ROk qs -> clause_holds E c \/ Forall (same E) qs.
  Proof.
    intros H. apply omap_Forall2 in H. induction H as [|t q ps qs Hpq _ IH]; [right; constructor|].
    apply not_eq_ok in Hpq. subst. rewrite clause_holds_cons. destruct IH as [IH|IH]; [auto|].
    destruct (holds E (tEq (fst q) (snd q))) eqn:Eq.
    - right. constructor; auto. apply holds_eq_iff; auto.
    - left; left. rewrite holds_not, Eq. reflexivity.
  Qed.
  Lemma firstn_In {A} n (l : list A) a : In a (firstn n l) -> In a l.
  Proof. revert n. induction l as [|x r IH]; intros [|n]; simpl; try tauto. intros [H|H]; eauto. Qed.
  Lemma clause_firstn E n c : clause_holds E (firstn n c) -> clause_holds E c.
  Proof. apply clause_holds_incl. intros a. apply firstn_In. Qed.
  Lemma clause_nth E n c t : nth_error c n = Some t -> holds E t = true -> clause_holds E c.
  Proof. intros H Ht. exists t. split; auto. eapply nth_error_In; eauto. Qed.

  Lemma ofor_pair_same E prems fa ga u :
    ofor (fun x => rassert (pair_is (fst x) (fst (snd x)) (snd (snd x)))) (combine prems (combine fa ga)) = ROk u ->
    List.length fa = List.length ga -> List.length prems = List.length fa ->
    Forall (same E) prems -> map (fun a => eval a E) fa = map (fun a => eval a E) ga.
  Proof.
    revert prems ga. induction fa as [|f fr IH]; intros [|p pr] [|g gr]; simpl; intros H H1 H2 HF;
      try discriminate; auto.
    inversion HF; subst. apply obind_ok in H. destruct H as [? [Hp H]]. apply rassert_ok in Hp.
    f_equal; [eapply pair_is_same; eauto|]. eapply IH; eauto.
  Qed.
  Lemma generic_congruent_same E prems p q u : generic_congruent prems p q = ROk u ->
    Forall (same E) prems -> eval p E = eval q E.
  Proof.
    unfold generic_congruent. intros H HF.
    apply obind_ok in H. destruct H as [[fa ga] [Hfg H]]. cbn [fst snd] in H.
    apply obind_ok in H. destruct H as [? [H1 H]]. apply rassert_ok in H1. apply Nat.eqb_eq in H1.
    apply obind_ok in H. destruct H as [? [_ H]].
    apply obind_ok in H. destruct H as [? [H2 H]]. apply rassert_ok in H2. apply Nat.eqb_eq in H2.
    pose proof (ofor_pair_same E _ _ _ _ H H1 H2 HF) as Hm.
    destruct p, q; try discriminate Hfg.
    - apply obind_ok in Hfg. destruct Hfg as [? [Hf Hfg]]. apply rassert_ok in Hf. apply term_eqb_eq in Hf.
      injection Hfg as -> ->. simpl. rewrite Hm, Hf. reflexivity.
    - apply obind_ok in Hfg. destruct Hfg as [? [Hf Hfg]]. apply rassert_ok in Hf. apply op_eqb_eq in Hf.
      injection Hfg as -> ->. simpl. rewrite Hm, Hf. reflexivity.
  Qed.
  Lemma check_cong_same E ps fa ga u : check_cong ps fa ga = ROk u ->
    List.length fa = List.length ga -> Forall (same E) ps ->
    map (fun a => eval a E) fa = map (fun a => eval a E) ga.
  Proof.
    revert ps ga. induction fa as [|f fr IH]; intros ps [|g gr]; simpl; intros H HL HF; try discriminate; auto.
    injection HL as HL. destruct HF as [|p pr Hp Hpr].
    - destruct (term_eqb f g) eqn:Ef; [|discriminate]. apply term_eqb_eq in Ef. subst.
      f_equal. eapply IH; eauto.
    - destruct (pair_is p f g) eqn:Ep.
      + f_equal; [eapply pair_is_same; eauto|eauto].
      + destruct (term_eqb f g) eqn:Ef; [|discriminate]. apply term_eqb_eq in Ef. subst.
        f_equal. eapply IH; eauto.
  Qed.
  Lemma is_ok_iff o : is_ok o = true -> o = ROk tt.
  Proof. destruct o as [[]| |]; simpl; congruence. Qed.
  Lemma eval_eq_swap E a b : eval (tEq a b) E = eval (tEq b a) E.
  Proof. cbn. rewrite !andb_true_r, veqb_sym. reflexivity. Qed.
End S.

(** Fuel: [find_chain] never needs more than one call per premise, so it never reaches [RPanic]. *)
Lemma find_eq_lt a ps i x : find_eq a ps = Some (i, x) -> i < List.length ps.
Proof.
  revert i x. induction ps as [|[t u] r IH]; simpl; intros i x H; [discriminate|].
  destruct (term_eqb t a); [injection H as <- <-; lia|]. destruct (term_eqb u a); [injection H as <- <-; lia|].
  destruct (find_eq a r) as [[j y]|]; [|discriminate]. injection H as <- <-. specialize (IH _ _ eq_refl). lia.
Qed.
Lemma set_nth_length {A} i (a : A) l : List.length (set_nth i a l) = List.length l.
Proof. revert i. induction l; intros [|i]; simpl; auto. Qed.
Lemma swap_tail_length {A} i (l : list A) : List.length (swap_tail i l) = List.length l - 1.
Proof. destruct l; simpl; [reflexivity|]. destruct i; [lia|]. rewrite set_nth_length. lia. Qed.
Lemma find_chain_fuel fuel a b ps : List.length ps <= fuel -> find_chain fuel a b ps <> RPanic.
Proof.
  revert a ps. induction fuel as [|f IH]; simpl; intros a ps H; destruct (term_eqb a b); try discriminate.
  - destruct (find_eq a ps) as [[i x]|] eqn:E; [|discriminate]. apply find_eq_lt in E. lia.
  - destruct (find_eq a ps) as [[i x]|] eqn:E; [|discriminate]. apply find_eq_lt in E. apply IH.
    rewrite swap_tail_length. lia.
Qed.

Lemma r_eq_reflexive_sound : rule_sound r_eq_reflexive.
Proof.
  intros c ps args H _ _ I E _ _. unfold r_eq_reflexive in H. rinv. apply clause_holds_one, holds_eq_iff. reflexivity.
Qed.
Lemma last_nth {A} (c : list A) l : nth_error c (List.length c - 1) = Some l -> In l c.
Proof. apply nth_error_In. Qed.
Lemma r_eq_transitive_sound : rule_sound r_eq_transitive.
Proof.
  intros c ps args H _ _ I E _ _. unfold r_eq_transitive in H.
  apply obind_ok in H. destruct H as [? [_ H]]. apply obind_ok in H. destruct H as [l [Hl H]].
  apply unwrap_ok in Hl.
  apply obind_ok in H. destruct H as [[a b] [Hp H]]. apply m_op2_ok in Hp. subst l.
  apply obind_ok in H. destruct H as [qs [Hq H]].
  destruct (neg_lits_same E _ _ Hq) as [HC|HF]; [eapply clause_firstn; eauto|].
  eapply clause_nth; eauto. apply holds_eq_iff. eapply find_chain_same; eauto.
Qed.
Lemma r_trans_sound : rule_sound r_trans.
Proof.
  intros c ps args H _ _ I E _ HP. unfold r_trans in H. rinv.
  apply clause_holds_one, holds_eq_iff. eapply find_chain_same; eauto. eapply prems_same; eauto.
Qed.
Lemma r_eq_congruent_sound : rule_sound r_eq_congruent.
Proof.
  intros c ps args H _ _ I E _ _. unfold r_eq_congruent in H.
  apply obind_ok in H. destruct H as [? [_ H]]. apply obind_ok in H. destruct H as [l [Hl H]].
  apply unwrap_ok in Hl.
  apply obind_ok in H. destruct H as [[a b] [Hp H]]. apply m_op2_ok in Hp. subst l.
  apply obind_ok in H. destruct H as [qs [Hq H]].
  destruct (neg_lits_same E _ _ Hq) as [HC|HF]; [eapply clause_firstn; eauto|].
  eapply clause_nth; eauto. apply holds_eq_iff. eapply generic_congruent_same; eauto.
Qed.
Lemma r_eq_congruent_pred_sound : rule_sound r_eq_congruent_pred.
Proof.
  intros c ps args H _ _ I E _ _. unfold r_eq_congruent_pred in H.
  apply obind_ok in H. destruct H as [? [_ H]].
  apply obind_ok in H. destruct H as [p [Hp H]]. apply unwrap_ok in Hp.
  apply obind_ok in H. destruct H as [q [Hq H]]. apply unwrap_ok in Hq.
  apply obind_ok in H. destruct H as [[p' q'] [Hpq H]].
  apply obind_ok in H. destruct H as [qs [Hqs H]].
  destruct (neg_lits_same E _ _ Hqs) as [HC|HF]; [eapply clause_firstn; eauto|].
  pose proof (generic_congruent_same E _ _ _ _ H HF) as Hs. simpl in Hs.
  assert (Hh : holds E p' = holds E q') by (unfold holds; rewrite Hs; reflexivity).
  destruct (remove_negation p) as [p2|] eqn:Ep.
  - injection Hpq as -> ->. apply op1_some in Ep. subst p.
    destruct (holds E q') eqn:Eq; [apply (clause_nth E _ _ _ Hq Eq)|].
    apply (clause_nth E _ _ _ Hp). change (holds E (tNot p') = true). rewrite holds_not, Hh. reflexivity.
  - apply obind_ok in Hpq. destruct Hpq as [q2 [Hq2 Hpq]]. apply rm_neg_ok in Hq2. injection Hpq as -> ->. subst q.
    destruct (holds E p') eqn:Eq; [apply (clause_nth E _ _ _ Hp Eq)|].
    apply (clause_nth E _ _ _ Hq). rewrite holds_not, <- Hh. reflexivity.
Qed.
Lemma r_cong_sound : rule_sound r_cong.
Proof.
  intros c ps args H _ _ I E _ HP. unfold r_cong in H.
  apply obind_ok in H. destruct H as [? [Hc H]]. apply len_is_ok, len1 in Hc. destruct Hc as [y Hc]. subst c.
  apply obind_ok in H. destruct H as [? [_ H]].
  apply obind_ok in H. destruct H as [qs [Hq H]]. pose proof (prems_same E _ _ Hq HP) as HF.
  cbn in H. apply obind_ok in H. destruct H as [[l r] [Hx H]]. apply m_op2_ok in Hx. subst y.
  apply clause_holds_one, holds_eq_iff. cbn [fst snd] in *.
  assert (HG : (do fg <- match l, r with
               | TApp f a, TApp g b => rassert (term_eqb f g) ;; ROk (a, b)
               | TOp f a, TOp g b => rassert (op_eqb f g) ;; ROk (a, b)
               | TPOp f fo a, TPOp g go b => rassert (pop_beq f g && list_eqb term_eqb fo go) ;; ROk (a, b)
               | _, _ => RErr
               end ;
      rassert (Nat.eqb (List.length (fst fg)) (List.length (snd fg))) ;;
      check_cong qs (fst fg) (snd fg)) = ROk tt -> eval l E = eval r E).
  { clear H. intros H. apply obind_ok in H. destruct H as [[fa ga] [Hfg H]].
    apply obind_ok in H. destruct H as [? [H1 H]]. apply rassert_ok in H1. apply Nat.eqb_eq in H1.
    cbn [fst snd] in *. pose proof (check_cong_same E _ _ _ _ H H1 HF) as Hm.
    destruct l, r; try discriminate Hfg; apply obind_ok in Hfg; destruct Hfg as [? [Hf Hfg]];
      apply rassert_ok in Hf; injection Hfg as -> ->; simpl; rewrite Hm.
    - apply term_eqb_eq in Hf. rewrite Hf. reflexivity.
    - apply op_eqb_eq in Hf. rewrite Hf. reflexivity.
    - apply andb_true_iff in Hf. destruct Hf as [Hf Hg]. apply pop_eqb_eq in Hf.
      rewrite (list_eqb_eq term_eqb) in Hg by apply term_eqb_eq. rewrite Hf, Hg. reflexivity. }
  destruct (op2 OEquals l) as [[f0 f1]|] eqn:El; [|exact (HG H)].
  destruct (op2 OEquals r) as [[g0 g1]|] eqn:Er; [|exact (HG H)].
  clear HG. apply op2_some in El, Er. subst l r. apply rassert_ok in H. rewrite !orb_true_iff in H.
  assert (HE : forall a b c d, check_cong qs [a; b] [c; d] = ROk tt -> eval (tEq a b) E = eval (tEq c d) E).
  { intros a b c d Hc. apply (check_cong_same E) in Hc; auto. simpl in Hc. injection Hc as H1 H2.
    cbn. rewrite H1, H2. reflexivity. }
  change (eval (tEq f0 f1) E = eval (tEq g0 g1) E).
  destruct H as [[[H|H]|H]|H]; apply is_ok_iff, HE in H.
  - exact H.
  - rewrite eval_eq_swap. exact H.
  - rewrite (eval_eq_swap E g0). exact H.
  - rewrite eval_eq_swap, (eval_eq_swap E g0). exact H.
Qed.
Lemma r_ho_cong_sound : rule_sound r_ho_cong.
Proof.
  intros c ps args H _ _ I E _ HP. unfold r_ho_cong in H.
  apply obind_ok in H. destruct H as [? [Hc H]]. apply len_is_ok, len1 in Hc. destruct Hc as [y Hc]. subst c.
  apply obind_ok in H. destruct H as [? [_ H]].
  apply obind_ok in H. destruct H as [qs [Hq H]]. pose proof (prems_same E _ _ Hq HP) as HF.
  cbn [idx nth_error unwrap obind] in H. apply obind_ok in H. destruct H as [[l r] [Hx H]]. apply m_op2_ok in Hx. subst y.
  apply clause_holds_one, holds_eq_iff. cbn [fst snd] in *.
  destruct l, r; try discriminate H.
  apply obind_ok in H. destruct H as [? [H1 H]]. apply rassert_ok in H1. apply Nat.eqb_eq in H1.
  apply (check_cong_same E) in H; [|simpl; congruence|auto]. cbn [map] in H. injection H as H2 H3.
  simpl. rewrite H2, H3. reflexivity.
Qed.
Lemma r_symm_sound : rule_sound r_symm.
Proof.
  intros c ps args H _ _ I E _ HP. unfold r_symm in H. rinv.
  specialize (HP _ (or_introl eq_refl)). apply clause_holds_one, holds_eq_iff in HP.
  apply clause_holds_one, holds_eq_iff. auto.
Qed.
Lemma r_not_symm_sound : rule_sound r_not_symm.
Proof.
  intros c ps args H _ _ I E _ HP. unfold r_not_symm, not_eq in H. rinv.
  specialize (HP _ (or_introl eq_refl)). apply clause_holds_one in HP. apply clause_holds_one.
  rewrite holds_not in *. rewrite holds_eq' in *. rewrite veqb_sym. exact HP.
Qed.
Lemma r_eq_symmetric_sound : rule_sound r_eq_symmetric.
Proof.
  intros c ps args H _ _ I E _ HP. unfold r_eq_symmetric in H. rinv.
  apply clause_holds_one, holds_eq_iff. apply eval_eq_swap.
Qed.

(** The rule table entries (checker/shared.rs:169-375) *)
Definition eq_rules : list (string * rule) :=
  [("eq_reflexive", r_eq_reflexive); ("eq_transitive", r_eq_transitive); ("trans", r_trans);
   ("eq_congruent", r_eq_congruent); ("eq_congruent_pred", r_eq_congruent_pred); ("cong", r_cong);
   ("ho_cong", r_ho_cong); ("symm", r_symm); ("not_symm", r_not_symm); ("eq_symmetric", r_eq_symmetric)].
Lemma eq_rules_sound name r : In (name, r) eq_rules -> rule_sound r.
Proof.
  intros H.
  repeat (destruct H as [H|H]; [injection H as _ <-|]); [..|contradiction].
  - apply r_eq_reflexive_sound.
  - apply r_eq_transitive_sound.
  - apply r_trans_sound.
  - apply r_eq_congruent_sound.
  - apply r_eq_congruent_pred_sound.
  - apply r_cong_sound.
  - apply r_ho_cong_sound.
  - apply r_symm_sound.
  - apply r_not_symm_sound.
  - apply r_eq_symmetric_sound.
Qed.
