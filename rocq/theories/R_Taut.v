(** checker/rules/tautology.rs (all rules except [ite_intro], see R_IteIntro.v).
    Every rule takes the conclusion, the premise clauses and the arguments of the step. *)
From Coq Require Import List String ZArith QArith Bool Arith NArith Lia.
From Verif Require Import Term Field Sem Sorting Base Rules.
Import ListNotations.

(** tautology.rs:7-16 *)
Definition r_true (c : clause) (ps : list clause) (args : list term) : outcome unit :=
  len_is c 1 ;; do l <- idx c 0 ; rassert (is_true l).
(** 18-25 *)
Definition r_false (c : clause) (ps : list clause) (args : list term) : outcome unit :=
  len_is c 1 ;; do l <- idx c 0 ; do t <- rm_neg l ; rassert (is_false t).
(** 27-32 *)
Definition r_not_not (c : clause) (ps : list clause) (args : list term) : outcome unit :=
  len_is c 2 ;;
  do l0 <- idx c 0 ; do l1 <- idx c 1 ;
  do a <- m_op1 ONot l0 ; do b <- m_op1 ONot a ; do p <- m_op1 ONot b ;
  teq p l1.
(** 34-46 *)
Definition r_and_pos (c : clause) (ps : list clause) (args : list term) : outcome unit :=
  len_is c 2 ;; len_is args 1 ;;
  do l0 <- idx c 0 ; do l1 <- idx c 1 ; do a0 <- idx args 0 ;
  do a <- m_op1 ONot l0 ; do ts <- m_ops OAnd a ;
  do i <- as_usize a0 ;
  match nth_error ts i with None => RErr | Some t => teq l1 t end.
(** 48-59 *)
Definition r_and_neg (c : clause) (ps : list clause) (args : list term) : outcome unit :=
  len_ge c 2 ;;
  do l0 <- idx c 0 ; do ts <- m_ops OAnd l0 ;
  len_is ts (List.length c - 1) ;;
  ofor (fun tu => do u <- rm_neg (snd tu) ; teq (fst tu) u) (combine ts (tl c)).
(** 61-71 *)
Definition r_or_pos (c : clause) (ps : list clause) (args : list term) : outcome unit :=
  len_ge c 2 ;;
  do l0 <- idx c 0 ; do a <- m_op1 ONot l0 ; do ts <- m_ops OOr a ;
  len_is ts (List.length c - 1) ;;
  ofor (fun tu => teq (fst tu) (snd tu)) (combine ts (tl c)).
(** 73-86 *)
Definition r_or_neg (c : clause) (ps : list clause) (args : list term) : outcome unit :=
  len_is c 2 ;; len_is args 1 ;;
  do l0 <- idx c 0 ; do l1 <- idx c 1 ; do a0 <- idx args 0 ;
  do ts <- m_ops OOr l0 ; do o <- rm_neg l1 ; do i <- as_usize a0 ;
  match nth_error ts i with None => RErr | Some t => teq o t end.

(** Shapes shared by the fixed-arity tautologies: the first literal of the conclusion is matched,
    then literals 1 and 2 are compared with sub-terms, possibly under a negation. *)
Definition lit (neg : bool) (l : term) : outcome term := if neg then rm_neg l else ROk l.
Definition taut3 (o : op) (neg0 n1 n2 : bool) (c : clause) : outcome unit :=
  len_is c 3 ;;
  do l0 <- idx c 0 ; do l1 <- idx c 1 ; do l2 <- idx c 2 ;
  do a <- (if neg0 then m_op1 ONot l0 else ROk l0) ;
  do p <- m_op2 o a ;
  do x1 <- lit n1 l1 ; teq (fst p) x1 ;;
  do x2 <- lit n2 l2 ; teq (snd p) x2.
(** 88-93, 95-100, 102-107, 109-114 *)
Definition r_xor_pos1 (c : clause) (ps : list clause) (args : list term) := taut3 OXor true false false c.
Definition r_xor_pos2 (c : clause) (ps : list clause) (args : list term) := taut3 OXor true true true c.
Definition r_xor_neg1 (c : clause) (ps : list clause) (args : list term) := taut3 OXor false false true c.
Definition r_xor_neg2 (c : clause) (ps : list clause) (args : list term) := taut3 OXor false true false c.
(** 116-121 *)
Definition r_implies_pos (c : clause) (ps : list clause) (args : list term) := taut3 OImplies true true false c.
(** 123-127, 129-133 *)
Definition r_implies_neg1 (c : clause) (ps : list clause) (args : list term) : outcome unit :=
  len_is c 2 ;; do l0 <- idx c 0 ; do l1 <- idx c 1 ;
  do p <- m_op2 OImplies l0 ; teq (fst p) l1.
Definition r_implies_neg2 (c : clause) (ps : list clause) (args : list term) : outcome unit :=
  len_is c 2 ;; do l0 <- idx c 0 ; do l1 <- idx c 1 ;
  do p <- m_op2 OImplies l0 ; do x <- rm_neg l1 ; teq (snd p) x.
(** 135-140, 142-147, 149-154, 156-161 *)
Definition r_equiv_pos1 (c : clause) (ps : list clause) (args : list term) := taut3 OEquals true false true c.
Definition r_equiv_pos2 (c : clause) (ps : list clause) (args : list term) := taut3 OEquals true true false c.
Definition r_equiv_neg1 (c : clause) (ps : list clause) (args : list term) := taut3 OEquals false true true c.
Definition r_equiv_neg2 (c : clause) (ps : list clause) (args : list term) := taut3 OEquals false false false c.
(** ite_pos1/2, ite_neg1/2: 163-168, 170-175, 177-182, 184-189; [third] selects phi_3 instead of phi_2 *)
Definition taut_ite (neg0 n1 third n2 : bool) (c : clause) : outcome unit :=
  len_is c 3 ;;
  do l0 <- idx c 0 ; do l1 <- idx c 1 ; do l2 <- idx c 2 ;
  do a <- (if neg0 then m_op1 ONot l0 else ROk l0) ;
  do p <- m_op3 OIte a ;
  do x1 <- lit n1 l1 ; teq (fst (fst p)) x1 ;;
  do x2 <- lit n2 l2 ; teq (if third then snd p else snd (fst p)) x2.
Definition r_ite_pos1 (c : clause) (ps : list clause) (args : list term) := taut_ite true false true false c.
Definition r_ite_pos2 (c : clause) (ps : list clause) (args : list term) := taut_ite true true false false c.
Definition r_ite_neg1 (c : clause) (ps : list clause) (args : list term) := taut_ite false false true true c.
Definition r_ite_neg2 (c : clause) (ps : list clause) (args : list term) := taut_ite false true false true c.
(** one-premise versions: 191-261 *)
Definition prem2 (o : op) (negp n0 n1 : bool) (c : clause) (ps : list clause) : outcome unit :=
  len_is ps 1 ;; len_is c 2 ;;
  do p0 <- idx ps 0 ; do t <- premise_term p0 ;
  do l0 <- idx c 0 ; do l1 <- idx c 1 ;
  do a <- (if negp then m_op1 ONot t else ROk t) ;
  do p <- m_op2 o a ;
  do x1 <- lit n0 l0 ; teq (fst p) x1 ;;
  do x2 <- lit n1 l1 ; teq (snd p) x2.
Definition r_equiv1 (c : clause) (ps : list clause) (args : list term) := prem2 OEquals false true false c ps.
Definition r_equiv2 (c : clause) (ps : list clause) (args : list term) := prem2 OEquals false false true c ps.
Definition r_not_equiv1 (c : clause) (ps : list clause) (args : list term) := prem2 OEquals true false false c ps.
Definition r_not_equiv2 (c : clause) (ps : list clause) (args : list term) := prem2 OEquals true true true c ps.
Definition prem_ite (negp n0 third n1 : bool) (c : clause) (ps : list clause) : outcome unit :=
  len_is ps 1 ;; len_is c 2 ;;
  do p0 <- idx ps 0 ; do t <- premise_term p0 ;
  do l0 <- idx c 0 ; do l1 <- idx c 1 ;
  do a <- (if negp then m_op1 ONot t else ROk t) ;
  do p <- m_op3 OIte a ;
  do x1 <- lit n0 l0 ; teq (fst (fst p)) x1 ;;
  do x2 <- lit n1 l1 ; teq (if third then snd p else snd (fst p)) x2.
Definition r_ite1 (c : clause) (ps : list clause) (args : list term) := prem_ite false false true false c ps.
Definition r_ite2 (c : clause) (ps : list clause) (args : list term) := prem_ite false true false false c ps.
Definition r_not_ite1 (c : clause) (ps : list clause) (args : list term) := prem_ite true false true true c ps.
Definition r_not_ite2 (c : clause) (ps : list clause) (args : list term) := prem_ite true true false true c ps.

(** connective_def, tautology.rs:320-357 *)
Definition r_connective_def (c : clause) (ps : list clause) (args : list term) : outcome unit :=
  len_is c 1 ;;
  do l <- idx c 0 ; do fs <- m_op2 OEquals l ;
  let '(first, second) := fs in
  match op2 OXor first with
  | Some (p1, p2) =>
      do os <- m_op2 OOr second ; do x <- m_op2 OAnd (fst os) ; do y <- m_op2 OAnd (snd os) ;
      do a <- m_op1 ONot (fst x) ; do d <- m_op1 ONot (snd y) ;
      teq a p1 ;; teq (snd x) p2 ;; teq (fst y) p1 ;; teq d p2
  | None =>
  match op2 OEquals first with
  | Some (p1, p2) =>
      do os <- m_op2 OAnd second ; do x <- m_op2 OImplies (fst os) ; do y <- m_op2 OImplies (snd os) ;
      teq (fst x) p1 ;; teq (snd x) p2 ;; teq (fst y) p2 ;; teq (snd y) p1
  | None =>
  match op3 OIte first with
  | Some (p1, p2, p3) =>
      do os <- m_op2 OAnd second ; do x <- m_op2 OImplies (fst os) ; do y <- m_op2 OImplies (snd os) ;
      do nc <- m_op1 ONot (fst y) ;
      teq (fst x) p1 ;; teq (snd x) p2 ;; teq nc p1 ;; teq (snd y) p3
  | None =>
  match as_bind BForall first with
  | Some (bs, inner) =>
      do n <- m_op1 ONot second ; do q <- m_bind BExists n ; do ni <- m_op1 ONot (snd q) ;
      teq inner ni ;; rassert (binds_eqb bs (fst q))
  | None =>
  match as_bind BExists first with
  | Some (bs, inner) =>
      do n <- m_op1 ONot second ; do q <- m_bind BForall n ; do ni <- m_op1 ONot (snd q) ;
      teq inner ni ;; rassert (binds_eqb bs (fst q))
  | None => RErr
  end end end end end.

(** ** Soundness *)
Ltac start :=
  let H := fresh "H" in let Hw := fresh "Hw" in
  intros H Hw; intros I E HE HP.

Lemma is_true_eq t : is_true t = true -> t = tTrue.
Proof. apply term_eqb_eq. Qed.
Lemma is_false_eq t : is_false t = true -> t = tFalse.
Proof. apply term_eqb_eq. Qed.
Lemma lit_ok n l x : lit n l = ROk x -> l = if n then tNot x else x.
Proof. destruct n; simpl; intros H; [apply rm_neg_ok; auto|congruence]. Qed.

Lemma r_true_sound c ps args : r_true c ps args = ROk tt -> clause_wt c = true -> entails ps c.
Proof. start. unfold r_true in H. rinv. apply is_true_eq in H. subst. apply clause_holds_b. reflexivity. Qed.
Lemma r_false_sound c ps args : r_false c ps args = ROk tt -> clause_wt c = true -> entails ps c.
Proof. start. unfold r_false in H. rinv. apply is_false_eq in H. subst. apply clause_holds_b. reflexivity. Qed.
Lemma r_not_not_sound c ps args : r_not_not c ps args = ROk tt -> clause_wt c = true -> entails ps c.
Proof. start. unfold r_not_not in H. rinv. apply clause_holds_b. hsimp. hsolve. Qed.

(** the shape lemma behind and_neg/or_pos/or/not_and: literals checked one by one *)
Lemma ofor_combine_ok {A B} (f : A * B -> outcome unit) (l : list A) (m : list B) u :
  ofor f (combine l m) = ROk u -> List.length l = List.length m ->
  Forall2 (fun a b => f (a, b) = ROk tt) l m.
Proof.
  revert m u. induction l as [|a l IH]; intros [|b m] u H Hl; simpl in *; try discriminate; constructor.
  - apply obind_ok in H. destruct H as [[] [H _]]. exact H.
  - apply obind_ok in H. destruct H as [[] [_ H]]. eapply IH; eauto.
Qed.
Lemma Forall2_eq {A} (l m : list A) : Forall2 eq l m -> l = m.
Proof. induction 1; congruence. Qed.
Lemma ofor_teq_ok l m u : ofor (fun tu => teq (fst tu) (snd tu)) (combine l m) = ROk u ->
  List.length l = List.length m -> m = l.
Proof.
  intros H Hl. apply ofor_combine_ok in H; auto. clear Hl. induction H; f_equal; auto. cbn [fst snd] in H. apply teq_ok in H. auto.
Qed.
Lemma ofor_neg_teq_ok l m u :
  ofor (fun tu => do u <- rm_neg (snd tu) ; teq (fst tu) u) (combine l m) = ROk u ->
  List.length l = List.length m -> m = map tNot l.
Proof.
  intros H Hl. apply ofor_combine_ok in H; auto. clear Hl. induction H; simpl; [reflexivity|].
  cbn [fst snd] in H. rinv. f_equal; auto.
Qed.

Section Lists.
  Context {I : interp} (E : env I).
  Lemma existsb_map_not l : existsb (holds E) (map tNot l) = negb (forallb (holds E) l).
  Proof. induction l as [|a r IH]; simpl; auto. rewrite IH, holds_not, negb_andb. reflexivity. Qed.
  Lemma nth_forallb l i t : nth_error l i = Some t -> forallb (holds E) l = true -> holds E t = true.
  Proof. intros Hn H. rewrite forallb_forall in H. apply H. eapply nth_error_In; eauto. Qed.
  Lemma nth_existsb l i t : nth_error l i = Some t -> holds E t = true -> existsb (holds E) l = true.
  Proof. intros Hn H. apply existsb_exists. exists t. split; auto. eapply nth_error_In; eauto. Qed.
End Lists.

Lemma r_and_pos_sound c ps args : r_and_pos c ps args = ROk tt -> clause_wt c = true -> entails ps c.
Proof.
  start. unfold r_and_pos in H. rinv.
  match type of H with context [nth_error ?l ?i] => destruct (nth_error l i) as [t|] eqn:En end; rinv.
  pose proof (nth_forallb E _ _ _ En) as Hn. apply clause_holds_b. hsimp.
  destruct (forallb (holds E) _); simpl; auto.
Qed.
Lemma r_or_neg_sound c ps args : r_or_neg c ps args = ROk tt -> clause_wt c = true -> entails ps c.
Proof.
  start. unfold r_or_neg in H. rinv.
  match type of H with context [nth_error ?l ?i] => destruct (nth_error l i) as [t|] eqn:En end; rinv.
  pose proof (nth_existsb E _ _ _ En) as Hn. apply clause_holds_b. hsimp.
  destruct (holds E t); simpl; [rewrite Hn by auto; reflexivity|apply orb_true_r].
Qed.
Lemma r_and_neg_sound c ps args : r_and_neg c ps args = ROk tt -> clause_wt c = true -> entails ps c.
Proof.
  start. unfold r_and_neg in H. rinv. destruct c as [|l0 c]; [discriminate|]. rinv.
  simpl tl in H. apply len_is_ok in H3. simpl in H3. apply ofor_neg_teq_ok in H; [|lia]. subst c.
  apply clause_holds_b. hsimp. rewrite existsb_map_not. destruct (forallb (holds E) _); reflexivity.
Qed.
Lemma r_or_pos_sound c ps args : r_or_pos c ps args = ROk tt -> clause_wt c = true -> entails ps c.
Proof.
  start. unfold r_or_pos in H. rinv. destruct c as [|l0 c]; [discriminate|]. rinv.
  simpl tl in H. apply len_is_ok in H4. simpl in H4. apply ofor_teq_ok in H; [|lia]. subst c.
  apply clause_holds_b. hsimp. destruct (existsb (holds E) _); reflexivity.
Qed.

(** well-sortedness of the literals of a clause *)
Lemma clause_wt_In c l : clause_wt c = true -> In l c -> bool_term l = true.
Proof. unfold clause_wt. rewrite forallb_forall. auto. Qed.
Lemma eq_bools a b : bool_term (tEq a b) = true -> bool_term a = true -> bool_term b = true.
Proof. intros H Ha. apply bool_eq_l in H; [tauto|]. apply bool_term_sort; auto. Qed.

Ltac taut3_tac :=
  start; unfold taut3 in *; rinv;
  repeat match goal with H : lit _ _ = ROk _ |- _ => apply lit_ok in H; cbn iota in H; try subst end;
  apply clause_holds_b.

Lemma r_xor_pos1_sound c ps args : r_xor_pos1 c ps args = ROk tt -> clause_wt c = true -> entails ps c.
Proof. unfold r_xor_pos1. taut3_tac. hsimp. hsolve. Qed.
Lemma r_xor_pos2_sound c ps args : r_xor_pos2 c ps args = ROk tt -> clause_wt c = true -> entails ps c.
Proof. unfold r_xor_pos2. taut3_tac. hsimp. hsolve. Qed.
Lemma r_xor_neg1_sound c ps args : r_xor_neg1 c ps args = ROk tt -> clause_wt c = true -> entails ps c.
Proof. unfold r_xor_neg1. taut3_tac. hsimp. hsolve. Qed.
Lemma r_xor_neg2_sound c ps args : r_xor_neg2 c ps args = ROk tt -> clause_wt c = true -> entails ps c.
Proof. unfold r_xor_neg2. taut3_tac. hsimp. hsolve. Qed.
Lemma r_implies_pos_sound c ps args : r_implies_pos c ps args = ROk tt -> clause_wt c = true -> entails ps c.
Proof. unfold r_implies_pos. taut3_tac. hsimp. hsolve. Qed.
Lemma r_implies_neg1_sound c ps args : r_implies_neg1 c ps args = ROk tt -> clause_wt c = true -> entails ps c.
Proof. unfold r_implies_neg1. taut3_tac. hsimp. hsolve. Qed.
Lemma r_implies_neg2_sound c ps args : r_implies_neg2 c ps args = ROk tt -> clause_wt c = true -> entails ps c.
Proof. unfold r_implies_neg2. taut3_tac. hsimp. hsolve. Qed.
Lemma r_equiv_pos1_sound c ps args : r_equiv_pos1 c ps args = ROk tt -> clause_wt c = true -> entails ps c.
Proof. unfold r_equiv_pos1. taut3_tac. hsimp. heqs; hsolve. Qed.
Lemma r_equiv_pos2_sound c ps args : r_equiv_pos2 c ps args = ROk tt -> clause_wt c = true -> entails ps c.
Proof. unfold r_equiv_pos2. taut3_tac. hsimp. heqs; hsolve. Qed.
Lemma r_equiv_neg1_sound c ps args : r_equiv_neg1 c ps args = ROk tt -> clause_wt c = true -> entails ps c.
Proof.
  unfold r_equiv_neg1. taut3_tac. hsimp. hcases; simpl; rewrite ?orb_true_r; auto.
  rewrite veqb_both_true by auto. reflexivity.
Qed.
Lemma clause_bool a c : clause_wt (a :: c) = true -> bool_term a = true /\ clause_wt c = true.
Proof. unfold clause_wt. simpl. intros H. apply andb_true_iff in H. exact H. Qed.
Ltac wts :=
  repeat match goal with
  | H : clause_wt (_ :: _) = true |- _ => apply clause_bool in H; destruct H as [? H]
  end.
Lemma r_equiv_neg2_sound c ps args : r_equiv_neg2 c ps args = ROk tt -> clause_wt c = true -> entails ps c.
Proof.
  unfold r_equiv_neg2. taut3_tac. wts. hsimp. rewrite veqb_bool by auto. hsolve.
Qed.
Ltac ite_tac :=
  start; unfold taut_ite in *; rinv;
  repeat match goal with H : lit _ _ = ROk _ |- _ => apply lit_ok in H; cbn iota in H; try subst end;
  apply clause_holds_b; hsimp; hsolve.
Lemma r_ite_pos1_sound c ps args : r_ite_pos1 c ps args = ROk tt -> clause_wt c = true -> entails ps c.
Proof. unfold r_ite_pos1. ite_tac. Qed.
Lemma r_ite_pos2_sound c ps args : r_ite_pos2 c ps args = ROk tt -> clause_wt c = true -> entails ps c.
Proof. unfold r_ite_pos2. ite_tac. Qed.
Lemma r_ite_neg1_sound c ps args : r_ite_neg1 c ps args = ROk tt -> clause_wt c = true -> entails ps c.
Proof. unfold r_ite_neg1. ite_tac. Qed.
Lemma r_ite_neg2_sound c ps args : r_ite_neg2 c ps args = ROk tt -> clause_wt c = true -> entails ps c.
Proof. unfold r_ite_neg2. ite_tac. Qed.

Lemma prem1 {I} (E : env I) t r : (forall p, In p ([t] :: r) -> clause_holds E p) -> holds E t = true.
Proof. intros H. apply clause_holds_one. apply H. left. reflexivity. Qed.
Ltac prem_tac :=
  start; unfold prem2, prem_ite in *; rinv;
  repeat match goal with H : lit _ _ = ROk _ |- _ => apply lit_ok in H; cbn iota in H; try subst end;
  apply clause_holds_b;
  match goal with
  | HP : forall p, In p _ -> clause_holds _ p |- _ =>
      let HT := fresh "HT" in pose proof (prem1 _ _ _ HP) as HT; hsimp; hsimp_in HT
  end.
Lemma r_equiv1_sound c ps args : r_equiv1 c ps args = ROk tt -> clause_wt c = true -> entails ps c.
Proof. unfold r_equiv1. prem_tac. apply veqb_holds in HT. rewrite HT. hsolve. Qed.
Lemma r_equiv2_sound c ps args : r_equiv2 c ps args = ROk tt -> clause_wt c = true -> entails ps c.
Proof. unfold r_equiv2. prem_tac. apply veqb_holds in HT. rewrite HT. hsolve. Qed.
Lemma r_not_equiv1_sound c ps args : r_not_equiv1 c ps args = ROk tt -> clause_wt c = true -> entails ps c.
Proof. unfold r_not_equiv1. prem_tac. wts. rewrite veqb_bool in HT by auto. hsolve. Qed.
Lemma r_not_equiv2_sound c ps args : r_not_equiv2 c ps args = ROk tt -> clause_wt c = true -> entails ps c.
Proof.
  unfold r_not_equiv2. prem_tac. hcases; simpl; auto. rewrite veqb_both_true in HT by auto. discriminate.
Qed.
Lemma r_ite1_sound c ps args : r_ite1 c ps args = ROk tt -> clause_wt c = true -> entails ps c.
Proof. unfold r_ite1. prem_tac. hsolve. Qed.
Lemma r_ite2_sound c ps args : r_ite2 c ps args = ROk tt -> clause_wt c = true -> entails ps c.
Proof. unfold r_ite2. prem_tac. hsolve. Qed.
Lemma r_not_ite1_sound c ps args : r_not_ite1 c ps args = ROk tt -> clause_wt c = true -> entails ps c.
Proof. unfold r_not_ite1. prem_tac. hsolve. Qed.
Lemma r_not_ite2_sound c ps args : r_not_ite2 c ps args = ROk tt -> clause_wt c = true -> entails ps c.
Proof. unfold r_not_ite2. prem_tac. hsolve. Qed.

Section Binders.
  Context {I : interp} (E : env I).
  Lemma holds_forall vs t : holds E (TBind BForall vs t) = eval_all vs (fun E' => holds E' t) E.
  Proof. reflexivity. Qed.
  Lemma holds_exists vs t : holds E (TBind BExists vs t) = negb (eval_all vs (fun E' => negb (holds E' t)) E).
  Proof. reflexivity. Qed.
End Binders.
Lemma op3_some' o t p : op3 o t = Some p -> t = TOp o [fst (fst p); snd (fst p); snd p].
Proof. destruct p as [[a b] c]. apply op3_some. Qed.

Lemma r_connective_def_sound c ps args : r_connective_def c ps args = ROk tt -> clause_wt c = true -> entails ps c.
Proof.
  start. unfold r_connective_def in H. rinv. wts. apply clause_holds_one. rewrite holds_eq'.
  destruct (op2 OXor t) as [[p1 p2]|] eqn:E1.
  { apply op2_some in E1. rinv. apply bool_eq_l in H0; [|reflexivity]. destruct H0.
    rewrite veqb_bool by auto. hsimp. hsolve. }
  destruct (op2 OEquals t) as [[p1 p2]|] eqn:E2.
  { apply op2_some in E2. rinv. apply bool_eq_l in H0; [|reflexivity]. destruct H0 as [Ha Hb].
    rewrite veqb_bool by auto. pose proof (bool_args OAnd _ (or_introl eq_refl) Hb _ (or_introl eq_refl)) as Hi.
    pose proof (bool_args OImplies _ ltac:(tauto) Hi) as Hi'.
    hsimp. rewrite veqb_bool by (auto; apply Hi'; simpl; auto). hsolve. }
  destruct (op3 OIte t) as [[[p1 p2] p3]|] eqn:E3.
  { apply op3_some in E3. rinv. apply bool_eq_r in H0; [|reflexivity]. destruct H0.
    rewrite veqb_bool by auto. hsimp. hsolve. }
  destruct (as_bind BForall t) as [[bs inner]|] eqn:E4.
  { apply as_bind_some in E4. rinv. apply binds_eqb_eq in H. subst.
    apply bool_eq_l in H0; [|reflexivity]. destruct H0.
    rewrite veqb_bool by auto. rewrite holds_not', holds_forall, holds_exists, negb_involutive.
    erewrite eval_all_ext; [apply Bool.eqb_reflx|].
    intros. cbv beta. rewrite holds_not', negb_involutive. reflexivity. }
  destruct (as_bind BExists t) as [[bs inner]|] eqn:E5; [|discriminate].
  apply as_bind_some in E5. rinv. apply binds_eqb_eq in H. subst.
  apply bool_eq_l in H0; [|reflexivity]. destruct H0.
  rewrite veqb_bool by auto. rewrite holds_not', holds_forall, holds_exists. apply Bool.eqb_reflx.
Qed.

(** Rule names, checker/shared.rs:172-193, 243 *)
Definition taut_rules : list (string * rule) :=
  [ ("true"%string, r_true)
  ; ("false"%string, r_false)
  ; ("not_not"%string, r_not_not)
  ; ("and_pos"%string, r_and_pos)
  ; ("and_neg"%string, r_and_neg)
  ; ("or_pos"%string, r_or_pos)
  ; ("or_neg"%string, r_or_neg)
  ; ("xor_pos1"%string, r_xor_pos1)
  ; ("xor_pos2"%string, r_xor_pos2)
  ; ("xor_neg1"%string, r_xor_neg1)
  ; ("xor_neg2"%string, r_xor_neg2)
  ; ("implies_pos"%string, r_implies_pos)
  ; ("implies_neg1"%string, r_implies_neg1)
  ; ("implies_neg2"%string, r_implies_neg2)
  ; ("equiv_pos1"%string, r_equiv_pos1)
  ; ("equiv_pos2"%string, r_equiv_pos2)
  ; ("equiv_neg1"%string, r_equiv_neg1)
  ; ("equiv_neg2"%string, r_equiv_neg2)
  ; ("ite_pos1"%string, r_ite_pos1)
  ; ("ite_pos2"%string, r_ite_pos2)
  ; ("ite_neg1"%string, r_ite_neg1)
  ; ("ite_neg2"%string, r_ite_neg2)
  ; ("connective_def"%string, r_connective_def) ].
Lemma taut_rules_sound : forall name r, In (name, r) taut_rules -> rule_sound r.
Proof.
  intros name r H. unfold taut_rules in H. simpl in H.
  repeat (destruct H as [H|H]; [injection H as _ <-; intros c ps args Hr Hc _; revert Hr Hc|]); [..|contradiction].
  - apply r_true_sound.
  - apply r_false_sound.
  - apply r_not_not_sound.
  - apply r_and_pos_sound.
  - apply r_and_neg_sound.
  - apply r_or_pos_sound.
  - apply r_or_neg_sound.
  - apply r_xor_pos1_sound.
  - apply r_xor_pos2_sound.
  - apply r_xor_neg1_sound.
  - apply r_xor_neg2_sound.
  - apply r_implies_pos_sound.
  - apply r_implies_neg1_sound.
  - apply r_implies_neg2_sound.
  - apply r_equiv_pos1_sound.
  - apply r_equiv_pos2_sound.
  - apply r_equiv_neg1_sound.
  - apply r_equiv_neg2_sound.
  - apply r_ite_pos1_sound.
  - apply r_ite_pos2_sound.
  - apply r_ite_neg1_sound.
  - apply r_ite_neg2_sound.
  - apply r_connective_def_sound.
Qed.

(** Rule names, checker/shared.rs:232-239 *)
Definition taut_prem_rules : list (string * rule) :=
  [ ("equiv1"%string, r_equiv1)
  ; ("equiv2"%string, r_equiv2)
  ; ("not_equiv1"%string, r_not_equiv1)
  ; ("not_equiv2"%string, r_not_equiv2)
  ; ("ite1"%string, r_ite1)
  ; ("ite2"%string, r_ite2)
  ; ("not_ite1"%string, r_not_ite1)
  ; ("not_ite2"%string, r_not_ite2) ].
Lemma taut_prem_rules_sound : forall name r, In (name, r) taut_prem_rules -> rule_sound r.
Proof.
  intros name r H. unfold taut_prem_rules in H. simpl in H.
  repeat (destruct H as [H|H]; [injection H as _ <-; intros c ps args Hr Hc _; revert Hr Hc|]); [..|contradiction].
  - apply r_equiv1_sound.
  - apply r_equiv2_sound.
  - apply r_not_equiv1_sound.
  - apply r_not_equiv2_sound.
  - apply r_ite1_sound.
  - apply r_ite2_sound.
  - apply r_not_ite1_sound.
  - apply r_not_ite2_sound.
Qed.

(** the premise-free rules do not look at the premises *)
Lemma taut_rules_ignore name r : In (name, r) taut_rules -> forall c ps args, r c ps args = r c [] args.
Proof.
  intros H c ps args. unfold taut_rules in H. simpl in H.
  repeat (destruct H as [H|H]; [injection H as _ <-; reflexivity|]). contradiction.
Qed.
Lemma taut_rules_valid name r : In (name, r) taut_rules ->
  forall c ps args, r c ps args = ROk tt -> clause_wt c = true ->
  forall (I : interp) (E : env I), env_ok E -> clause_holds E c.
Proof.
  intros H c ps args Hr Hc J E HE. rewrite (taut_rules_ignore _ _ H) in Hr.
  apply (taut_rules_sound name r H c [] args Hr Hc eq_refl J E HE). intros p [].
Qed.
