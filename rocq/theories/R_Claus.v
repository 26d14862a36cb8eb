(** checker/rules/clausification.rs (all rules except [bfun_elim], see R_Bfun.v). *)
From Coq Require Import List String ZArith QArith Bool Arith NArith Lia.
From Verif Require Import Term Field Sem Sorting Base Rules R_Taut.
Import ListNotations.
Local Open Scope nat_scope.

(** pairs (args[i], args[j]), i < j, in the order of the loops at clausification.rs:43-44 *)
Fixpoint pairs {A} (l : list A) : list (A * A) :=
  match l with [] => [] | a :: r => map (pair a) r ++ pairs r end.
(** clausification.rs:16-22 and 46-47 *)
Definition chk_diseq (ab : term * term) (t : term) : outcome unit :=
  do n <- m_op1 ONot t ; do g <- m_op2 OEquals n ;
  rassert ((term_eqb (fst g) (fst ab) && term_eqb (snd g) (snd ab))
           || (term_eqb (fst g) (snd ab) && term_eqb (snd g) (fst ab))).
(** clausification.rs:9-61 *)
Definition r_distinct_elim (c : clause) (ps : list clause) (args : list term) : outcome unit :=
  len_is c 1 ;;
  do l <- idx c 0 ; do ds <- m_op2 OEquals l ; do das <- m_ops ODistinct (fst ds) ;
  match das with
  | [] | [_] => RPanic
  | [a; b] => chk_diseq (a, b) (snd ds)
  | a0 :: _ =>
      if sort_eqb (sort_of a0) SBool then rassert (is_false (snd ds))
      else
        do ands <- m_ops OAnd (snd ds) ;
        len_is ands (List.length das * (List.length das - 1) / 2) ;;
        ofor (fun p => chk_diseq (fst p) (snd p)) (combine (pairs das) ands)
  end.
(** 63-77 *)
Definition r_and (c : clause) (ps : list clause) (args : list term) : outcome unit :=
  len_is ps 1 ;; len_is args 1 ;; len_is c 1 ;;
  do p0 <- idx ps 0 ; do t <- premise_term p0 ; do ts <- m_ops OAnd t ;
  do a0 <- idx args 0 ; do i <- as_usize a0 ; do l0 <- idx c 0 ;
  match nth_error ts i with None => RErr | Some x => teq l0 x end.
(** 79-94 *)
Definition r_not_or (c : clause) (ps : list clause) (args : list term) : outcome unit :=
  len_is ps 1 ;; len_is args 1 ;; len_is c 1 ;;
  do p0 <- idx ps 0 ; do t <- premise_term p0 ; do u <- m_op1 ONot t ; do ts <- m_ops OOr u ;
  do l0 <- idx c 0 ; do n <- rm_neg l0 ; do a0 <- idx args 0 ; do i <- as_usize a0 ;
  match nth_error ts i with None => RErr | Some x => teq n x end.
(** 96-107 *)
Definition r_or (c : clause) (ps : list clause) (args : list term) : outcome unit :=
  len_is ps 1 ;;
  do p0 <- idx ps 0 ; do t <- premise_term p0 ; do ts <- m_ops OOr t ;
  len_is c (List.length ts) ;;
  ofor (fun tu => teq (fst tu) (snd tu)) (combine ts c).
(** 109-121 *)
Definition r_not_and (c : clause) (ps : list clause) (args : list term) : outcome unit :=
  len_is ps 1 ;;
  do p0 <- idx ps 0 ; do t <- premise_term p0 ; do u <- m_op1 ONot t ; do ts <- m_ops OAnd u ;
  len_is c (List.length ts) ;;
  ofor (fun tu => do u <- rm_neg (snd tu) ; teq (fst tu) u) (combine ts c).
(** 123-132, 134-143, 145-154, 156-165, 167-176 *)
Definition r_xor1 (c : clause) (ps : list clause) (args : list term) := prem2 OXor false false false c ps.
Definition r_xor2 (c : clause) (ps : list clause) (args : list term) := prem2 OXor false true true c ps.
Definition r_not_xor1 (c : clause) (ps : list clause) (args : list term) := prem2 OXor true false true c ps.
Definition r_not_xor2 (c : clause) (ps : list clause) (args : list term) := prem2 OXor true true false c ps.
Definition r_implies (c : clause) (ps : list clause) (args : list term) := prem2 OImplies false true false c ps.
(** 178-186, 188-196 *)
Definition r_not_implies1 (c : clause) (ps : list clause) (args : list term) : outcome unit :=
  len_is ps 1 ;; len_is c 1 ;;
  do p0 <- idx ps 0 ; do t <- premise_term p0 ; do u <- m_op1 ONot t ; do p <- m_op2 OImplies u ;
  do l0 <- idx c 0 ; teq (fst p) l0.
Definition r_not_implies2 (c : clause) (ps : list clause) (args : list term) : outcome unit :=
  len_is ps 1 ;; len_is c 1 ;;
  do p0 <- idx ps 0 ; do t <- premise_term p0 ; do u <- m_op1 ONot t ; do p <- m_op2 OImplies u ;
  do l0 <- idx c 0 ; do n <- rm_neg l0 ; teq (snd p) n.

(** nary_elim, 198-264. [expand_assoc] on a non-empty list: first element [a], remaining [r];
    the right associative version recurses on the tail, the left associative one on the prefix. *)
Fixpoint expand_right (o : op) (a : term) (r : list term) : term :=
  match r with [] => a | b :: r' => TOp o [a; expand_right o b r'] end.
Definition expand_left (o : op) (a : term) (r : list term) : term :=
  fold_left (fun acc b => TOp o [acc; b]) r a.
Fixpoint windows2 {A} (l : list A) : list (A * A) :=
  match l with a :: ((b :: _) as r) => (a, b) :: windows2 r | _ => [] end.
Inductive nary_kind := NChain | NRight | NLeft.
Definition nary_elim_case (o : op) : option nary_kind :=
  match o with
  | OEquals => Some NChain
  | OAdd | OSub | OMult => Some NLeft
  | OImplies => Some NRight
  | _ => None
  end.
Definition nary_expand (k : nary_kind) (o : op) (a : term) (r : list term) : term :=
  match k with
  | NChain => TOp OAnd (map (fun p => TOp o [fst p; snd p]) (windows2 (a :: r)))
  | NRight => expand_right o a r
  | NLeft => expand_left o a r
  end.
Definition r_nary_elim (c : clause) (ps : list clause) (args : list term) : outcome unit :=
  len_is c 1 ;;
  do l <- idx c 0 ; do orr <- m_op2 OEquals l ;
  match fst orr with
  | TOp o (a :: b :: r) =>
      match nary_elim_case o with
      | Some k => teq (snd orr) (nary_expand k o a (b :: r))
      | None => RErr
      end
  | _ => RErr
  end.

(** ** Soundness *)
Lemma chk_diseq_ok ab t u : chk_diseq ab t = ROk u ->
  t = tNot (tEq (fst ab) (snd ab)) \/ t = tNot (tEq (snd ab) (fst ab)).
Proof.
  unfold chk_diseq. intros H. rinv. apply orb_true_iff in H.
  destruct H as [H|H]; apply andb_true_iff in H; destruct H as [H1 H2];
    apply term_eqb_eq in H1, H2; subst; auto.
Qed.
Section Distinct.
  Context {I : interp} (E : env I).
  Lemma chk_diseq_holds ab t u : chk_diseq ab t = ROk u ->
    eval t E = VB (negb (veqb (eval (fst ab) E) (eval (snd ab) E))).
  Proof.
    intros H. apply chk_diseq_ok in H. destruct H as [-> | ->]; rewrite eval_not, holds_eq; [|rewrite veqb_sym]; reflexivity.
  Qed.
  Lemma forallb_map' {A B} (f : A -> B) (g : B -> bool) l : forallb g (map f l) = forallb (fun a => g (f a)) l.
  Proof. induction l; simpl; congruence. Qed.
  Lemma existsb_map' {A B} (f : A -> B) (g : B -> bool) l : existsb g (map f l) = existsb (fun a => g (f a)) l.
  Proof. induction l; simpl; congruence. Qed.
  Lemma pairwise_pairs (l : list term) :
    pairwise (fun a b => negb (veqb a b)) (map (fun a => eval a E) l)
    = forallb (fun p => negb (veqb (eval (fst p) E) (eval (snd p) E))) (pairs l).
  Proof.
    induction l as [|a r IH]; simpl; [reflexivity|]. rewrite forallb_app, IH, !forallb_map'. reflexivity.
  Qed.
  Lemma pairs_length {A} (l : list A) : List.length (pairs l) = List.length l * (List.length l - 1) / 2.
  Proof.
    assert (H : forall l : list A, 2 * List.length (pairs l) = List.length l * (List.length l - 1)).
    { clear. induction l as [|a r IH]; simpl pairs; [reflexivity|].
      rewrite app_length, map_length. simpl List.length. destruct (List.length r) eqn:Hr.
      - simpl. lia.
      - simpl. simpl in IH. nia. }
    rewrite <- H, Nat.mul_comm, Nat.div_mul; lia.
  Qed.
End Distinct.

Lemma distinct_bools (b1 b2 b3 : bool) : Bool.eqb b1 b2 = false -> Bool.eqb b1 b3 = false -> Bool.eqb b2 b3 = false -> False.
Proof. destruct b1, b2, b3; discriminate. Qed.

Lemma distinct_args_wt l : wt (TOp ODistinct l) = true ->
  (forall a, In a l -> wt a = true) /\ (forall a, In a l -> sort_of a = hd SType (map sort_of l)).
Proof.
  cbn [wt op_wt]. intros H. apply andb_true_iff in H. destruct H as [H1 H2].
  apply andb_true_iff in H2. destruct H2 as [_ H2]. rewrite forallb_forall in H1. split; auto.
  intros a Ha. apply all_eq_spec with (s := sort_of a) in H2; auto. apply in_map; auto.
Qed.

Lemma r_distinct_elim_sound c ps args : r_distinct_elim c ps args = ROk tt -> clause_wt c = true -> entails ps c.
Proof.
  start. unfold r_distinct_elim in H. rinv. wts. apply clause_holds_one. rewrite holds_eq'. apply veqb_eq.
  match type of H with context [match ?d with [] => _ | _ => _ end] => destruct d as [|a0 [|a1 [|a2 r]]] end;
    try discriminate.
  - apply (chk_diseq_holds E) in H. rewrite H. cbn [eval eval_op map fst snd pairwise forallb]. rewrite !andb_true_r. reflexivity.
  - apply bool_term_wt, eq_args_wt in H0. destruct H0 as [Hd [_ _]].
    destruct (sort_eqb (sort_of a0) SBool) eqn:Es.
    + apply sort_eqb_eq in Es. rinv. apply is_false_eq in H. subst t0.
      apply distinct_args_wt in Hd. destruct Hd as [Hw1 Hs1]. cbn [map hd] in Hs1. rewrite Es in Hs1.
      assert (Hb : forall a, In a (a0 :: a1 :: a2 :: r) -> eval a E = VB (holds E a)).
      { intros a Ha. apply eval_bool; auto. unfold bool_term. rewrite Hw1, Hs1 by auto. reflexivity. }
      cbn [eval eval_op map pairwise forallb].
      rewrite (Hb a0), (Hb a1), (Hb a2) by (simpl; auto).
      cbn [eval eval_op map tFalse]. f_equal. cbn [veqb veqb_].
      generalize (holds E a0) (holds E a1) (holds E a2). intros b1 b2 b3.
      unfold veqb; cbn [veqb_]. destruct b1, b2, b3; simpl; rewrite ?andb_false_r; reflexivity.
    + rinv. apply len_is_ok in H1. rewrite <- pairs_length in H1.
      apply ofor_combine_ok in H; [|lia]. cbn [eval eval_op]. f_equal.
      rewrite pairwise_pairs, forallb_map'. clear H1 Hd Hw. induction H; simpl; [reflexivity|].
      cbn [fst snd] in H. apply (chk_diseq_holds E) in H. rewrite H. simpl. rewrite IHForall2. reflexivity.
Qed.

Lemma r_and_sound c ps args : r_and c ps args = ROk tt -> clause_wt c = true -> entails ps c.
Proof.
  start. unfold r_and in H. rinv.
  match type of H with context [nth_error ?l ?i] => destruct (nth_error l i) as [t|] eqn:En end; rinv.
  pose proof (prem1 _ _ _ HP) as HT. rewrite holds_and in HT. apply clause_holds_one.
  eapply nth_forallb; eauto.
Qed.
Lemma r_not_or_sound c ps args : r_not_or c ps args = ROk tt -> clause_wt c = true -> entails ps c.
Proof.
  start. unfold r_not_or in H. rinv.
  match type of H with context [nth_error ?l ?i] => destruct (nth_error l i) as [t|] eqn:En end; rinv.
  pose proof (prem1 _ _ _ HP) as HT. hsimp_in HT. apply clause_holds_one. hsimp.
  pose proof (nth_existsb E _ _ _ En) as Hn. destruct (holds E t); [|reflexivity].
  rewrite Hn in HT by auto. discriminate.
Qed.
Lemma r_or_sound c ps args : r_or c ps args = ROk tt -> clause_wt c = true -> entails ps c.
Proof.
  start. unfold r_or in H. rinv. match goal with H : len_is _ _ = _ |- _ => apply len_is_ok in H end.
  apply ofor_teq_ok in H; [|lia]. subst c. pose proof (prem1 _ _ _ HP) as HT. rewrite holds_or in HT.
  apply clause_holds_b. exact HT.
Qed.
Lemma r_not_and_sound c ps args : r_not_and c ps args = ROk tt -> clause_wt c = true -> entails ps c.
Proof.
  start. unfold r_not_and in H. rinv. match goal with H : len_is _ _ = _ |- _ => apply len_is_ok in H end.
  apply ofor_neg_teq_ok in H; [|lia]. subst c. pose proof (prem1 _ _ _ HP) as HT. hsimp_in HT.
  apply clause_holds_b. rewrite existsb_map_not. exact HT.
Qed.
Lemma r_xor1_sound c ps args : r_xor1 c ps args = ROk tt -> clause_wt c = true -> entails ps c.
Proof. unfold r_xor1. prem_tac. hsolve. Qed.
Lemma r_xor2_sound c ps args : r_xor2 c ps args = ROk tt -> clause_wt c = true -> entails ps c.
Proof. unfold r_xor2. prem_tac. hsolve. Qed.
Lemma r_not_xor1_sound c ps args : r_not_xor1 c ps args = ROk tt -> clause_wt c = true -> entails ps c.
Proof. unfold r_not_xor1. prem_tac. hsolve. Qed.
Lemma r_not_xor2_sound c ps args : r_not_xor2 c ps args = ROk tt -> clause_wt c = true -> entails ps c.
Proof. unfold r_not_xor2. prem_tac. hsolve. Qed.
Lemma r_implies_sound c ps args : r_implies c ps args = ROk tt -> clause_wt c = true -> entails ps c.
Proof. unfold r_implies. prem_tac. hsolve. Qed.
Lemma r_not_implies1_sound c ps args : r_not_implies1 c ps args = ROk tt -> clause_wt c = true -> entails ps c.
Proof. unfold r_not_implies1. prem_tac. hsolve. Qed.
Lemma r_not_implies2_sound c ps args : r_not_implies2 c ps args = ROk tt -> clause_wt c = true -> entails ps c.
Proof. unfold r_not_implies2. prem_tac. hsolve. Qed.

Section Nary.
  Context {I : interp} (E : env I).
  Lemma expand_right_implies r : forall a, holds E (expand_right OImplies a r) = holds E (TOp OImplies (a :: r)).
  Proof.
    induction r as [|b r IH]; intros a; [reflexivity|]. cbn [expand_right]. rewrite holds_implies, IH. reflexivity.
  Qed.
  Lemma expand_left_num (o : op) (f : iF I -> iF I -> iF I) :
    (forall a b : value I, eval_op o [a; b] = VN (f (num a) (num b))) ->
    forall r a, r <> [] -> eval (expand_left o a r) E = VN (fold_left f (map (fun t => num (eval t E)) r) (num (eval a E))).
  Proof.
    intros Ho. unfold expand_left. induction r as [|b r IH]; intros a Hr; [congruence|].
    destruct r as [|c r].
    - simpl. rewrite Ho. reflexivity.
    - change (fold_left (fun acc b0 => TOp o [acc; b0]) (b :: c :: r) a)
        with (fold_left (fun acc b0 => TOp o [acc; b0]) (c :: r) (TOp o [a; b])).
      rewrite IH by discriminate. simpl. rewrite Ho. reflexivity.
  Qed.
  Lemma chain_windows r : forall a,
    chain veqb (map (fun t => eval t E) (a :: r))
    = forallb (holds E) (map (fun p => TOp OEquals [fst p; snd p]) (windows2 (a :: r))).
  Proof.
    induction r as [|b r IH]; intros a; [reflexivity|].
    change (windows2 (a :: b :: r)) with ((a, b) :: windows2 (b :: r)).
    cbn [map forallb fst snd]. rewrite <- IH, holds_eq'. reflexivity.
  Qed.
End Nary.

Lemma r_nary_elim_sound c ps args : r_nary_elim c ps args = ROk tt -> clause_wt c = true -> entails ps c.
Proof.
  start. unfold r_nary_elim in H. rinv. wts. apply clause_holds_one. rewrite holds_eq'. apply veqb_eq.
  destruct t as [| | |o l| | | |]; try discriminate. destruct l as [|a [|b r]]; try discriminate.
  destruct o; try discriminate; cbn [nary_elim_case] in H; rinv; cbn [nary_expand].
  - pose proof (bool_eq_l _ _ H0 eq_refl) as [Hx Hy]. rewrite !eval_bool, expand_right_implies by auto. reflexivity.
  - cbn [eval eval_op]. f_equal. rewrite chain_windows.
    rewrite !forallb_map'. reflexivity.
  - rewrite (expand_left_num E OAdd oadd).
    + cbn [eval eval_op map fold_left]. rewrite !map_map. f_equal. f_equal. rewrite oadd_0_l; reflexivity.
    + intros; cbn. rewrite oadd_0_l; reflexivity.
    + discriminate.
  - rewrite (expand_left_num E OSub osub); [|reflexivity|discriminate].
    cbn [eval eval_op map fold_left]. rewrite !map_map. reflexivity.
  - rewrite (expand_left_num E OMult omul).
    + cbn [eval eval_op map fold_left]. rewrite !map_map. f_equal. f_equal. rewrite omul_1_l; reflexivity.
    + intros; cbn. rewrite omul_1_l; reflexivity.
    + discriminate.
Qed.

(** Rule names, checker/shared.rs:219-231 *)
Definition claus_rules : list (string * rule) :=
  [ ("and"%string, r_and)
  ; ("not_or"%string, r_not_or)
  ; ("or"%string, r_or)
  ; ("not_and"%string, r_not_and)
  ; ("xor1"%string, r_xor1)
  ; ("xor2"%string, r_xor2)
  ; ("not_xor1"%string, r_not_xor1)
  ; ("not_xor2"%string, r_not_xor2)
  ; ("implies"%string, r_implies)
  ; ("not_implies1"%string, r_not_implies1)
  ; ("not_implies2"%string, r_not_implies2) ].
Lemma claus_rules_sound : forall name r, In (name, r) claus_rules -> rule_sound r.
Proof.
  intros name r H. unfold claus_rules in H. simpl in H.
  repeat (destruct H as [H|H]; [injection H as _ <-; intros c ps args Hr Hc _; revert Hr Hc|]); [..|contradiction].
  - apply r_and_sound.
  - apply r_not_or_sound.
  - apply r_or_sound.
  - apply r_not_and_sound.
  - apply r_xor1_sound.
  - apply r_xor2_sound.
  - apply r_not_xor1_sound.
  - apply r_not_xor2_sound.
  - apply r_implies_sound.
  - apply r_not_implies1_sound.
  - apply r_not_implies2_sound.
Qed.

(** Rule names, checker/shared.rs:198, 263 *)
Definition claus_def_rules : list (string * rule) :=
  [ ("distinct_elim"%string, r_distinct_elim)
  ; ("nary_elim"%string, r_nary_elim) ].
Lemma claus_def_rules_sound : forall name r, In (name, r) claus_def_rules -> rule_sound r.
Proof.
  intros name r H. unfold claus_def_rules in H. simpl in H.
  repeat (destruct H as [H|H]; [injection H as _ <-; intros c ps args Hr Hc _; revert Hr Hc|]); [..|contradiction].
  - apply r_distinct_elim_sound.
  - apply r_nary_elim_sound.
Qed.

Lemma clausification_sound name r : In (name, r) (taut_prem_rules ++ claus_rules) -> rule_sound r.
Proof.
  intros H. apply in_app_or in H. destruct H; [eapply taut_prem_rules_sound|eapply claus_rules_sound]; eauto.
Qed.
