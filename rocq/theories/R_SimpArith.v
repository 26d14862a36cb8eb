(** The arithmetic simplification rules, checker/rules/simplification.rs:406-690. *)
From Coq Require Import List String ZArith QArith Qround Bool Arith Lia Field Permutation.
From Verif Require Import Term Field Sem Sorting Base Rules R_Taut Utils Num R_LA R_Simp Refute.
Import ListNotations.
Local Open Scope nat_scope.

(** ** div_simplify, simplification.rs:406-457 *)
Definition r_div_simplify : rule := fun c _ _ =>
  len_is c 1 ;;
  do c0 <- idx c 0 ;
  do lr <- m_op2 OEquals c0 ;
  let '(lhs, rhs) := lr in
  match lhs with
  | TConst _ => match rhs with TConst (CReal _) => teq lhs rhs | _ => RErr end
  | _ =>
      do nd <- (match op2 OIntDiv lhs with
                | Some v => ROk (v, true)
                | None => do v <- m_op2 ORealDiv lhs ; ROk (v, false)
                end) ;
      let '((numer, denom), is_int_div) := nd in
      if term_eqb numer denom then
        do q <- as_signed_number_err rhs ; rassert (Qeq_bool q 1)
      else if match as_number denom with Some n => Qeq_bool n 1 | None => false end then teq rhs numer
      else
        do d <- as_signed_number_err denom ;
        if Qeq_bool d 0 then RErr else
        do n <- as_signed_number_err numer ;
        do expected <- (if is_int_div
                        then if Qis_int n && Qis_int d then ROk (inject_Z (ediv (Qnumer n) (Qnumer d))) else RPanic
                        else ROk (n / d)%Q) ;
        do q <- as_fraction_err rhs ; rassert (Qeq_bool q expected)
  end.

(** ** generic_sum_prod_simplify_rule, simplification.rs:459-551; [k] is Add or Mult *)
(** [iter().any(|t| t.as_fraction().is_some())] *)
Fixpoint any_fraction (l : list term) : outcome bool :=
  match l with
  | [] => ROk false
  | t :: r => do f <- as_fraction t ; match f with Some _ => ROk true | None => any_fraction r end
  end.
Definition identity_value (k : op) : Q := if op_eqb k OAdd then 0%Q else 1%Q.
Definition combine_q (k : op) (a b : Q) : Q := if op_eqb k OAdd then (a + b)%Q else (a * b)%Q.
(** the loop over the [t_i], 508-525; [res] in order *)
Fixpoint sum_prod_loop (k : op) (l : list term) (res : list term) (total : Q) : outcome (list term * Q) :=
  match l with
  | [] => ROk (res, total)
  | t :: r =>
      do f <- as_fraction t ;
      match f with
      | None => sum_prod_loop k r (res ++ [t]) total
      | Some q =>
          let total := combine_q k total q in
          if op_eqb k OMult && Qeq_bool total 0 then ROk ([], total)
          else sum_prod_loop k r res total
      end
  end.
Definition sum_prod (ts u : term) (k : op) : outcome unit :=
  do ua <- (match as_op k u with
            | Some [] => RPanic
            | Some ((a0 :: rest) as args) =>
                do bad <- any_fraction rest ;
                if bad then RErr else
                do f <- as_fraction a0 ;
                match f with
                | Some q => if Qeq_bool q (identity_value k) then RErr else ROk (q, rest)
                | None => ROk (identity_value k, args)
                end
            | None =>
                do f <- as_fraction u ;
                match f with
                | Some q => ROk (q, [])
                | None => ROk (identity_value k, [u])
                end
            end) ;
  let '(u_constant, u_args) := ua in
  do tl <- m_ops k ts ;
  do rt <- sum_prod_loop k tl [] (identity_value k) ;
  let '(result, total) := rt in
  if match result with [r] => Qeq_bool total (identity_value k) && term_eqb u r | _ => false end then ROk tt
  else rassert (Qeq_bool u_constant total && list_eqb term_eqb u_args result).
(** prod_simplify / sum_simplify, 553-564 and 627-638 *)
Definition sum_prod_rule (k : op) : rule := fun c _ _ =>
  len_is c 1 ;;
  do c0 <- idx c 0 ;
  do lr <- m_op2 OEquals c0 ;
  let '(first, second) := lr in
  match sum_prod second first k with
  | ROk _ => ROk tt
  | RErr => sum_prod first second k
  | RPanic => RPanic
  end.
Definition r_prod_simplify := sum_prod_rule OMult.
Definition r_sum_simplify := sum_prod_rule OAdd.

(** ** minus_simplify (also unary_minus_simplify), simplification.rs:566-625 *)
Definition try_unary_minus (t u : term) : bool :=
  match op1 OSub t with
  | Some t' => match op1 OSub t' with Some x => term_eqb x u | None => false end
  | None => false
  end
  || match as_signed_number t, as_signed_number u with Some x, Some y => Qeq_bool x y | _, _ => false end.
Definition minus_check (t1 t2 u : term) : outcome unit :=
  if term_eqb t1 t2 then do q <- as_number_err u ; rassert (Qeq_bool q 0)
  else
    match as_signed_number t1, as_signed_number t2 with
    | n1, Some z2 =>
        if Qeq_bool z2 0 then teq u t1
        else match n1 with
             | Some z1 => if Qeq_bool z1 0 then do x <- m_op1 OSub u ; teq x t2
                          else do q <- as_signed_number_err u ; rassert (Qeq_bool q (z1 - z2))
             | None => RErr
             end
    | Some z1, None => if Qeq_bool z1 0 then do x <- m_op1 OSub u ; teq x t2 else RErr
    | None, None => RErr
    end.
Definition r_minus_simplify : rule := fun c _ _ =>
  len_is c 1 ;;
  do c0 <- idx c 0 ;
  do lr <- m_op2 OEquals c0 ;
  let '(lhs, rhs) := lr in
  if try_unary_minus lhs rhs || try_unary_minus rhs lhs then ROk tt else
  if match op2 OSub rhs with
     | Some (t1, t2) => match minus_check t1 t2 lhs with ROk _ => true | _ => false end
     | None => false
     end then ROk tt
  else do p <- m_op2 OSub lhs ; minus_check (fst p) (snd p) rhs.

(** ** comp_simplify, simplification.rs:640-684.  [as_fraction] of both sides is computed before either is
    inspected, so a zero divisor on either side panics. *)
Definition comp_step : stepper := fun t =>
  match op2 OLt t with
  | Some (a, b) =>
      do fa <- as_fraction a ; do fb <- as_fraction b ;
      ROk (Some (match fa, fb with
                 | Some x, Some y => tBool (negb (Qle_bool y x))
                 | _, _ => if term_eqb a b then tFalse else tNot (TOp OLe [b; a])
                 end))
  | None =>
  match op2 OLe t with
  | Some (a, b) =>
      do fa <- as_fraction a ; do fb <- as_fraction b ;
      ROk (match fa, fb with
           | Some x, Some y => Some (tBool (Qle_bool x y))
           | _, _ => if term_eqb a b then Some tTrue else None
           end)
  | None =>
  match op2 OGe t with
  | Some (a, b) => ROk (Some (TOp OLe [b; a]))
  | None =>
  match op2 OGt t with
  | Some (a, b) => ROk (Some (tNot (TOp OLe [a; b])))
  | None => ROk None
  end end end end.
Definition r_comp_simplify := generic_simplify comp_step.

(** * Soundness *)
Section S.
  Context {I : interp}.
  Add Field FSA : (o_th (iF I)).
  Implicit Types E : env I.
  Local Open Scope of_scope.
  Definition nprod E (l : list term) : iF I := fold_right (fun a acc => nval E a * acc) 1 l.
  Definition nsum E (l : list term) : iF I := fold_right (fun a acc => nval E a + acc) 0 l.
  Definition ncomb E (k : op) (l : list term) : iF I := if op_eqb k OAdd then nsum E l else nprod E l.
  Definition nop (k : op) (a b : iF I) : iF I := if op_eqb k OAdd then a + b else a * b.
  Lemma fold_mul E l x : fold_left omul (map num (map (fun a => eval a E) l)) x = x * nprod E l.
  Proof.
    revert x. induction l as [|a r IH]; intros x; simpl; [ring|]. rewrite IH. unfold nval. ring.
  Qed.
  Lemma ncomb_op E k l : k = OAdd \/ k = OMult -> eval (TOp k l) E = VN (ncomb E k l).
  Proof.
    intros [->| ->]; cbn [eval eval_op]; unfold ncomb; simpl; f_equal.
    - rewrite fold_add. unfold nsum. ring.
    - rewrite fold_mul. ring.
  Qed.
  Lemma ncomb_cons E k a l : ncomb E k (a :: l) = nop k (nval E a) (ncomb E k l).
  Proof. unfold ncomb, nop. destruct (op_eqb k OAdd); reflexivity. Qed.
  Lemma ncomb_app E k l m : ncomb E k (l ++ m) = nop k (ncomb E k l) (ncomb E k m).
  Proof.
    induction l as [|a r IH].
    - simpl. unfold ncomb, nop. destruct (op_eqb k OAdd); simpl; ring.
    - rewrite <- app_comm_cons, !ncomb_cons, IH. unfold nop. destruct (op_eqb k OAdd); ring.
  Qed.
  Lemma nop_assoc k a b c : nop k a (nop k b c) = nop k (nop k a b) c.
  Proof. unfold nop. destruct (op_eqb k OAdd); ring. Qed.
  Lemma nop_comm k a b : nop k a b = nop k b a.
  Proof. unfold nop. destruct (op_eqb k OAdd); ring. Qed.
  Lemma nop_id k a : nop k (injQ (identity_value k)) a = a.
  Proof. unfold nop, identity_value. destruct (op_eqb k OAdd); rewrite ?injQ_0, ?injQ_1; ring. Qed.
  Lemma ncomb_nil E k : ncomb E k [] = injQ (identity_value k).
  Proof. unfold ncomb, identity_value. destruct (op_eqb k OAdd); rewrite ?injQ_0, ?injQ_1; reflexivity. Qed.
  Lemma nop_combine k p q : (injQ (combine_q k p q) : iF I) = nop k (injQ p) (injQ q).
  Proof. unfold nop, combine_q. destruct (op_eqb k OAdd); [apply injQ_add|apply injQ_mul]. Qed.
  Lemma as_fraction_nval E t q : as_fraction t = ROk (Some q) -> divs_exact t = true -> nval E t = injQ q.
  Proof. intros H Hd. unfold nval. rewrite (as_fraction_eval E _ _ H Hd). reflexivity. Qed.
  Lemma sum_prod_loop_val E k : forall l res total res' total',
    (k = OAdd \/ k = OMult) ->
    sum_prod_loop k l res total = ROk (res', total') -> forallb divs_exact l = true ->
    nop k (injQ total') (ncomb E k res') = nop k (nop k (injQ total) (ncomb E k res)) (ncomb E k l).
  Proof.
    induction l as [|t r IH]; cbn [sum_prod_loop forallb]; intros res total res' total' Hk H Hd.
    - injection H as <- <-. rewrite ncomb_nil, (nop_comm k _ (injQ (identity_value k))), nop_id. reflexivity.
    - apply andb_true_iff in Hd. destruct Hd as [Hd Hr]. apply obind_ok in H. destruct H as [f [Hf H]].
      rewrite ncomb_cons. destruct f as [q|].
      + rewrite (as_fraction_nval E _ _ Hf Hd). destruct (op_eqb k OMult && Qeq_bool (combine_q k total q) 0)%bool eqn:Ez.
        * injection H as <- <-. apply andb_true_iff in Ez. destruct Ez as [Ek Ez]. apply op_eqb_eq in Ek. subst k.
          apply Qeq_bool_iff in Ez. apply (injQ_eq (iF I)) in Ez. unfold nop, combine_q in *. simpl in *.
          rewrite Ez, injQ_0. rewrite injQ_mul, injQ_0 in Ez.
          transitivity ((injQ total * injQ q : iF I) * (ncomb E OMult res * ncomb E OMult r)); [rewrite Ez; ring|ring].
        * rewrite (IH _ _ _ _ Hk H Hr), nop_combine. unfold nop. destruct (op_eqb k OAdd); ring.
      + rewrite (IH _ _ _ _ Hk H Hr), ncomb_app, ncomb_cons, ncomb_nil. unfold nop, identity_value.
        destruct (op_eqb k OAdd); rewrite ?injQ_0, ?injQ_1; ring.
  Qed.
  Lemma sum_prod_val E ts u k : (k = OAdd \/ k = OMult) -> sum_prod ts u k = ROk tt -> divs_exact ts = true ->
    divs_exact u = true -> nval E ts = nval E u.
  Proof.
    intros Hk H Hts Hu. unfold sum_prod in H. apply obind_ok in H. destruct H as [[uc ua] [HU H]].
    apply obind_ok in H. destruct H as [tl [Htl H]]. apply m_ops_ok in Htl. subst ts.
    apply obind_ok in H. destruct H as [[res total] [HL H]].
    apply divs_exact_op in Hts. apply (sum_prod_loop_val E) in HL; auto.
    rewrite ncomb_nil in HL. rewrite nop_id, (nop_id k (ncomb E k tl)) in HL.
    assert (Ets : nval E (TOp k tl) = ncomb E k tl) by (unfold nval; rewrite ncomb_op by auto; reflexivity).
    rewrite Ets, <- HL.
    assert (EU : nop k (injQ uc) (ncomb E k ua) = nval E u).
    { destruct (as_op k u) as [[|a0 rest]|] eqn:Eo.
      - discriminate.
      - apply as_op_some in Eo. subst u. unfold nval. rewrite ncomb_op by auto. cbn [num].
        apply obind_ok in HU. destruct HU as [bad [_ HU]]. destruct bad; [discriminate|].
        apply obind_ok in HU. destruct HU as [f [Hf HU]].
        pose proof (divs_exact_op _ _ Hu) as Hd. simpl in Hd. apply andb_true_iff in Hd. destruct Hd as [Hd _].
        destruct f as [q|].
        + destruct (Qeq_bool q (identity_value k)); [discriminate|]. injection HU as <- <-.
          rewrite ncomb_cons, (as_fraction_nval E _ _ Hf Hd). reflexivity.
        + injection HU as <- <-. apply nop_id.
      - apply obind_ok in HU. destruct HU as [f [Hf HU]]. destruct f as [q|]; injection HU as <- <-.
        + rewrite ncomb_nil, nop_comm, nop_id. symmetry. apply as_fraction_nval; auto.
        + rewrite nop_id, ncomb_cons, ncomb_nil, nop_comm, nop_id. reflexivity. }
    rewrite <- EU.
    destruct (match res with [r] => Qeq_bool total (identity_value k) && term_eqb u r | _ => false end) eqn:Em.
    - destruct res as [|r [|? ?]]; try discriminate. apply andb_true_iff in Em. destruct Em as [E1 E2].
      apply term_eqb_eq in E2. subst r. apply Qeq_bool_iff in E1. apply (injQ_eq (iF I)) in E1. rewrite E1, nop_id.
      rewrite EU, ncomb_cons, ncomb_nil, nop_comm, nop_id. reflexivity.
    - apply rassert_ok in H. apply andb_true_iff in H. destruct H as [H1 H2]. apply Qeq_bool_iff in H1.
      apply (injQ_eq (iF I)) in H1. apply (list_eqb_eq term_eqb) in H2; [|apply term_eqb_eq]. rewrite H1, H2. reflexivity.
  Qed.
End S.

(** an equality between terms, one of them numeric, holds if the numeric values agree *)
Lemma num_eq_holds {I} (E : env I) a b : env_ok E -> bool_term (tEq a b) = true ->
  is_num_sort (sort_of a) = true \/ is_num_sort (sort_of b) = true -> nval E a = nval E b -> holds E (tEq a b) = true.
Proof.
  intros HE Hw Hn Hv. apply bool_term_wt, eq_args_wt in Hw. destruct Hw as [Wa [Wb Ws]].
  assert (Na : num_term a = true /\ num_term b = true).
  { unfold num_term. rewrite Wa, Wb, Ws. rewrite Ws in Hn. destruct Hn as [->| ->]; auto. }
  rewrite holds_eq, num_veqb by tauto. apply oeqb_eq. exact Hv.
Qed.
Lemma arith_num_sort k l : In k [OAdd; OMult; OSub] -> is_num_sort (sort_of (TOp k l)) = true.
Proof.
  simpl. intros [<-|[<-|[<-|[]]]]; cbn [sort_of op_sort]; destruct (existsb (sort_eqb SReal) (map sort_of l)); reflexivity.
Qed.
(** side condition: no inexact constant [div] is read as a fraction *)
Lemma sum_prod_rule_sound k c ps args : k = OAdd \/ k = OMult -> sum_prod_rule k c ps args = ROk tt -> clause_wt c = true ->
  forallb divs_exact c = true -> entails ps c.
Proof.
  intros Hk H Hw Hd I E HE _. unfold sum_prod_rule in H. rinv. apply clause_holds_one.
  unfold clause_wt in Hw. simpl in Hw, Hd. rewrite andb_true_r in Hw, Hd.
  match type of Hw with bool_term (TOp OEquals [?a; ?b]) = true => set (X := a) in *; set (Y := b) in * end.
  assert (Dx : divs_exact X = true /\ divs_exact Y = true) by (rewrite !andb_true_r in Hd; apply andb_true_iff in Hd; tauto).
  destruct Dx as [Dx Dy]. change (holds E (tEq X Y) = true).
  assert (K : forall a b, sum_prod a b k = ROk tt -> is_num_sort (sort_of a) = true).
  { intros a b Hs. unfold sum_prod in Hs. apply obind_ok in Hs. destruct Hs as [[uc ua] [_ Hs]].
    apply obind_ok in Hs. destruct Hs as [tl [Htl _]]. apply m_ops_ok in Htl. subst a. apply arith_num_sort.
    clear - Hk; destruct Hk as [->| ->]; simpl; tauto. }
  destruct (sum_prod Y X k) as [[]| |] eqn:Es; [| |discriminate].
  - apply num_eq_holds; auto; [right; eauto|]. symmetry. eapply sum_prod_val; eauto.
  - apply num_eq_holds; auto; [left; eauto|]. eapply sum_prod_val; eauto.
Qed.

Section Minus.
  Context {I : interp}.
  Add Field FSM : (o_th (iF I)).
  Implicit Types E : env I.
  Local Open Scope of_scope.
  Lemma nval_neg E x : nval E (TOp OSub [x]) = - nval E x.
  Proof. reflexivity. Qed.
  Lemma nval_sub E x y : nval E (TOp OSub [x; y]) = nval E x - nval E y.
  Proof. reflexivity. Qed.
  Lemma signed_nval E t q : as_signed_number t = Some q -> nval E t = injQ q.
  Proof. intros H. unfold nval. rewrite (as_signed_number_eval E _ _ H). reflexivity. Qed.
  Lemma number_nval E t q : as_number t = Some q -> nval E t = injQ q.
  Proof. intros H. unfold nval. rewrite (as_number_eval E _ _ H). reflexivity. Qed.
  Lemma try_unary_minus_val E t u : try_unary_minus t u = true -> nval E t = nval E u.
  Proof.
    unfold try_unary_minus. rewrite orb_true_iff. intros [H|H].
    - destruct (op1 OSub t) as [t'|] eqn:E1; [|discriminate]. apply op1_some in E1. subst.
      destruct (op1 OSub t') as [x|] eqn:E1; [|discriminate]. apply op1_some in E1. subst.
      apply term_eqb_eq in H. subst. rewrite !nval_neg. ring.
    - destruct (as_signed_number t) eqn:E1; [|discriminate]. destruct (as_signed_number u) eqn:E2; [|discriminate].
      rewrite (signed_nval _ _ _ E1), (signed_nval _ _ _ E2). apply injQ_eq, Qeq_bool_iff. exact H.
  Qed.
  Lemma minus_check_val E t1 t2 u : minus_check t1 t2 u = ROk tt -> nval E (TOp OSub [t1; t2]) = nval E u.
  Proof.
    rewrite nval_sub. unfold minus_check. destruct (term_eqb t1 t2) eqn:Et.
    - apply term_eqb_eq in Et. subst. intros H. rinv. apply ok_or_ok in H0. rewrite (number_nval _ _ _ H0).
      apply Qeq_bool_iff in H. rewrite (injQ_eq _ _ _ H), injQ_0. ring.
    - destruct (as_signed_number t1) as [z1|] eqn:E1, (as_signed_number t2) as [z2|] eqn:E2; intros H.
      + rewrite (signed_nval E _ _ E1), (signed_nval E _ _ E2). destruct (Qeq_bool z2 0) eqn:Z2.
        * rinv. rewrite (signed_nval E _ _ E1). apply Qeq_bool_iff in Z2. rewrite (injQ_eq _ _ _ Z2), injQ_0. ring.
        * destruct (Qeq_bool z1 0) eqn:Z1.
          -- rinv. rewrite nval_neg, (signed_nval E _ _ E2). apply Qeq_bool_iff in Z1. rewrite (injQ_eq _ _ _ Z1), injQ_0. ring.
          -- rinv. apply ok_or_ok in H0. rewrite (signed_nval E _ _ H0). apply Qeq_bool_iff in H. rewrite (injQ_eq _ _ _ H), injQ_sub. reflexivity.
      + rewrite (signed_nval E _ _ E1). destruct (Qeq_bool z1 0) eqn:Z1; [|discriminate].
        rinv. rewrite nval_neg. apply Qeq_bool_iff in Z1. rewrite (injQ_eq _ _ _ Z1), injQ_0. ring.
      + rewrite (signed_nval E _ _ E2). destruct (Qeq_bool z2 0) eqn:Z2; [|discriminate].
        rinv. apply Qeq_bool_iff in Z2. rewrite (injQ_eq _ _ _ Z2), injQ_0. ring.
      + discriminate.
  Qed.
End Minus.
Lemma num_sort_signed t q : as_signed_number t = Some q -> is_num_sort (sort_of t) = true.
Proof.
  unfold as_signed_number. destruct (op1 OSub t) eqn:E1.
  - apply op1_some in E1. subst. intros _. apply arith_num_sort. simpl. tauto.
  - destruct t as [[]| | | | | | |]; try discriminate; reflexivity.
Qed.
Lemma r_minus_simplify_sound : rule_sound r_minus_simplify.
Proof.
  intros c ps args H Hw _ I E HE _. unfold r_minus_simplify in H. rinv. apply clause_holds_one.
  unfold clause_wt in Hw. simpl in Hw. rewrite andb_true_r in Hw.
  match type of Hw with bool_term (TOp OEquals [?a; ?b]) = true => set (X := a) in *; set (Y := b) in * end.
  change (holds E (tEq X Y) = true).
  assert (K : forall a b, try_unary_minus a b = true -> is_num_sort (sort_of a) = true).
  { intros a b. unfold try_unary_minus. rewrite orb_true_iff. intros [K|K].
    - destruct (op1 OSub a) eqn:E1; [|discriminate]. apply op1_some in E1. subst a. apply arith_num_sort. simpl. tauto.
    - destruct (as_signed_number a) eqn:E1; [|discriminate]. eapply num_sort_signed; eauto. }
  destruct (try_unary_minus X Y || try_unary_minus Y X)%bool eqn:Eu.
  - apply orb_true_iff in Eu. destruct Eu as [Eu|Eu]; apply num_eq_holds; eauto.
    + apply try_unary_minus_val; auto.
    + symmetry. apply try_unary_minus_val; auto.
  - match type of H with (if ?b then _ else _) = _ => destruct b eqn:Eb end.
    + destruct (op2 OSub Y) as [[t1 t2]|] eqn:Ey; [|discriminate]. apply op2_some in Ey. rewrite Ey in *.
      destruct (minus_check t1 t2 X) as [[]| |] eqn:Em; try discriminate.
      apply num_eq_holds; auto; [right; apply arith_num_sort; simpl; tauto|]. symmetry. apply minus_check_val; auto.
    + rinv. match goal with K : X = _ |- _ => rewrite K in * end. cbn [fst snd] in *.
      apply num_eq_holds; auto; [left; apply arith_num_sort; simpl; tauto|]. apply minus_check_val; auto.
Qed.

(** ** comp_simplify *)
Lemma cmp_bt o a b : In o [OLt; OLe; OGt; OGe] -> wt (TOp o [a; b]) = true -> bool_term (TOp o [a; b]) = true.
Proof. intros Ho H. unfold bool_term. rewrite H. simpl in Ho. destruct Ho as [<-|[<-|[<-|[<-|[]]]]]; reflexivity. Qed.
Lemma cmp_wt o o' a b : In o [OLt; OLe; OGt; OGe] -> In o' [OLt; OLe; OGt; OGe] -> wt (TOp o [a; b]) = true -> wt (TOp o' [b; a]) = true.
Proof.
  intros Ho Ho' H. cbn [wt forallb map] in *. apply andb_true_iff in H. destruct H as [H1 H2].
  rewrite !andb_true_r in *. apply andb_true_iff in H1. destruct H1 as [-> ->]. simpl.
  simpl in Ho, Ho'. destruct Ho as [<-|[<-|[<-|[<-|[]]]]], Ho' as [<-|[<-|[<-|[<-|[]]]]];
  cbn [op_wt forallb] in *; rewrite !andb_true_r in *; apply andb_true_iff in H2; destruct H2 as [_ H2];
  apply andb_true_iff in H2; destruct H2 as [-> ->]; reflexivity.
Qed.
Lemma cmp_wt' o o' a b : In o [OLt; OLe; OGt; OGe] -> In o' [OLt; OLe; OGt; OGe] -> wt (TOp o [a; b]) = true -> wt (TOp o' [a; b]) = true.
Proof. intros Ho Ho' H. apply (cmp_wt o o) in H; auto. apply (cmp_wt o o') in H; auto. Qed.
Lemma divs_cmp o o' a b : o <> OIntDiv -> o' <> OIntDiv -> divs_exact (TOp o [a; b]) = true -> divs_exact (TOp o' [b; a]) = true.
Proof.
  intros Ho Ho' H. apply divs_exact_op in H. simpl in H. rewrite andb_true_r in H. apply andb_true_iff in H.
  cbn [divs_exact forallb]. destruct H as [-> ->]. rewrite !andb_true_r. unfold div_exact1, op2, as_op.
  destruct (op_eqb OIntDiv o') eqn:Eo; [|reflexivity]. apply op_eqb_eq in Eo. congruence.
Qed.
Lemma divs_not a : divs_exact a = true -> divs_exact (tNot a) = true.
Proof. intros H. unfold tNot. cbn [divs_exact forallb]. rewrite H. reflexivity. Qed.
Lemma tBool_bt b : bool_term (tBool b) = true. Proof. destruct b; reflexivity. Qed.
Lemma tBool_holds {I} (E : env I) b : holds E (tBool b) = b. Proof. destruct b; reflexivity. Qed.
Lemma tBool_divs b : divs_exact (tBool b) = true. Proof. destruct b; reflexivity. Qed.
Lemma oltb_leb {F : ofield} (x y : F) : oltb x y = negb (oleb y x).
Proof. reflexivity. Qed.
Lemma comp_keeps : step_keeps (fun t => divs_exact t = true) comp_step.
Proof.
  intros t t' H Hw Hd. unfold comp_step in H.
  assert (fin : bool_term t = true -> bool_term t' = true -> divs_exact t' = true ->
    (forall (I : interp) (E : env I), env_ok E -> holds E t' = holds E t) ->
    wt t' = true /\ divs_exact t' = true /\ sort_of t' = sort_of t /\ forall (I : interp) (E : env I), env_ok E -> eval t' E = eval t E).
  { intros H1 H2 H3 H4. destruct (step_bool t t' H1 H2 H4) as [K1 [_ [K2 K3]]]. auto. }
  destruct (op2 OLt t) as [[a b]|] eqn:E1.
  { apply op2_some in E1. subst t. pose proof (divs_exact_op _ _ Hd) as Hab. simpl in Hab. rewrite andb_true_r in Hab.
    apply andb_true_iff in Hab. destruct Hab as [Da Db]. rinv. apply fin; clear fin.
    - apply cmp_bt; simpl; auto.
    - destruct x, x0; try apply tBool_bt; (destruct (term_eqb a b); [reflexivity|rewrite bool_term_not; apply cmp_bt; [simpl; tauto|]; apply (cmp_wt OLt); simpl; tauto]).
    - destruct x, x0; try apply tBool_divs; (destruct (term_eqb a b); [reflexivity|apply divs_not; apply (divs_cmp OLt); auto; discriminate]).
    - intros I E HE. rewrite holds_lt, oltb_leb.
      assert (G : holds E (if term_eqb a b then tFalse else tNot (TOp OLe [b; a])) = negb (oleb (nval E b) (nval E a))).
      { destruct (term_eqb a b) eqn:Et; [|rewrite <- holds_le; reflexivity]. apply term_eqb_eq in Et. subst.
        assert (R : oleb (nval E b) (nval E b) = true) by apply le_refl. rewrite R. reflexivity. }
      destruct x as [x|], x0 as [y|]; auto. rewrite tBool_holds, (as_fraction_nval E _ _ H0 Da), (as_fraction_nval E _ _ H1 Db), injQ_leb. reflexivity. }
  destruct (op2 OLe t) as [[a b]|] eqn:E2.
  { clear E1. apply op2_some in E2. subst t. pose proof (divs_exact_op _ _ Hd) as Hab. simpl in Hab. rewrite andb_true_r in Hab.
    apply andb_true_iff in Hab. destruct Hab as [Da Db]. rinv.
    assert (K : (exists x y, as_fraction a = ROk (Some x) /\ as_fraction b = ROk (Some y) /\ t' = tBool (Qle_bool x y)) \/ (a = b /\ t' = tTrue)).
    { destruct x as [x|], x0 as [y|]; [left; exists x, y; injection H as <-; auto| | |];
        right; (destruct (term_eqb a b) eqn:Et; [apply term_eqb_eq in Et|discriminate]; injection H as <-; auto). }
    destruct K as [[p [q [Hp [Hq ->]]]]|[-> ->]]; apply fin; clear fin; try reflexivity; try (apply cmp_bt; simpl; tauto).
    - apply tBool_bt.
    - apply tBool_divs.
    - intros I E HE. rewrite tBool_holds, holds_le, (as_fraction_nval E _ _ Hp Da), (as_fraction_nval E _ _ Hq Db), injQ_leb. reflexivity.
    - intros I E HE. rewrite holds_le. symmetry. apply le_refl. }
  destruct (op2 OGe t) as [[a b]|] eqn:E3.
  { clear E1 E2. apply op2_some in E3. subst t. rinv. apply fin; clear fin.
    - apply cmp_bt; simpl; auto.
    - apply cmp_bt; [simpl; tauto|]. apply (cmp_wt OGe); simpl; tauto.
    - apply (divs_cmp OGe); auto; discriminate.
    - intros I E HE. rewrite holds_le, holds_ge. reflexivity. }
  destruct (op2 OGt t) as [[a b]|] eqn:E4.
  { clear E1 E2 E3. apply op2_some in E4. subst t. rinv. apply fin; clear fin.
    - apply cmp_bt; simpl; auto.
    - rewrite bool_term_not. apply cmp_bt; [simpl; tauto|]. apply (cmp_wt' OGt); simpl; tauto.
    - apply divs_not. apply (divs_cmp OGt); auto; try discriminate. apply (divs_cmp OGt); auto; discriminate.
    - intros I E HE. unfold tNot. rewrite holds_not', holds_le, holds_gt. reflexivity. }
  discriminate.
Qed.
Lemma r_comp_simplify_sound c ps args : r_comp_simplify c ps args = ROk tt -> clause_wt c = true ->
  forallb divs_exact c = true -> entails ps c.
Proof.
  intros H Hw Hd. apply (generic_simplify_ok _ _ c ps args comp_keeps H Hw).
  intros l r ->. simpl in Hd. rewrite !andb_true_r in Hd. apply andb_true_iff in Hd. exact Hd.
Qed.
Lemma as_fraction_no_err t : as_fraction t <> RErr.
Proof.
  assert (K : forall t, as_unsigned_fraction t <> RErr).
  { intros u. unfold as_unsigned_fraction.
    destruct (match op2 OIntDiv u with Some p => Some p | None => op2 ORealDiv u end) as [[a b]|]; [|discriminate].
    destruct (as_signed_number a), (as_signed_number b); try discriminate. destruct (Qeq_bool q0 0); discriminate. }
  unfold as_fraction. destruct (op1 OSub t) as [x|]; [|apply K]. specialize (K x).
  destruct (as_unsigned_fraction x); simpl; congruence.
Qed.
Definition comp_measure (t : term) : nat :=
  match t with TOp o _ => if op_eqb o OLe then 1 else if op_eqb o OLt || op_eqb o OGt || op_eqb o OGe then 2 else 0 | _ => 0 end.
Lemma comp_term : terminating comp_step.
Proof.
  apply (terminating_by _ comp_measure).
  - intros t t' H. unfold comp_step in H.
    destruct (op2 OLt t) as [[a b]|] eqn:E1.
    { apply op2_some in E1. subst. rinv. destruct x, x0; try (destruct (term_eqb a b)); try (cbn; lia);
      match goal with |- context [tBool ?b] => destruct b; cbn; lia end. }
    destruct (op2 OLe t) as [[a b]|] eqn:E2.
    { clear E1. apply op2_some in E2. subst. rinv. destruct x, x0; try (destruct (term_eqb a b)); try discriminate; injection H as <-; try (cbn; lia);
      match goal with |- context [tBool ?b] => destruct b; cbn; lia end. }
    destruct (op2 OGe t) as [[a b]|] eqn:E3.
    { apply op2_some in E3. subst. rinv. cbn. lia. }
    destruct (op2 OGt t) as [[a b]|] eqn:E4; [|discriminate].
    apply op2_some in E4. subst. rinv. cbn. lia.
  - intros t. destruct t; cbn [comp_measure]; try lia. destruct (op_eqb o OLe); [lia|]. destruct (op_eqb o OLt || op_eqb o OGt || op_eqb o OGe)%bool; lia.
  - intros t. unfold comp_step.
    pose proof as_fraction_no_err as K.
    destruct (op2 OLt t) as [[a b]|].
    { specialize (K a) as Ka. specialize (K b) as Kb. destruct (as_fraction a), (as_fraction b); simpl; congruence. }
    destruct (op2 OLe t) as [[a b]|].
    { specialize (K a) as Ka. specialize (K b) as Kb. destruct (as_fraction a), (as_fraction b); simpl; congruence. }
    destruct (op2 OGe t) as [[a b]|]; [discriminate|]. destruct (op2 OGt t) as [[a b]|]; discriminate.
Qed.

(** ** div_simplify.  Side condition: a quotient of two equal terms is only rewritten to 1 if they are a
    non-zero numeral. *)
Definition div_safe (c : clause) : bool :=
  forallb (fun t => match op2 OEquals t with
    | Some (l, _) =>
        match (match op2 OIntDiv l with Some p => Some p | None => op2 ORealDiv l end) with
        | Some (n, d) => if term_eqb n d then match as_signed_number d with Some q => negb (Qeq_bool q 0) | None => false end else true
        | None => true
        end
    | None => true
    end) c.
Section Div.
  Context {I : interp}.
  Add Field FSD : (o_th (iF I)).
  Implicit Types E : env I.
  Local Open Scope of_scope.
  Lemma ediv_1 z : ediv z 1 = z.
  Proof. unfold ediv. simpl. apply Z.div_1_r. Qed.
  Lemma nval_rdiv E a b : nval E b <> 0 -> nval E (TOp ORealDiv [a; b]) = nval E a / nval E b.
  Proof.
    intros H. unfold nval in *. cbn [eval map eval_op fold1 fold_left]. unfold rdiv.
    destruct (oeqb (num (eval b E)) 0) eqn:Eb; [apply oeqb_eq in Eb; contradiction|]. reflexivity.
  Qed.
  Lemma nval_idiv E a b : nval E b <> 0 -> nval E (TOp OIntDiv [a; b]) = inj (ediv (ofloor (nval E a)) (ofloor (nval E b))).
  Proof.
    intros H. unfold nval in *. cbn [eval map eval_op fold1 fold_left]. unfold idiv.
    destruct (oeqb (num (eval b E)) 0) eqn:Eb; [apply oeqb_eq in Eb; contradiction|]. reflexivity.
  Qed.
  Lemma int_val E t : env_ok E -> wt t = true -> sort_of t = SInt -> nval E t = inj (ofloor (nval E t)).
  Proof.
    intros HE Hw Hs. pose proof (eval_dom t E Hw HE) as HD. rewrite Hs in HD. unfold nval.
    cbv [idom dom_] in HD. destruct (eval t E); try discriminate. apply oeqb_eq in HD. exact HD.
  Qed.
  Lemma odiv_self (x : iF I) : x <> 0 -> x / x = 1.
  Proof. intros H. field. exact H. Qed.
  Lemma odiv_1 (x : iF I) : x / 1 = x.
  Proof. field. apply one_neq_zero. Qed.
  Lemma ediv_self z : z <> 0%Z -> ediv z z = 1%Z.
  Proof.
    intros H. unfold ediv. destruct (Z.ltb_spec z 0).
    - replace (z / - z)%Z with ((-1 * - z) / - z)%Z by (f_equal; lia). rewrite Z.div_mul by lia. reflexivity.
    - apply Z.div_same; auto.
  Qed.
  Lemma injQ_neq0 q : Qeq_bool q 0 = false -> (injQ q : iF I) <> 0.
  Proof. intros H K. rewrite <- (injQ_0 (iF I)) in K. apply injQ_inj in K. apply Qeq_bool_iff in K. congruence. Qed.
End Div.

Lemma int_literal t q : as_signed_number t = Some q -> sort_of t = SInt -> exists z, (q == inject_Z z)%Q.
Proof.
  unfold as_signed_number. destruct (op1 OSub t) as [x|] eqn:E1.
  - apply op1_some in E1. subst. destruct x as [[]| | | | | | |]; simpl; try discriminate.
    intros H _. injection H as <-. exists (- z)%Z. reflexivity.
  - destruct t as [[]| | | | | | |]; simpl; try discriminate. intros H _. injection H as <-. exists z. reflexivity.
Qed.
(** a well-sorted term read as a fraction with an integer value has no inexact [div] *)
Lemma as_fraction_nval_int {I} (E : env I) t q z : wt t = true -> as_fraction t = ROk (Some q) -> (q == inject_Z z)%Q -> nval E t = injQ q.
Proof.
  assert (K : forall u p y, wt u = true -> as_unsigned_fraction u = ROk (Some p) -> (p == inject_Z y)%Q -> eval u E = VN (injQ p)).
  { intros u p y Hw Hf Hp. apply as_unsigned_fraction_eval; auto. unfold as_unsigned_fraction in Hf. unfold div_exact1.
    destruct (op2 OIntDiv u) as [[a b]|] eqn:Eo; [|reflexivity]. apply op2_some in Eo. subst u.
    cbn [wt forallb map op_wt] in Hw. rewrite !andb_true_r in Hw.
    apply andb_true_iff in Hw. destruct Hw as [_ Hw]. apply andb_true_iff in Hw. destruct Hw as [_ Hw].
    apply andb_true_iff in Hw. destruct Hw as [Sa Sb]. apply sort_eqb_eq in Sa, Sb.
    destruct (as_signed_number a) as [na|] eqn:Ea; [|discriminate]. destruct (as_signed_number b) as [nb|] eqn:Eb; [|discriminate].
    destruct (Qeq_bool nb 0); [discriminate|]. injection Hf as <-.
    destruct (int_literal _ _ Ea (eq_sym Sa)) as [za Hza]. destruct (int_literal _ _ Eb (eq_sym Sb)) as [zb Hzb].
    assert (Qi : forall r z', (r == inject_Z z')%Q -> Qis_int r = true).
    { clear. intros [n d] z' H. unfold Qeq in H. simpl in H. unfold Qis_int. simpl. apply Z.eqb_eq.
      assert (n = z' * Z.pos d)%Z by lia. subst n. apply Z_mod_mult. }
    rewrite (Qi _ _ Hza), (Qi _ _ Hzb), (Qi _ _ Hp). reflexivity. }
  intros Hw Hf Hq. unfold as_fraction in Hf. destruct (op1 OSub t) as [x|] eqn:E1.
  - apply op1_some in E1. subst t. apply obind_ok in Hf. destruct Hf as [r [Hr Hf]]. destruct r as [r|]; [|discriminate].
    injection Hf as <-. rewrite nval_neg, injQ_opp. f_equal. unfold nval.
    rewrite (K x r (- z)%Z); [reflexivity| |auto|].
    + apply (wt_arg _ _ x) in Hw; simpl; auto.
    + rewrite <- (Qopp_opp r), Hq. reflexivity.
  - unfold nval. rewrite (K _ _ _ Hw Hf Hq). reflexivity.
Qed.
(** a Real-sorted fraction has no [div] at all *)
Lemma as_fraction_nval_real {I} (E : env I) t q : sort_of t = SReal -> as_fraction t = ROk (Some q) -> nval E t = injQ q.
Proof.
  assert (K : forall u p, sort_of u = SReal -> as_unsigned_fraction u = ROk (Some p) -> eval u E = VN (injQ p)).
  { intros u p Hs Hf. apply as_unsigned_fraction_eval; auto. unfold div_exact1.
    destruct (op2 OIntDiv u) as [[a b]|] eqn:Eo; [|reflexivity]. apply op2_some in Eo. subst u. discriminate. }
  intros Hs Hf. unfold as_fraction in Hf. destruct (op1 OSub t) as [x|] eqn:E1.
  - apply op1_some in E1. subst t. apply obind_ok in Hf. destruct Hf as [r [Hr Hf]]. destruct r as [r|]; [|discriminate].
    injection Hf as <-. rewrite nval_neg, injQ_opp. f_equal. unfold nval. rewrite (K x r); auto.
    cbn [sort_of map op_sort existsb] in Hs. destruct (sort_eqb SReal (sort_of x)) eqn:Ex; [|discriminate].
    apply sort_eqb_eq in Ex. auto.
  - unfold nval. rewrite (K _ _ Hs Hf). reflexivity.
Qed.
Lemma idiv_args a b : wt (TOp OIntDiv [a; b]) = true -> wt a = true /\ wt b = true /\ sort_of a = SInt /\ sort_of b = SInt.
Proof.
  intros Hw. cbn [wt forallb map op_wt] in Hw. rewrite !andb_true_r in Hw.
  apply andb_true_iff in Hw. destruct Hw as [W Hw]. apply andb_true_iff in Hw. destruct Hw as [_ Hw].
  apply andb_true_iff in Hw, W. destruct Hw as [Sa Sb]. apply sort_eqb_eq in Sa, Sb. destruct W. repeat split; auto.
Qed.
Lemma r_div_simplify_sound c ps args : r_div_simplify c ps args = ROk tt -> clause_wt c = true -> div_safe c = true -> entails ps c.
Proof.
  intros H Hw Hs I E HE _. unfold r_div_simplify in H. rinv. apply clause_holds_one.
  unfold clause_wt in Hw. simpl in Hw. rewrite andb_true_r in Hw.
  match type of Hw with bool_term (TOp OEquals [?a; ?b]) = true => rename a into L; rename b into R end.
  change (holds E (tEq L R) = true).
  pose proof (eq_args_wt _ _ (bool_term_wt _ Hw)) as [WL [WR WS]].
  assert (HH : match L with TConst _ => match R with TConst (CReal _) => teq L R | _ => RErr end | _ => RErr end = ROk tt \/
    exists n d b, L = TOp (if b : bool then OIntDiv else ORealDiv) [n; d] /\
      (if term_eqb n d then do q <- as_signed_number_err R ; rassert (Qeq_bool q 1)
      else if match as_number d with Some n => Qeq_bool n 1 | None => false end then teq R n
      else
        do dd <- as_signed_number_err d ;
        if Qeq_bool dd 0 then RErr else
        do nn <- as_signed_number_err n ;
        do expected <- (if b
                        then if Qis_int nn && Qis_int dd then ROk (inject_Z (ediv (Qnumer nn) (Qnumer dd))) else RPanic
                        else ROk (nn / dd)%Q) ;
        do q <- as_fraction_err R ; rassert (Qeq_bool q expected)) = ROk tt).
  { destruct L; [left; exact H|right..]; apply obind_ok in H; destruct H as [[[n' d'] b'] [Hnd H]];
    exists n', d', b'; (split; [|exact H]).
    all: match type of Hnd with (match op2 OIntDiv ?t with _ => _ end) = _ => destruct (op2 OIntDiv t) as [p|] eqn:E1 end;
      [injection Hnd as -> <-; apply op2_some in E1; exact E1
      |apply obind_ok in Hnd; destruct Hnd as [v [Hv Hnd]]; injection Hnd as -> <-; apply m_op2_ok in Hv; exact Hv]. }
  clear H. destruct HH as [H|[n [d [b [-> H]]]]].
  { destruct L; try discriminate. destruct R; try discriminate. destruct c0; try discriminate. apply teq_ok in H. injection H as <-.
    apply holds_eq_iff. reflexivity. }
  set (L := TOp (if b then OIntDiv else ORealDiv) [n; d]) in *.
  assert (NL : is_num_sort (sort_of L) = true) by (destruct b; reflexivity).
  apply num_eq_holds; auto.
  assert (Dn : forall q, as_signed_number d = Some q -> Qeq_bool q 0 = false -> nval E d <> o0).
  { intros q Hq Hz. rewrite (signed_nval _ _ _ Hq). apply injQ_neq0; auto. }
  assert (Ds : term_eqb n d = true -> exists q, as_signed_number d = Some q /\ Qeq_bool q 0 = false).
  { intros Et. unfold div_safe in Hs. cbn [forallb] in Hs. rewrite andb_true_r in Hs.
    assert (Eo : op2 OEquals (TOp OEquals [L; R]) = Some (L, R)) by reflexivity. rewrite Eo in Hs.
    assert (En : match op2 OIntDiv L with Some p => Some p | None => op2 ORealDiv L end = Some (n, d)) by (destruct b; reflexivity).
    rewrite En, Et in Hs. destruct (as_signed_number d) as [q|]; [|discriminate]. exists q. split; auto. apply negb_true_iff; auto. }
  destruct (term_eqb n d) eqn:Et.
  - destruct (Ds eq_refl) as [q0 [Hq0 Hz0]]. specialize (Dn _ Hq0 Hz0). clear Ds. apply term_eqb_eq in Et. subst d.
    rinv. apply ok_or_ok in H0. rewrite (signed_nval E _ _ H0). apply Qeq_bool_iff in H. rewrite (injQ_eq _ _ _ H).
    destruct b; unfold L.
    + apply idiv_args in WL. destruct WL as [Wn [_ [Sn _]]].
      rewrite nval_idiv by auto. rewrite ediv_self; [rewrite injQ_1; reflexivity|].
      intros K. apply Dn. rewrite (int_val E _ HE Wn Sn), K. reflexivity.
    + rewrite nval_rdiv by auto. rewrite injQ_1. apply odiv_self. auto.
  - clear Ds. destruct (match as_number d with Some n0 => Qeq_bool n0 1 | None => false end) eqn:E1.
    + destruct (as_number d) as [one|] eqn:E2; [|discriminate].
      rinv. apply Qeq_bool_iff in E1. pose proof (number_nval E _ _ E2) as Vd. rewrite (injQ_eq _ _ _ E1), injQ_1 in Vd.
      assert (nval E d <> o0) by (rewrite Vd; apply one_neq_zero).
      destruct b; unfold L.
      -- apply idiv_args in WL. destruct WL as [Wn [_ [Sn _]]]. rewrite nval_idiv by auto. rewrite Vd, <- inj_1, floor_inj, ediv_1.
         symmetry. apply int_val; auto.
      -- rewrite nval_rdiv by auto. rewrite Vd. apply odiv_1.
    + clear E1. apply obind_ok in H. destruct H as [dd [Hd H]]. apply ok_or_ok in Hd.
      destruct (Qeq_bool dd 0) eqn:Ez; [discriminate|]. specialize (Dn _ Hd Ez).
      apply obind_ok in H. destruct H as [nn [Hn H]]. apply ok_or_ok in Hn.
      apply obind_ok in H. destruct H as [ex [Hx H]]. apply obind_ok in H. destruct H as [q [Hq H]].
      apply rassert_ok, Qeq_bool_iff in H. unfold as_fraction_err in Hq. apply obind_ok in Hq. destruct Hq as [o [Ho Hq]].
      apply ok_or_ok in Hq. subst o.
      destruct b; unfold L in *.
      * destruct (Qis_int nn && Qis_int dd)%bool eqn:Ei; [|discriminate]. injection Hx as <-.
        apply andb_true_iff in Ei. destruct Ei as [In' Id]. apply Qis_int_numer in In', Id.
        rewrite nval_idiv, (signed_nval E _ _ Hn), (signed_nval E _ _ Hd) by auto.
        rewrite (injQ_eq _ _ _ In'), (injQ_eq _ _ _ Id), !injQ_Z, !floor_inj.
        rewrite (as_fraction_nval_int E R q _ WR Ho H), (injQ_eq _ _ _ H), injQ_Z. reflexivity.
      * injection Hx as <-. rewrite nval_rdiv, (signed_nval E _ _ Hn), (signed_nval E _ _ Hd) by auto.
        rewrite (as_fraction_nval_real E R q (eq_sym WS) Ho), (injQ_eq _ _ _ H). symmetry. apply injQ_div.
        intros K. apply Qeq_bool_iff in K. congruence.
Qed.
Definition divs_side (c : clause) (ps : list clause) (args : list term) : bool := forallb divs_exact c.

(** ** Refutations *)

(** the same interpretation with another value for integer division by zero *)
Definition div0_op (I : interp) (z : Z) (o : op) (vs : list (value_ (iF I) (iU I))) :=
  if op_eqb o OIntDiv then VN (inj z) else iop I o vs.
Lemma div0_op_dom (I : interp) z o ss vs : op_wt o ss = true -> Forall2 (fun s v => idom I s v = true) ss vs ->
  idom I (op_sort o ss) (div0_op I z o vs) = true.
Proof.
  intros H1 H2. unfold div0_op. destruct (op_eqb o OIntDiv) eqn:Ho; [|apply (iop_dom I); auto].
  apply op_eqb_eq in Ho. subst o. apply dom_int. exists z. reflexivity.
Qed.
Lemma div0_re (I : interp) z : re_laws (div0_op I z).
Proof. destruct (ire I). constructor; assumption. Qed.
Definition with_div0 (I : interp) (z : Z) : interp :=
  mkI (iF I) (iU I) (ieqU I) (ieqU_eq I) (iudom I) (iapp I) (div0_op I z) (ipop I) (iall I) (iall_spec I) (ichoice I)
    (ichoice_dom I) (ichoice_spec I) (ichoice_ext I) (ilam I) (ilam_ext I) (iapp_dom I)
    (div0_op_dom I z) (ipop_dom I) (ilam_dom I) (div0_re I z).
Definition div_xx : clause := [tEq (TOp OIntDiv [TVar "x" SInt; TVar "x" SInt]) (tInt 1)].
Lemma div_xx_false : forall I : interp, exists E : env (with_div0 I 2), env_ok E /\ ~ clause_holds E div_xx.
Proof.
  intros I. destruct (env_with (I := with_div0 I 2) "x" SInt (vint 0)) as [E [HE Hx]].
  - apply dom_int. eexists; reflexivity.
  - exists E. split; auto. apply not_clause_b. unfold div_xx. cbn [existsb]. rewrite orb_false_r, holds_eq.
    cbn [eval map eval_op fold1 fold_left]. rewrite Hx. unfold idiv. cbn [num vint].
    assert (Z : @oeqb (iF (with_div0 I 2)) (inj 0) (inj 0) = true) by (rewrite inj_eqb; reflexivity).
    change (@o0 (iF (with_div0 I 2))) with (@inj (iF (with_div0 I 2)) 0). rewrite Z.
    change (@oeqb (iF I) (inj 2) (inj 1) = false). rewrite inj_eqb. reflexivity.
Qed.
Lemma prod_simplify_refuted : rule_refuted r_prod_simplify.
Proof.
  exists [tEq (TOp OMult [tInt 2; TOp OIntDiv [tInt 7; tInt 2]]) (tInt 7)], [], [].
  split; [reflexivity|]. split; [reflexivity|]. split; [vm_compute; reflexivity|]. intros I.
  destruct (env_exists (I := I)) as [E HE]. exists E. split; auto. split; [intros p []|]. apply not_clause_b.
  cbn [existsb]. rewrite orb_false_r, holds_eq.
  cbn. unfold idiv. cbn [num vint]. rewrite <- (inj_0 (iF I)), inj_eqb. rewrite !floor_inj. cbn.
  change (oeqb (omul (omul (inj 1) (inj 2)) (inj 3)) (inj 7 : iF I) = false).
  rewrite <- !inj_mul, inj_eqb. reflexivity.
Qed.
Lemma sum_simplify_refuted : rule_refuted r_sum_simplify.
Proof.
  exists [tEq (TOp OAdd [TOp OIntDiv [tInt 1; tInt 2]; TOp OIntDiv [tInt 1; tInt 2]]) (tInt 1)], [], [].
  split; [reflexivity|]. split; [reflexivity|]. split; [vm_compute; reflexivity|]. intros I.
  destruct (env_exists (I := I)) as [E HE]. exists E. split; auto. split; [intros p []|]. apply not_clause_b.
  cbn [existsb]. rewrite orb_false_r, holds_eq.
  cbn. unfold idiv. cbn [num vint]. rewrite <- (inj_0 (iF I)), inj_eqb. rewrite !floor_inj. cbn.
  change (oeqb (oadd (oadd (inj 0) (inj 0)) (inj 0)) (inj 1 : iF I) = false).
  rewrite <- !inj_add, inj_eqb. reflexivity.
Qed.
Lemma comp_simplify_refuted : rule_refuted r_comp_simplify.
Proof.
  exists [tEq (TOp OLt [tInt 3; TOp OIntDiv [tInt 7; tInt 2]]) tTrue], [], [].
  split; [reflexivity|]. split; [reflexivity|]. split; [vm_compute; reflexivity|]. intros I.
  destruct (env_exists (I := I)) as [E HE]. exists E. split; auto. split; [intros p []|]. apply not_clause_b.
  cbn [existsb]. rewrite orb_false_r, holds_eq.
  cbn. unfold idiv. cbn [num vint]. rewrite <- (inj_0 (iF I)), inj_eqb. rewrite !floor_inj. cbn.
  change (eqb (oltb (inj 3) (inj 3 : iF I) && true) true = false). unfold oltb. rewrite inj_leb. reflexivity.
Qed.
Lemma all_steps_terminate : forall f, In f [pure ite_step; pure eq_step; pure not_step; pure implies_step; pure equiv_step; pure bool_step; comp_step] ->
  terminating f.
Proof.
  intros f H. repeat (destruct H as [<-|H]; [first [apply ite_term|apply eq_term|apply not_term|apply implies_term|apply equiv_term|apply bool_term_step|apply comp_term]|]).
  destruct H.
Qed.
