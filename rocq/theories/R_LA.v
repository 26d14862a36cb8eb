(** Linear arithmetic rules: checker/rules/linear_arithmetic.rs, and la_mult_pos, la_mult_neg,
    mod_simplify of checker/rules/extras.rs. *)
From Coq Require Import List String ZArith QArith Qround Qabs Bool Arith Lia Field Permutation.
From Verif Require Import Term Field Sem Sorting Base Rules R_Taut Utils Num Refute.
Import ListNotations.
Open Scope string_scope.
Local Open Scope nat_scope.

(** LinearComb, linear_arithmetic.rs:61-65 *)
Definition lcomb : Type := (list (term * Q) * Q)%type.
Definition lc_new : lcomb := ([], 0%Q).
(** LinearComb::insert, 127-142 *)
Definition lc_insert (lc : lcomb) (k : term) (v : Q) : lcomb :=
  if Qeq_bool v 0 then lc else
  match im_get term_eqb (fst lc) k with
  | Some old =>
      if Qeq_bool (old + v) 0 then (im_swap_remove term_eqb (fst lc) k, snd lc)
      else (im_insert term_eqb (fst lc) k (old + v)%Q, snd lc)
  | None => (im_insert term_eqb (fst lc) k v, snd lc)
  end.
(** LinearComb::add_term, 74-116 *)
Section AddAll.
  Variable f : term -> lcomb -> outcome lcomb.
  Fixpoint add_all (l : list term) (lc : lcomb) : outcome lcomb :=
    match l with [] => ROk lc | a :: r => do lc' <- f a lc ; add_all r lc' end.
End AddAll.
Definition add_other (t : term) (coeff : Q) (lc : lcomb) : outcome lcomb :=
  do f <- as_fraction t ;
  match f with
  | Some r => ROk (fst lc, snd lc + r * coeff)%Q
  | None => ROk (lc_insert lc t coeff)
  end.
Fixpoint add_term (t : term) (coeff : Q) (lc : lcomb) {struct t} : outcome lcomb :=
  match t with
  | TOp o args =>
      if op_eqb o OAdd then add_all (fun a => add_term a coeff) args lc
      else if op_eqb o OSub then
        match args with
        | [] => RPanic
        | [a] => add_term a (- coeff)%Q lc
        | a :: r => do lc' <- add_term a coeff lc ; add_all (fun a => add_term a (- coeff)%Q) r lc'
        end
      else if op_eqb o OMult then
        match args with
        | [a; b] =>
            do fa <- as_fraction a ; do fb <- as_fraction b ;
            match fa, fb with
            | None, Some c => add_term a (c * coeff)%Q lc
            | Some c, _ => add_term b (c * coeff)%Q lc
            | None, None => ROk (lc_insert lc t coeff)
            end
        | _ => add_other t coeff lc
        end
      else add_other t coeff lc
  | _ => add_other t coeff lc
  end.
(** LinearComb::from_term, 121-125 *)
Definition from_term (t : term) : outcome lcomb := add_term t 1%Q lc_new.
(** LinearComb::add, 144-150 *)
Definition lc_add (a b : lcomb) : lcomb :=
  let r := fold_left (fun acc p => lc_insert acc (fst p) (snd p)) (fst b) a in
  (fst r, snd r + snd b)%Q.
(** LinearComb::mul, 152-167 *)
Definition lc_mul (s : Q) (a : lcomb) : lcomb :=
  if Qeq_bool s 0 then ([], 0%Q)
  else if Qeq_bool s 1 then a
  else (map (fun p => (fst p, snd p * s)%Q) (fst a), snd a * s)%Q.
(** LinearComb::neg, 169-174 *)
Definition lc_neg (a : lcomb) : lcomb := (map (fun p => (fst p, - snd p)%Q) (fst a), - snd a)%Q.
(** LinearComb::sub, 176-179 *)
Definition lc_sub (a b : lcomb) : lcomb := lc_add a (lc_neg b).
(** LinearComb::coefficients_gcd, 183-203 *)
Fixpoint gcd_loop (l : list (term * Q)) (r : Z) : Z :=
  match l with
  | [] => Z.max 1 r
  | (_, c) :: rest =>
      if Z.eqb r 1 then 1%Z
      else if Qis_int c then gcd_loop rest (Z.gcd r (Qnumer c)) else 1%Z
  end.
Definition coefficients_gcd (a : lcomb) : Z :=
  if Qis_int (snd a) then gcd_loop (fst a) (Qnumer (snd a)) else 1%Z.

(** negate_disequality, 28-59 *)
Definition negate_operator (o : op) : option op :=
  match o with
  | OLt => Some OGe | OGt => Some OLe | OLe => Some OGt | OGe => Some OLt | _ => None
  end.
Definition is_cmp (o : op) : bool :=
  match o with OGe | OLe | OGt | OLt | OEquals => true | _ => false end.
Definition negate_inner (t : term) : option (op * list term) :=
  match remove_negation t with
  | Some (TOp o args) => if is_cmp o then Some (o, args) else None
  | _ => match t with
         | TOp o args => match negate_operator o with Some o' => Some (o', args) | None => None end
         | _ => None
         end
  end.
Definition negate_disequality (t : term) : outcome (op * lcomb * lcomb) :=
  do oa <- ok_or (negate_inner t) ;
  match snd oa with
  | [a; b] => do la <- from_term a ; do lb <- from_term b ; ROk (fst oa, la, lb)
  | _ => RErr
  end.
(** Steps 1-3 of la_generic, 279-293 *)
Definition diseq_of (t : term) : outcome (op * lcomb) :=
  do d <- negate_disequality t ;
  let '(o, s1, s2) := d in
  let d0 := lc_sub s1 s2 in
  let d1 : lcomb := (fst d0, - snd d0)%Q in
  match o with
  | OLt => ROk (OGt, lc_neg d1)
  | OLe => ROk (OGe, lc_neg d1)
  | _ => ROk (o, d1)
  end.
(** strengthen, 206-261 *)
Definition is_integer_times (c a : Q) : bool :=
  if Qeq_bool a 0 then true else if Qeq_bool a 1 then Qis_int c else Qis_int (c * a).
Definition Qfloor_q (q : Q) : Q := inject_Z (Qfloor q).
Definition strengthen (o : op) (d : lcomb) (a : Q) : outcome (op * lcomb) :=
  let ii := is_integer_times (snd d) a in
  match o with
  | OGe => if ii then ROk (OGe, d) else ROk (OGe, (fst d, Qfloor_q (snd d) + 1)%Q)
  | OGt =>
      if ii then
        let d' : lcomb := (fst d, Qfloor_q (snd d)) in
        ROk (OGe, (fst d, snd d' + inject_Z (coefficients_gcd d'))%Q)
      else ROk (OGe, (fst d, Qfloor_q (snd d) + 1)%Q)
  | OLt | OLe => RPanic
  | _ => ROk (o, d)
  end.
(** one literal of la_generic, 277-306 *)
Definition la_lit (phi : term) (a : Q) : outcome (op * lcomb) :=
  do od <- diseq_of phi ;
  do sd <- strengthen (fst od) (snd od) a ;
  let a' := match fst sd with OEquals => a | _ => Qabs a end in
  ROk (fst sd, lc_mul a' (snd sd)).
(** 312-316 *)
Definition acc_op (x y : op) : op :=
  match y with
  | OGe => OGe
  | OGt => match x with OEquals => OGt | _ => x end
  | _ => x
  end.
Fixpoint la_fold (c : clause) (args : list Q) (acc : op * lcomb) : outcome (op * lcomb) :=
  match c, args with
  | phi :: cr, a :: ar => do od <- la_lit phi a ; la_fold cr ar (acc_op (fst acc) (fst od), lc_add (snd acc) (snd od))
  | _, _ => ROk acc
  end.
Definition diseq_true (o : op) (r : Q) : bool :=
  match Qcompare 0 r with
  | Lt => match o with OLt | OLe => true | _ => false end
  | Eq => match o with OLe | OGe | OEquals => true | _ => false end
  | Gt => match o with OGt | OGe => true | _ => false end
  end.
(** la_generic, 263-343 *)
Definition r_la_generic : rule := fun c _ args =>
  len_is args (List.length c) ;;
  do qs <- omap as_fraction_err args ;
  do fin <- la_fold c qs (OEquals, lc_new) ;
  rassert (match fst (snd fin) with [] => true | _ => false end && negb (diseq_true (fst fin) (snd (snd fin)))).

(** la_rw_eq, 9-19 *)
Definition r_la_rw_eq : rule := fun c _ _ =>
  len_is c 1 ;; do x <- idx c 0 ; do lr <- m_op2 OEquals x ;
  do e <- m_op2 OEquals (fst lr) ; do a <- m_op2 OAnd (snd lr) ;
  do p <- m_op2 OLe (fst a) ; do q <- m_op2 OLe (snd a) ;
  teq (fst e) (fst p) ;; teq (fst p) (snd q) ;; teq (snd e) (snd p) ;; teq (snd p) (fst q).
(** la_disequality, 345-355 *)
Definition not_op2 (o : op) (t : term) : outcome (term * term) := do x <- rm_neg t ; m_op2 o x.
Definition r_la_disequality : rule := fun c _ _ =>
  len_is c 1 ;; do x <- idx c 0 ; do l <- m_op3 OOr x ;
  do e <- m_op2 OEquals (fst (fst l)) ; do p <- not_op2 OLe (snd (fst l)) ; do q <- not_op2 OLe (snd l) ;
  teq (fst e) (fst p) ;; teq (fst p) (snd q) ;; teq (snd e) (snd p) ;; teq (snd p) (fst q).
(** la_totality, 357-365 *)
Definition r_la_totality : rule := fun c _ _ =>
  len_is c 1 ;; do x <- idx c 0 ; do l <- m_op2 OOr x ;
  do p <- m_op2 OLe (fst l) ; do q <- m_op2 OLe (snd l) ;
  teq (fst p) (snd q) ;; teq (snd p) (fst q).
(** assert_less_than, assert_less_eq: 367-381 *)
Definition assert_lt (a b : term) : outcome unit :=
  do x <- as_signed_number_err a ; do y <- as_signed_number_err b ; rassert (negb (Qle_bool y x)).
Definition assert_le (a b : term) : outcome unit :=
  do x <- as_signed_number_err a ; do y <- as_signed_number_err b ; rassert (Qle_bool x y).
(** la_tautology, 383-454 *)
Definition nop2 (o : op) (t : term) : option (term * term) :=
  match remove_negation t with Some x => op2 o x | None => None end.
Definition la_taut_single (t : term) : outcome unit :=
  do od <- diseq_of t ;
  rassert (match fst (snd od) with [] => true | _ => false end &&
           (negb (Qle_bool (snd (snd od)) 0) || op_eqb (fst od) OGt && Qeq_bool (snd (snd od)) 0)).
Definition r_la_tautology : rule := fun c _ _ =>
  len_is c 1 ;; do x <- idx c 0 ;
  match op2 OOr x with
  | Some (f, s) =>
      match nop2 OLe f, op2 OLe s with
      | Some (s1, d1), Some (s2, d2) => teq s1 s2 ;; assert_le d1 d2
      | _, _ =>
      match op2 OLe f, nop2 OLe s with
      | Some (s1, d1), Some (s2, d2) => teq s1 s2 ;; teq d1 d2
      | _, _ =>
      match nop2 OGe f, op2 OGe s with
      | Some (s1, d1), Some (s2, d2) => teq s1 s2 ;; assert_le d2 d1
      | _, _ =>
      match op2 OGe f, nop2 OGe s with
      | Some (s1, d1), Some (s2, d2) => teq s1 s2 ;; teq d1 d2
      | _, _ =>
      match nop2 OLe f, nop2 OGe s with
      | Some (s1, d1), Some (s2, d2) => teq s1 s2 ;; assert_lt d1 d2
      | _, _ => RErr
      end end end end end
  | None => la_taut_single x
  end.

(** la_mult_generic, extras.rs:167-224 *)
Definition match_comparison (o : op) (t : term) : outcome (term * term) :=
  match o with
  | OEquals | OLt | OGt | OLe | OGe => m_op2 o t
  | _ => RPanic
  end.
Definition flip_cmp (o : op) : outcome op :=
  match o with
  | OEquals => ROk OEquals | OLt => ROk OGt | OGt => ROk OLt | OLe => ROk OGe | OGe => ROk OLe
  | _ => RPanic
  end.
Definition la_mult_generic (is_pos : bool) : rule := fun c _ _ =>
  len_is c 1 ;; do x <- idx c 0 ; do i <- m_op2 OImplies x ; do a <- m_op2 OAnd (fst i) ;
  do mz <- m_op2 (if is_pos then OGt else OLt) (fst a) ;
  do z <- as_number_err (snd mz) ; rassert (Qeq_bool z 0) ;;
  match snd a with
  | TOp o args =>
      len_is args 2 ;;
      do l <- idx args 0 ; do r <- idx args 1 ;
      do o' <- (if is_pos then ROk o else flip_cmp o) ;
      do mlr <- match_comparison o' (snd i) ;
      do p <- m_op2 OMult (fst mlr) ; do q <- m_op2 OMult (snd mlr) ;
      teq (fst mz) (fst p) ;; teq (fst mz) (fst q) ;; teq l (snd p) ;; teq r (snd q)
  | _ => RErr
  end.
(** mod_simplify, extras.rs:226-254; [Integer::modulo] of crate rug is the Euclidean remainder *)
Definition int_literal (t : term) : outcome Z :=
  do v <- as_signed_number_err t ; rassert (Qis_int v) ;; ROk (Qnumer v).
Definition r_mod_simplify : rule := fun c _ _ =>
  len_is c 1 ;; do x <- idx c 0 ; do lr <- m_op2 OEquals x ; do t <- m_op2 OMod (fst lr) ;
  do a <- int_literal (fst t) ; do b <- int_literal (snd t) ;
  do r <- as_signed_number_err (snd lr) ;
  rassert (negb (Z.eqb b 0)) ;;
  rassert (Qeq_bool r (inject_Z (emod a b))).

(** ** Specification of the steps for which la_generic's strengthening is justified *)
(** an atom that denotes an integer *)
Definition int_atom (t : term) : bool := wt t && sort_eqb (sort_of t) SInt.
(** the strengthening applied to literal [phi] with coefficient [a] is valid: nothing is strengthened, or
    the left-hand side is an integer combination of integer atoms and the bound really is fractional *)
Definition strengthen_ok (phi : term) (a : Q) : bool :=
  match diseq_of phi with
  | ROk (o, d) =>
      let integral := forallb (fun p => int_atom (fst p) && Qis_int (snd p)) (fst d) in
      match o with
      | OGt => integral
      | OGe => is_integer_times (snd d) a || integral && negb (Qis_int (snd d))
      | _ => true
      end
  | _ => true
  end.
Fixpoint strengthen_all_ok (c : clause) (args : list Q) : bool :=
  match c, args with
  | phi :: cr, a :: ar => strengthen_ok phi a && strengthen_all_ok cr ar
  | _, _ => true
  end.
Definition la_ok (c : clause) (args : list term) : bool :=
  forallb divs_exact c &&
  match omap as_fraction_err args with ROk qs => strengthen_all_ok c qs | _ => true end.

(** ** Soundness *)
Section S.
  Context {I : interp}.
  Let F := iF I.
  Add Field FLA : (o_th (iF I)).
  Implicit Types E : env I.
  Local Open Scope of_scope.

  Definition nval E (t : term) : iF I := num (eval t E).
  Definition lsum E (l : list (term * Q)) : iF I :=
    fold_right (fun p acc => injQ (snd p) * nval E (fst p) + acc) 0 l.
  Definition lval E (lc : lcomb) : iF I := lsum E (fst lc) + injQ (snd lc).

  Lemma lsum_perm E l r : Permutation l r -> lsum E l = lsum E r.
  Proof. induction 1; simpl; try congruence. ring. Qed.
  Lemma lsum_insert E m k v old : im_get term_eqb m k = Some old ->
    lsum E (im_insert term_eqb m k v) = lsum E m + (injQ v - injQ old) * nval E k.
  Proof.
    induction m as [|[a b] r IH]; simpl; [discriminate|]. destruct (term_eqb k a) eqn:Ek.
    - apply term_eqb_eq in Ek. subst a. intros H; injection H as <-. simpl. ring.
    - intros H. simpl. rewrite IH by exact H. ring.
  Qed.
  Lemma lsum_insert_new E m k v : im_get term_eqb m k = None ->
    lsum E (im_insert term_eqb m k v) = lsum E m + injQ v * nval E k.
  Proof.
    induction m as [|[a b] r IH]; simpl; [intros _; ring|]. destruct (term_eqb k a) eqn:Ek; [discriminate|].
    intros H. simpl. rewrite IH by exact H. ring.
  Qed.
  Lemma lc_insert_val E lc k v : lval E (lc_insert lc k v) = lval E lc + injQ v * nval E k.
  Proof.
    unfold lc_insert. destruct (Qeq_bool v 0) eqn:Ev.
    - apply Qeq_bool_iff in Ev. rewrite (injQ_eq _ _ _ Ev), injQ_0. ring.
    - destruct (im_get term_eqb (fst lc) k) as [old|] eqn:Eg.
      + destruct (Qeq_bool (old + v) 0) eqn:Es; unfold lval; cbn [fst snd].
        * apply Qeq_bool_iff in Es.
          pose proof (lsum_perm E _ _ (im_swap_remove_perm term_eqb term_eqb_eq _ _ _ Eg)) as HP.
          rewrite HP. simpl. assert (HV : injQ v = - injQ old :> iF I).
          { apply (injQ_eq (iF I)) in Es. rewrite injQ_add, injQ_0 in Es.
            transitivity ((injQ old + injQ v : iF I) - injQ old); [ring|]. rewrite Es. ring. }
          rewrite HV. ring.
        * rewrite (lsum_insert E _ _ _ _ Eg), injQ_add. ring.
      + unfold lval; cbn [fst snd]. rewrite (lsum_insert_new E _ _ _ Eg). ring.
  Qed.

  Lemma fold_add E l x : fold_left oadd (map num (map (fun a => eval a E) l)) x
    = x + fold_right (fun a acc => nval E a + acc) 0 l.
  Proof.
    revert x. induction l as [|a r IH]; intros x; simpl; [ring|]. rewrite IH. unfold nval. ring.
  Qed.
  Lemma fold_sub E l x : fold_left osub (map num (map (fun a => eval a E) l)) x
    = x - fold_right (fun a acc => nval E a + acc) 0 l.
  Proof.
    revert x. induction l as [|a r IH]; intros x; simpl; [ring|]. rewrite IH. unfold nval. ring.
  Qed.
  Lemma add_all_val E (f : term -> lcomb -> outcome lcomb) q l : forall lc lc',
    Forall (fun t => forall lc lc', f t lc = ROk lc' -> lval E lc' = lval E lc + q * nval E t) l ->
    add_all f l lc = ROk lc' ->
    lval E lc' = lval E lc + q * fold_right (fun a acc => nval E a + acc) 0 l.
  Proof.
    induction l as [|a r IH]; simpl; intros lc lc' HF H.
    - injection H as <-. ring.
    - inversion HF as [|? ? H1 H2]; subst. apply obind_ok in H. destruct H as [lc1 [Ha H]].
      rewrite (IH _ _ H2 H), (H1 _ _ Ha). ring.
  Qed.

  Lemma add_other_val E t : divs_exact t = true -> forall coeff lc lc',
    add_other t coeff lc = ROk lc' -> lval E lc' = lval E lc + injQ coeff * nval E t.
  Proof.
    intros Hd coeff lc lc' H. unfold add_other in H. apply obind_ok in H. destruct H as [fr [Hf H]].
    destruct fr as [r|]; injection H as <-; [|apply lc_insert_val].
    unfold lval; cbn [fst snd]; unfold nval. rewrite (as_fraction_eval E _ _ Hf Hd). cbn [num].
    rewrite injQ_add, injQ_mul. ring.
  Qed.
  Lemma nval_neg_coeff E (q : Q) t : injQ (- q)%Q * nval E t = - (injQ q * nval E t).
  Proof. rewrite injQ_opp. ring. Qed.
  Lemma add_term_val E t : divs_exact t = true -> forall coeff lc lc',
    add_term t coeff lc = ROk lc' -> lval E lc' = lval E lc + injQ coeff * nval E t.
  Proof.
    induction t as [c|x s|f args IHf IHargs|o args IHargs|s|b vs t IHt|bs t IHbs IHt|o oargs args IHo IHargs] using term_ind';
      intros Hd coeff lc lc' H; try exact (add_other_val E _ Hd _ _ _ H).
    cbn [add_term] in H.
    pose proof (add_other_val E _ Hd coeff lc lc') as HO.
    apply divs_exact_op in Hd. rewrite forallb_forall in Hd.
    assert (IHA : forall q, Forall (fun t => forall lc lc', add_term t q lc = ROk lc' ->
               lval E lc' = lval E lc + injQ q * nval E t) args).
    { intros q. rewrite Forall_forall in *. intros t Ht l1 l2 Hl. apply (IHargs t Ht (Hd t Ht) _ _ _ Hl). }
    destruct (op_eqb o OAdd) eqn:E1.
    { apply op_eqb_eq in E1. subst o. rewrite (add_all_val E _ _ _ _ _ (IHA coeff) H).
      unfold nval at 2. cbn [eval eval_op num]. rewrite fold_add. ring. }
    destruct (op_eqb o OSub) eqn:E2.
    { apply op_eqb_eq in E2. subst o. destruct args as [|a [|b r]]; [discriminate| |].
      - specialize (IHA (- coeff)%Q). inversion IHA as [|? ? IH1 _]; subst. rewrite (IH1 _ _ H). rewrite nval_neg_coeff.
        unfold nval. cbn [eval map eval_op num]. ring.
      - apply obind_ok in H. destruct H as [lc1 [Ha H]].
        pose proof (IHA coeff) as IH1. inversion IH1 as [|? ? IHa _]; subst.
        pose proof (IHA (- coeff)%Q) as IH2. inversion IH2 as [|? ? _ IHr]; subst.
        rewrite (add_all_val E _ _ _ _ _ IHr H), (IHa _ _ Ha).
        replace (nval E (TOp OSub (a :: b :: r))) with
          (nval E a - fold_right (fun a acc => nval E a + acc) 0 (b :: r)).
        2:{ rewrite <- fold_sub. reflexivity. }
        rewrite injQ_opp. ring. }
    destruct (op_eqb o OMult) eqn:E3; [|exact (HO H)].
    apply op_eqb_eq in E3. subst o. destruct args as [|a [|b [|c r]]]; try exact (HO H).
    apply obind_ok in H. destruct H as [fa [Hfa H]]. apply obind_ok in H. destruct H as [fb [Hfb H]].
    assert (HM : nval E (TOp OMult [a; b]) = nval E a * nval E b).
    { unfold nval. simpl. ring. }
    destruct fa as [x|].
    - pose proof (IHA (x * coeff)%Q) as IH2. inversion IH2 as [|? ? _ IHr]; subst.
      inversion IHr as [|? ? IHb _]; subst. rewrite (IHb _ _ H), HM, injQ_mul. unfold nval.
      rewrite (as_fraction_eval E _ _ Hfa (Hd a (or_introl eq_refl))). cbn [num]. ring.
    - destruct fb as [y|].
      + pose proof (IHA (y * coeff)%Q) as IH2. inversion IH2 as [|? ? IHa _]; subst.
        rewrite (IHa _ _ H), HM, injQ_mul. unfold nval.
        rewrite (as_fraction_eval E _ _ Hfb (Hd b (or_intror (or_introl eq_refl)))). cbn [num]. ring.
      + injection H as <-. apply lc_insert_val.
  Qed.
  Lemma from_term_val E t lc : divs_exact t = true -> from_term t = ROk lc -> lval E lc = nval E t.
  Proof.
    intros Hd H. rewrite (add_term_val E t Hd _ _ _ H). unfold lc_new, lval. simpl. rewrite injQ_0, injQ_1. ring.
  Qed.
  Lemma lc_add_val E a b : lval E (lc_add a b) = lval E a + lval E b.
  Proof.
    unfold lc_add. set (r := fold_left _ (fst b) a).
    assert (HR : lval E r = lval E a + lsum E (fst b)).
    { unfold r. clear r. revert a. induction (fst b) as [|[k v] l IH]; intros a; cbn [fold_left].
      - simpl. ring.
      - rewrite IH, lc_insert_val. simpl. ring. }
    unfold lval in *. cbn [fst snd]. rewrite injQ_add.
    transitivity (lsum E (fst r) + injQ (snd r) + injQ (snd b)); [ring|]. rewrite HR. ring.
  Qed.
  Lemma lc_neg_val E a : lval E (lc_neg a) = - lval E a.
  Proof.
    unfold lc_neg, lval. cbn [fst snd]. rewrite injQ_opp.
    assert (HS : lsum E (map (fun p => (fst p, - snd p)%Q) (fst a)) = - lsum E (fst a)).
    { induction (fst a) as [|[k v] l IH]; simpl; [ring|]. rewrite IH, injQ_opp. ring. }
    rewrite HS. ring.
  Qed.
  Lemma lc_sub_val E a b : lval E (lc_sub a b) = lval E a - lval E b.
  Proof. unfold lc_sub. rewrite lc_add_val, lc_neg_val. ring. Qed.
  (** a linear combination read as a relation: variables on the left, constant on the right *)
  Definition drel E (o : op) (d : lcomb) : Prop :=
    match o with
    | OGt => injQ (snd d) < lsum E (fst d)
    | OGe => injQ (snd d) <= lsum E (fst d)
    | OEquals => lsum E (fst d) = injQ (snd d)
    | OLt => lsum E (fst d) < injQ (snd d)
    | OLe => lsum E (fst d) <= injQ (snd d)
    | _ => True
    end.
  Definition crel E (o : op) (a b : term) : Prop :=
    match o with
    | OGt => nval E b < nval E a
    | OGe => nval E b <= nval E a
    | OEquals => nval E a = nval E b
    | OLt => nval E a < nval E b
    | OLe => nval E a <= nval E b
    | _ => True
    end.
  Lemma cmp_holds E o a b : is_cmp o = true -> holds E (TOp o [a; b]) = true -> crel E o a b.
  Proof.
    destruct o; try discriminate; intros _ H; unfold holds in H; cbn [eval map eval_op truth chain] in H;
      apply andb_true_iff in H; destruct H as [H _]; unfold crel, nval.
    - apply veqb_eq in H. rewrite H. reflexivity.
    - apply oltb_lt; exact H.
    - apply oltb_lt; exact H.
    - exact H.
    - exact H.
  Qed.
  Lemma cmp_not_holds E o o' a b : negate_operator o = Some o' -> holds E (TOp o [a; b]) = false -> crel E o' a b.
  Proof.
    destruct o; try discriminate; intros Ho H; injection Ho as <-; unfold holds in H; cbn [eval map eval_op truth chain] in H;
      rewrite andb_true_r in H; unfold crel, nval.
    - apply oltb_nlt; exact H.
    - apply oltb_nlt; exact H.
    - exact H.
    - exact H.
  Qed.
  (** The disequality built from a literal holds whenever the literal is false. *)
  Lemma negate_inner_rel E t o args : negate_inner t = Some (o, args) -> holds E t = false ->
    forall a b, args = [a; b] -> crel E o a b.
  Proof.
    unfold negate_inner. intros H Ht a b ->.
    destruct (remove_negation t) as [x|] eqn:En.
    - apply op1_some in En. subst t. assert (Hx : holds E x = true).
      { change (holds E (tNot x) = false) in Ht. rewrite holds_not in Ht. destruct (holds E x); auto. }
      assert (HT : match negate_operator ONot with Some o' => Some (o', [x]) | None => None end = Some (o, [a; b]) -> crel E o a b)
        by discriminate.
      destruct x as [| | |ox lx| | | |]; try (exact (HT H)).
      destruct (is_cmp ox) eqn:Ec; [|discriminate]. injection H as -> ->. apply cmp_holds; auto.
    - destruct t as [| | |ot lt| | | |]; try discriminate. destruct (negate_operator ot) as [o'|] eqn:Eo; [|discriminate].
      injection H as -> ->. apply (cmp_not_holds E ot); auto.
  Qed.
  Lemma negate_inner_sub t o args : negate_inner t = Some (o, args) -> divs_exact t = true ->
    forallb divs_exact args = true.
  Proof.
    unfold negate_inner. intros H Hd.
    destruct (remove_negation t) as [x|] eqn:En.
    - apply op1_some in En. subst t. apply divs_exact_op in Hd. simpl in Hd. rewrite andb_true_r in Hd.
      destruct x as [| | |ox lx| | | |]; try discriminate.
      destruct (is_cmp ox); [|discriminate]. injection H as -> ->. apply divs_exact_op in Hd; auto.
    - destruct t as [| | |ot lt| | | |]; try discriminate. destruct (negate_operator ot) as [o'|] eqn:Eo; [|discriminate].
      injection H as -> ->. apply divs_exact_op in Hd; auto.
  Qed.
  Lemma negate_inner_op t o args : negate_inner t = Some (o, args) -> is_cmp o = true.
  Proof.
    unfold negate_inner. intros H.
    destruct (remove_negation t) as [x|] eqn:En.
    - apply op1_some in En. subst t. destruct x as [| | |ox lx| | | |]; try discriminate.
      destruct (is_cmp ox) eqn:Ec; [|discriminate]. injection H as -> ->. exact Ec.
    - destruct t as [| | |ot lt| | | |]; try discriminate. destruct ot; try discriminate; injection H as <- <-; reflexivity.
  Qed.
  Lemma drel_move E o d : is_cmp o = true ->
    match o with
    | OGt => 0 < lval E d | OGe => 0 <= lval E d | OEquals => lval E d = 0
    | OLt => lval E d < 0 | OLe => lval E d <= 0 | _ => True end ->
    drel E o (fst d, - snd d)%Q.
  Proof.
    unfold drel, lval. cbn [fst snd]. rewrite injQ_opp. set (s := lsum E (fst d)). set (c := injQ (snd d)).
    destruct o; try discriminate; intros _ H.
    - transitivity (s + c - c); [ring|]. rewrite H. ring.
    - apply lt_sub. replace (- c - s) with (0 - (s + c)) by ring. apply lt_sub in H. exact H.
    - apply lt_sub. replace (s - - c) with (s + c) by ring. exact H.
    - apply le_sub. replace (- c - s) with (0 - (s + c)) by ring. apply le_sub in H. exact H.
    - apply le_sub. replace (s - - c) with (s + c) by ring. exact H.
  Qed.
  Lemma lsum_neg E d : lsum E (fst (lc_neg d)) = - lsum E (fst d).
  Proof.
    unfold lc_neg. cbn [fst]. induction (fst d) as [|[k v] l IH]; simpl; [ring|]. rewrite IH, injQ_opp. ring.
  Qed.
  Lemma drel_neg E d : (drel E OLt d -> drel E OGt (lc_neg d)) /\ (drel E OLe d -> drel E OGe (lc_neg d)).
  Proof.
    unfold drel. rewrite lsum_neg. unfold lc_neg. cbn [snd]. rewrite injQ_opp.
    split; intros H; [apply -> opp_lt|apply -> opp_le]; exact H.
  Qed.
  Lemma diseq_of_rel E t o d : diseq_of t = ROk (o, d) -> divs_exact t = true -> holds E t = false -> drel E o d.
  Proof.
    unfold diseq_of, negate_disequality. intros H Hd Ht.
    apply obind_ok in H. destruct H as [[[o0 s1] s2] [Hn H]].
    apply obind_ok in Hn. destruct Hn as [[o1 args] [Hi Hn]]. apply ok_or_ok in Hi. cbn [fst snd] in Hn.
    destruct args as [|a [|b [|c r]]]; try discriminate.
    apply obind_ok in Hn. destruct Hn as [la [Hla Hn]]. apply obind_ok in Hn. destruct Hn as [lb [Hlb Hn]].
    injection Hn as -> -> ->.
    pose proof (negate_inner_sub _ _ _ Hi Hd) as Hab. simpl in Hab. rewrite andb_true_r in Hab.
    apply andb_true_iff in Hab. destruct Hab as [Hda Hdb].
    pose proof (negate_inner_rel E _ _ _ Hi Ht a b eq_refl) as Hr.
    pose proof (negate_inner_op _ _ _ Hi) as Hc.
    assert (HV : lval E (lc_sub s1 s2) = nval E a - nval E b).
    { rewrite lc_sub_val, (from_term_val E a _ Hda Hla), (from_term_val E b _ Hdb Hlb). reflexivity. }
    assert (HD : drel E o0 (fst (lc_sub s1 s2), - snd (lc_sub s1 s2))%Q).
    { apply drel_move; [exact Hc|]. rewrite HV. destruct o0; try discriminate Hc; unfold crel in Hr.
      - rewrite Hr. ring.
      - apply lt_sub. replace (0 - (nval E a - nval E b)) with (nval E b - nval E a) by ring. apply -> lt_sub. exact Hr.
      - apply lt_sub in Hr. exact Hr.
      - apply le_sub. replace (0 - (nval E a - nval E b)) with (nval E b - nval E a) by ring. apply -> le_sub. exact Hr.
      - apply le_sub in Hr. exact Hr. }
    destruct o0; try discriminate Hc; injection H as <- <-; try exact HD; apply drel_neg; exact HD.
  Qed.
  Lemma diseq_of_op t o d : diseq_of t = ROk (o, d) -> o = OEquals \/ o = OGt \/ o = OGe.
  Proof.
    unfold diseq_of, negate_disequality. intros H.
    apply obind_ok in H. destruct H as [[[o0 s1] s2] [Hn H]].
    apply obind_ok in Hn. destruct Hn as [[o1 args] [Hi Hn]]. apply ok_or_ok in Hi. cbn [fst snd] in Hn.
    destruct args as [|a [|b [|c r]]]; try discriminate.
    apply obind_ok in Hn. destruct Hn as [la [Hla Hn]]. apply obind_ok in Hn. destruct Hn as [lb [Hlb Hn]].
    injection Hn as -> -> ->. pose proof (negate_inner_op _ _ _ Hi) as Hc.
    destruct o0; try discriminate Hc; injection H as <- <-; auto.
  Qed.

  (** integer combinations *)
  Lemma int_atom_val E t : env_ok E -> int_atom t = true -> exists z, nval E t = inj z.
  Proof.
    intros HE H. apply andb_true_iff in H. destruct H as [Hw Hs]. apply sort_eqb_eq in Hs.
    pose proof (eval_dom t E Hw HE) as HD. rewrite Hs in HD. cbv [idom dom_] in HD.
    unfold nval. destruct (eval t E); try discriminate. apply oeqb_eq in HD. simpl. eauto.
  Qed.
  Definition integral_lc (l : list (term * Q)) : bool := forallb (fun p => int_atom (fst p) && Qis_int (snd p)) l.
  Lemma injQ_int (q : Q) : Qis_int q = true -> injQ q = inj (Qnumer q) :> iF I.
  Proof. intros H. rewrite (injQ_eq _ _ _ (Qis_int_numer _ H)). apply injQ_Z. Qed.
  Lemma lsum_multiple E l g : env_ok E -> integral_lc l = true ->
    (forall p, In p l -> (g | Qnumer (snd p))%Z) -> exists z, lsum E l = inj (g * z).
  Proof.
    intros HE. induction l as [|[k c] r IH]; simpl; intros HI HG.
    - exists 0%Z. rewrite Z.mul_0_r. reflexivity.
    - apply andb_true_iff in HI. destruct HI as [HI1 HI2]. apply andb_true_iff in HI1. destruct HI1 as [Hk Hc].
      destruct (IH HI2) as [z Hz]; [intros p Hp; apply HG; auto|].
      destruct (int_atom_val E k HE Hk) as [y Hy]. destruct (HG (k, c) (or_introl eq_refl)) as [x Hx].
      cbn [fst snd] in Hx. exists (x * y + z)%Z. rewrite Hz, Hy, (injQ_int _ Hc), Hx. rewrite !inj_mul, !inj_add, !inj_mul. ring.
  Qed.
  Lemma gcd_loop_pos l r : (1 <= gcd_loop l r)%Z.
  Proof.
    revert r. induction l as [|[k c] l IH]; simpl; intros r; [lia|].
    destruct (Z.eqb r 1); [lia|]. destruct (Qis_int c); [apply IH|lia].
  Qed.
  (** the gcd divides the start value (up to sign) and all coefficients *)
  Lemma gcd_loop_div l r : forallb (fun p : term * Q => Qis_int (snd p)) l = true ->
    (gcd_loop l r | r)%Z /\ (forall p, In p l -> (gcd_loop l r | Qnumer (snd p))%Z) \/ gcd_loop l r = 1%Z.
  Proof.
    revert r. induction l as [|[k c] l IH]; simpl; intros r HI.
    - destruct (Z.le_gt_cases r 1); [right; lia|]. left. rewrite Z.max_r by lia. split; [exists 1%Z; lia|contradiction].
    - apply andb_true_iff in HI. destruct HI as [Hc HI]. rewrite Hc. destruct (Z.eqb r 1); [right; reflexivity|].
      destruct (IH (Z.gcd r (Qnumer c)) HI) as [[H1 H2]|H1]; [|right; exact H1].
      left. split; [etransitivity; [exact H1|apply Z.gcd_divide_l]|].
      intros p [<-|Hp]; [etransitivity; [exact H1|apply Z.gcd_divide_r]|auto].
  Qed.
  Lemma Qnumer_inject z : Qnumer (inject_Z z) = z.
  Proof. unfold Qnumer. rewrite (Qred_int _ z) by reflexivity. reflexivity. Qed.
  Lemma floor_q_le (q : Q) : (injQ (Qfloor_q q) : iF I) <= injQ q.
  Proof. apply injQ_le. apply Qfloor_le. Qed.
  Lemma integral_coeffs l : integral_lc l = true -> forallb (fun p : term * Q => Qis_int (snd p)) l = true.
  Proof.
    unfold integral_lc. rewrite !forallb_forall. intros H p Hp. specialize (H p Hp). apply andb_true_iff in H. tauto.
  Qed.
  Lemma strengthen_floor E d : env_ok E -> integral_lc (fst d) = true ->
    injQ (Qfloor_q (snd d)) < lsum E (fst d) -> injQ (Qfloor_q (snd d) + 1)%Q <= lsum E (fst d).
  Proof.
    intros HE HI H. destruct (lsum_multiple E (fst d) 1 HE HI) as [z Hz].
    { intros p _. exists (Qnumer (snd p)). lia. }
    rewrite Hz in *. unfold Qfloor_q in *. rewrite injQ_Z in H. apply inj_lt in H.
    rewrite injQ_add, injQ_Z, injQ_1, <- inj_1, <- inj_add. apply inj_le. lia.
  Qed.
  Lemma strengthen_rel E phi o d a o' d' : env_ok E ->
    diseq_of phi = ROk (o, d) -> strengthen o d a = ROk (o', d') -> strengthen_ok phi a = true ->
    drel E o d -> drel E o' d'.
  Proof.
    intros HE Hq Hs Hok HD. unfold strengthen_ok in Hok. rewrite Hq in Hok. fold (integral_lc (fst d)) in Hok.
    destruct (diseq_of_op _ _ _ Hq) as [-> | [-> | ->]].
    - injection Hs as <- <-. exact HD.
    - cbn [strengthen] in Hs. unfold drel in HD.
      assert (HF : injQ (Qfloor_q (snd d)) < lsum E (fst d)) by (eapply le_lt_trans; [apply floor_q_le|exact HD]).
      destruct (is_integer_times (snd d) a).
      + injection Hs as <- <-. unfold drel. cbn [fst snd]. unfold coefficients_gcd. cbn [fst snd].
        unfold Qfloor_q at 2. rewrite Qis_int_inject. unfold Qfloor_q at 2. rewrite Qnumer_inject.
        set (c := Qfloor (snd d)) in *.
        destruct (gcd_loop_div (fst d) c (integral_coeffs _ Hok)) as [[H1 H2]|H1].
        * pose proof (gcd_loop_pos (fst d) c) as Hg. set (g := gcd_loop (fst d) c) in *.
          destruct (lsum_multiple E (fst d) g HE Hok H2) as [z Hz]. destruct H1 as [k Hk].
          rewrite Hz in *. unfold Qfloor_q in *. fold c in HF |- *. rewrite injQ_Z in HF. apply inj_lt in HF.
          rewrite injQ_add, !injQ_Z, <- inj_add. apply inj_le. rewrite Hk in HF |- *. clear - HF Hg. assert (Hkz : (k < z)%Z) by (apply (Zmult_lt_reg_r _ _ g); lia). nia.
        * rewrite H1. apply strengthen_floor; auto.
      + injection Hs as <- <-. unfold drel. cbn [fst snd]. apply strengthen_floor; auto.
    - cbn [strengthen] in Hs. unfold drel in HD. destruct (is_integer_times (snd d) a) eqn:Ei.
      + injection Hs as <- <-. exact HD.
      + injection Hs as <- <-. simpl in Hok. apply andb_true_iff in Hok. destruct Hok as [HI Hc].
        apply negb_true_iff in Hc. unfold drel. cbn [fst snd]. apply strengthen_floor; auto.
        eapply lt_le_trans; [|exact HD]. apply injQ_lt.
        destruct (Qlt_le_dec (Qfloor_q (snd d)) (snd d)) as [Hl|Hl]; [exact Hl|].
        exfalso. assert (HE' : (snd d == inject_Z (Qfloor (snd d)))%Q).
        { apply Qle_antisym; [exact Hl|apply Qfloor_le]. }
        assert (Qis_int (snd d) = true); [|congruence].
        unfold Qis_int. destruct (snd d) as [n m]. unfold Qeq in HE'. simpl in *.
        apply Z.eqb_eq. rewrite Z.mul_1_r in HE'. rewrite HE'. apply Z.mod_mul. lia.
  Qed.
  Lemma lsum_mul E s l : lsum E (map (fun p => (fst p, snd p * s)%Q) l) = injQ s * lsum E l.
  Proof. induction l as [|[k v] l IH]; simpl; [ring|]. rewrite IH, injQ_mul. ring. Qed.
  Lemma lc_mul_vals E s d : lsum E (fst (lc_mul s d)) = injQ s * lsum E (fst d) /\
    (injQ (snd (lc_mul s d)) : iF I) = injQ s * injQ (snd d).
  Proof.
    unfold lc_mul. destruct (Qeq_bool s 0) eqn:E0.
    - apply Qeq_bool_iff in E0. rewrite (injQ_eq _ _ _ E0), injQ_0. simpl. rewrite injQ_0. split; ring.
    - destruct (Qeq_bool s 1) eqn:E1.
      + apply Qeq_bool_iff in E1. rewrite (injQ_eq _ _ _ E1), injQ_1. split; ring.
      + cbn [fst snd]. rewrite lsum_mul, injQ_mul. split; ring.
  Qed.
  Lemma drel_mul E o d a : (o = OEquals \/ o = OGe) ->
    drel E o d -> drel E o (lc_mul (match o with OEquals => a | _ => Qabs a end) d).
  Proof.
    intros Ho H. unfold drel in *.
    destruct Ho as [-> | ->]; [destruct (lc_mul_vals E a d) as [H1 H2]|destruct (lc_mul_vals E (Qabs a) d) as [H1 H2]];
      rewrite H1, H2.
    - rewrite H. reflexivity.
    - apply mul_le_l; [|exact H]. rewrite <- (injQ_0 (iF I)). apply injQ_le. apply Qabs_nonneg.
  Qed.
  Lemma lc_add_parts E a b : lsum E (fst (lc_add a b)) = lsum E (fst a) + lsum E (fst b) /\
    (injQ (snd (lc_add a b)) : iF I) = injQ (snd a) + injQ (snd b).
  Proof.
    unfold lc_add. set (r := fold_left _ (fst b) a).
    assert (HR : (lsum E (fst r) = lsum E (fst a) + lsum E (fst b)) /\ (snd r = snd a)).
    { unfold r. clear r. revert a. induction (fst b) as [|[k v] l IH]; intros a; cbn [fold_left].
      - simpl. split; [ring|reflexivity].
      - destruct (IH (lc_insert a k v)) as [H1 H2]. cbn [fst snd].
        assert (HI : snd (lc_insert a k v) = snd a).
        { unfold lc_insert. destruct (Qeq_bool v 0); [reflexivity|]. destruct (im_get _ _ _); [destruct (Qeq_bool _ 0)|]; reflexivity. }
        rewrite H1, H2, HI. split; [|reflexivity].
        pose proof (lc_insert_val E a k v) as HV. unfold lval in HV. rewrite HI in HV.
        assert (HV2 : lsum E (fst (lc_insert a k v)) = lsum E (fst a) + injQ v * nval E k).
        { transitivity (lsum E (fst (lc_insert a k v)) + injQ (snd a) - injQ (snd a)); [ring|]. rewrite HV. ring. }
        rewrite HV2. simpl. ring. }
    destruct HR as [H1 H2]. cbn [fst snd]. rewrite H1, H2, injQ_add. split; reflexivity.
  Qed.
  Lemma drel_add E o1 d1 o2 d2 :
    (o1 = OEquals \/ o1 = OGe) -> (o2 = OEquals \/ o2 = OGe) ->
    drel E o1 d1 -> drel E o2 d2 -> drel E (acc_op o1 o2) (lc_add d1 d2) /\ (acc_op o1 o2 = OEquals \/ acc_op o1 o2 = OGe).
  Proof.
    intros Ho1 Ho2 H1 H2. destruct (lc_add_parts E d1 d2) as [HA HB]. unfold drel in *.
    destruct Ho1 as [-> | ->], Ho2 as [-> | ->]; cbn [acc_op] in *; rewrite ?HA, ?HB; split; auto.
    - rewrite H1, H2. reflexivity.
    - rewrite H1. apply add_le_l. exact H2.
    - rewrite H2. apply add_le_r. exact H1.
    - apply add_le; auto.
  Qed.
  Lemma strengthen_op o d a o' d' : o = OEquals \/ o = OGt \/ o = OGe -> strengthen o d a = ROk (o', d') ->
    o' = OEquals \/ o' = OGe.
  Proof.
    intros [-> | [-> | ->]] H; cbn [strengthen] in H; [|destruct (is_integer_times _ _)..]; injection H as <- <-; auto.
  Qed.
  Lemma la_fold_rel E c : env_ok E -> forall qs acc fin,
    la_fold c qs acc = ROk fin -> List.length qs = List.length c ->
    forallb divs_exact c = true -> strengthen_all_ok c qs = true ->
    (forall t, In t c -> holds E t = false) ->
    (fst acc = OEquals \/ fst acc = OGe) -> drel E (fst acc) (snd acc) ->
    (fst fin = OEquals \/ fst fin = OGe) /\ drel E (fst fin) (snd fin).
  Proof.
    intros HE. induction c as [|phi c IH]; intros [|a qs] acc fin H HL Hd Hs Hf Ho HD; try discriminate.
    - injection H as <-. auto.
    - cbn [la_fold] in H. apply obind_ok in H. destruct H as [[o d] [Hl H]]. cbn [fst snd] in H.
      injection HL as HL. simpl in Hd, Hs. apply andb_true_iff in Hd, Hs. destruct Hd as [Hd1 Hd], Hs as [Hs1 Hs].
      unfold la_lit in Hl. apply obind_ok in Hl. destruct Hl as [[o0 d0] [Hq Hl]]. cbn [fst snd] in Hl.
      apply obind_ok in Hl. destruct Hl as [[o1 d1] [Hst Hl]]. cbn [fst snd] in Hl. injection Hl as <- <-.
      pose proof (diseq_of_rel E _ _ _ Hq Hd1 (Hf phi (or_introl eq_refl))) as HR.
      pose proof (strengthen_rel E _ _ _ _ _ _ HE Hq Hst Hs1 HR) as HR1.
      pose proof (strengthen_op _ _ _ _ _ (diseq_of_op _ _ _ Hq) Hst) as Ho1.
      pose proof (drel_mul E o1 d1 a Ho1 HR1) as HR2.
      destruct (drel_add E _ _ _ _ Ho Ho1 HD HR2) as [HA HB].
      eapply IH; [exact H|exact HL|exact Hd|exact Hs|intros t Ht; apply Hf; right; exact Ht|exact HB|exact HA].
  Qed.
End S.

Lemma omap_length {A B} (f : A -> outcome B) l r : omap f l = ROk r -> List.length r = List.length l.
Proof.
  revert r. induction l as [|a l IH]; simpl; intros r H; [injection H as <-; reflexivity|].
  apply obind_ok in H. destruct H as [b [_ H]]. apply obind_ok in H. destruct H as [bs [Hb H]]. injection H as <-.
  simpl. f_equal. auto.
Qed.
Lemma la_generic_sound c ps args : r_la_generic c ps args = ROk tt -> la_ok c args = true -> entails ps c.
Proof.
  intros H Hok I E HE _. unfold r_la_generic in H. unfold la_ok in Hok. apply andb_true_iff in Hok. destruct Hok as [Hd Hs].
  apply obind_ok in H. destruct H as [? [HL H]]. apply len_is_ok in HL.
  apply obind_ok in H. destruct H as [qs [Hqs H]]. rewrite Hqs in Hs.
  apply obind_ok in H. destruct H as [[o [l r]] [Hf H]]. apply rassert_ok in H. cbn [fst snd] in H.
  apply andb_true_iff in H. destruct H as [Hl H]. destruct l; [|discriminate]. apply negb_true_iff in H.
  destruct (existsb (holds E) c) eqn:Ec; [apply clause_holds_b; exact Ec|]. exfalso.
  assert (HF : forall t, In t c -> holds E t = false).
  { intros t Ht. destruct (holds E t) eqn:Et; [|reflexivity]. rewrite <- Ec. symmetry. apply existsb_exists. eauto. }
  destruct (la_fold_rel E c HE qs (OEquals, lc_new) _ Hf) as [Ho HD]; auto.
  { rewrite (omap_length _ _ _ Hqs). exact HL. }
  { unfold drel, lc_new. simpl. rewrite injQ_0. reflexivity. }
  cbn [fst snd] in *. unfold diseq_true in H.
  destruct Ho as [-> | ->]; unfold drel in HD; simpl in HD; rewrite <- (injQ_0 (iF I)) in HD.
  - apply injQ_inj in HD. apply Qeq_alt in HD. rewrite HD in H. discriminate.
  - apply injQ_le in HD. destruct (Qcompare 0 r) eqn:Eq; try discriminate. apply Qlt_alt in Eq.
    exact (Qlt_not_le _ _ Eq HD).
Qed.

(** two numbers with equal numeric value are equal *)
Definition num_term (t : term) : bool := wt t && is_num_sort (sort_of t).
Lemma num_term_eval {I} (E : env I) t : env_ok E -> num_term t = true -> eval t E = VN (nval E t).
Proof.
  intros HE H. apply andb_true_iff in H. destruct H as [Hw Hs].
  pose proof (eval_dom t E Hw HE) as HD. unfold nval.
  destruct (sort_of t); try discriminate Hs; cbv [idom dom_] in HD; destruct (eval t E); try discriminate; reflexivity.
Qed.
Lemma num_veqb {I} (E : env I) a b : env_ok E -> num_term a = true -> num_term b = true ->
  veqb (eval a E) (eval b E) = oeqb (nval E a) (nval E b).
Proof. intros HE Ha Hb. rewrite (num_term_eval E a HE Ha), (num_term_eval E b HE Hb). reflexivity. Qed.
Lemma wt_arg o l a : wt (TOp o l) = true -> In a l -> wt a = true.
Proof. cbn [wt]. intros H Ha. apply andb_true_iff in H. destruct H as [H _]. rewrite forallb_forall in H. auto. Qed.
Lemma le_args a b : wt (TOp OLe [a; b]) = true -> num_term a = true /\ num_term b = true.
Proof.
  cbn [wt forallb map op_wt]. rewrite !andb_true_r. intros H. apply andb_true_iff in H. destruct H as [H1 H2].
  apply andb_true_iff in H1. cbn in H2. apply andb_true_iff in H2. unfold num_term. destruct H1 as [-> ->].
  destruct H2 as [-> ->]. split; reflexivity.
Qed.
Lemma holds_le {I} (E : env I) a b : holds E (TOp OLe [a; b]) = oleb (nval E a) (nval E b).
Proof. unfold holds, nval. cbn. rewrite andb_true_r. reflexivity. Qed.
Lemma holds_ge {I} (E : env I) a b : holds E (TOp OGe [a; b]) = oleb (nval E b) (nval E a).
Proof. unfold holds, nval. cbn. rewrite andb_true_r. reflexivity. Qed.
Lemma holds_lt {I} (E : env I) a b : holds E (TOp OLt [a; b]) = oltb (nval E a) (nval E b).
Proof. unfold holds, nval. cbn. rewrite andb_true_r. reflexivity. Qed.
Lemma holds_gt {I} (E : env I) a b : holds E (TOp OGt [a; b]) = oltb (nval E b) (nval E a).
Proof. unfold holds, nval. cbn. rewrite andb_true_r. reflexivity. Qed.

Lemma r_la_rw_eq_sound : rule_sound r_la_rw_eq.
Proof.
  intros c ps args H Hc _ I E HE _. unfold r_la_rw_eq in H. rinv. apply clause_holds_one.
  unfold clause_wt in Hc. simpl in Hc. rewrite andb_true_r in Hc.
  match goal with |- holds E (TOp OEquals [?l; ?r]) = true => set (L := l) in *; set (R := r) in * end.
  change (holds E (tEq L R) = true). rewrite holds_eq_bool; auto.
  2:{ apply (bool_eq_l _ _ Hc). reflexivity. } 2:{ apply (bool_eq_l _ _ Hc). reflexivity. }
  subst L R. rewrite holds_and2, !holds_le, holds_eq'.
  apply bool_term_wt, eq_args_wt in Hc. destruct Hc as [_ [Hc _]].
  pose proof (wt_arg _ _ _ Hc (or_introl eq_refl)) as Hc1. apply le_args in Hc1. destruct Hc1 as [H1 H2].
  rewrite num_veqb by auto. unfold oeqb. apply eqb_reflx.
Qed.
Lemma r_la_disequality_sound : rule_sound r_la_disequality.
Proof.
  intros c ps args H Hc _ I E HE _. unfold r_la_disequality, not_op2 in H. rinv. apply clause_holds_one.
  unfold clause_wt in Hc. cbn [forallb] in Hc. rewrite andb_true_r in Hc. apply bool_term_wt in Hc.
  pose proof (wt_arg _ _ _ Hc (or_intror (or_introl eq_refl))) as Hc1.
  pose proof (wt_arg _ _ _ Hc1 (or_introl eq_refl)) as Hc2. apply le_args in Hc2. destruct Hc2 as [H1 H2].
  rewrite holds_or. cbn [existsb]. unfold tNot. rewrite !holds_not', !holds_le, holds_eq', num_veqb by auto. unfold oeqb.
  destruct (oleb _ _), (oleb _ _); reflexivity.
Qed.
Lemma r_la_totality_sound : rule_sound r_la_totality.
Proof.
  intros c ps args H Hc _ I E HE _. unfold r_la_totality in H. rinv. apply clause_holds_one.
  rewrite holds_or2, !holds_le. apply orb_true_iff. apply ole_total.
Qed.
Lemma nop2_some o t p : nop2 o t = Some p -> t = tNot (TOp o [fst p; snd p]).
Proof.
  unfold nop2. destruct (remove_negation t) as [x|] eqn:En; [|discriminate]. apply op1_some in En. subst.
  destruct p. intros H. apply op2_some in H. subst. reflexivity.
Qed.
Lemma signed_nval {I} (E : env I) t q : as_signed_number t = Some q -> nval E t = injQ q.
Proof. intros H. unfold nval. rewrite (as_signed_number_eval E _ _ H). reflexivity. Qed.
Lemma assert_le_ok {I} (E : env I) a b u : assert_le a b = ROk u -> ole (nval E a) (nval E b).
Proof.
  unfold assert_le, as_signed_number_err. intros H. apply obind_ok in H. destruct H as [x [Hx H]].
  apply obind_ok in H. destruct H as [y [Hy H]]. apply rassert_ok in H. apply ok_or_ok in Hx, Hy.
  rewrite (signed_nval E _ _ Hx), (signed_nval E _ _ Hy). apply injQ_le. apply Qle_bool_iff. exact H.
Qed.
Lemma assert_lt_ok {I} (E : env I) a b u : assert_lt a b = ROk u -> olt (nval E a) (nval E b).
Proof.
  unfold assert_lt, as_signed_number_err. intros H. apply obind_ok in H. destruct H as [x [Hx H]].
  apply obind_ok in H. destruct H as [y [Hy H]]. apply rassert_ok in H. apply ok_or_ok in Hx, Hy.
  rewrite (signed_nval E _ _ Hx), (signed_nval E _ _ Hy). apply injQ_lt.
  apply negb_true_iff in H. apply Qnot_le_lt. intros Hq. apply Qle_bool_iff in Hq. congruence.
Qed.
Lemma la_taut_single_sound {I} (E : env I) t : la_taut_single t = ROk tt -> divs_exact t = true -> holds E t = true.
Proof.
  intros H Hd. unfold la_taut_single in H. apply obind_ok in H. destruct H as [[o [l r]] [Hq H]].
  apply rassert_ok in H. cbn [fst snd] in H. apply andb_true_iff in H. destruct H as [Hl H]. destruct l; [|discriminate].
  destruct (holds E t) eqn:Et; [reflexivity|]. exfalso.
  pose proof (diseq_of_rel E _ _ _ Hq Hd Et) as HD. unfold drel in HD. simpl in HD.
  apply orb_true_iff in H. destruct H as [H|H].
  - apply negb_true_iff in H. assert (Hr : (0 < r)%Q).
    { apply Qnot_le_lt. intros Hq'. apply Qle_bool_iff in Hq'. congruence. }
    assert (HF : olt o0 (injQ r : iF I)). { rewrite <- (injQ_0 (iF I)). apply injQ_lt. exact Hr. }
    destruct (diseq_of_op _ _ _ Hq) as [-> | [-> | ->]].
    + rewrite HD in HF. apply (lt_irrefl _ _ HF).
    + apply (lt_irrefl _ _ (lt_trans _ _ _ _ HF HD)).
    + apply (lt_irrefl _ _ (lt_le_trans _ _ _ _ HF HD)).
  - apply andb_true_iff in H. destruct H as [Ho H]. apply op_eqb_eq in Ho. subst o. apply Qeq_bool_iff in H.
    rewrite (injQ_eq _ _ _ H), injQ_0 in HD. apply (lt_irrefl _ _ HD).
Qed.
(** la_tautology is sound up to the reading of inexact [div] of numerals *)
Lemma la_tautology_sound c ps args : r_la_tautology c ps args = ROk tt -> forallb divs_exact c = true -> entails ps c.
Proof.
  intros H Hd I E HE _. unfold r_la_tautology in H.
  apply obind_ok in H. destruct H as [? [H1 H]]. apply len_is_ok, len1 in H1. destruct H1 as [y ->].
  cbn [idx nth_error unwrap obind] in H. apply clause_holds_one.
  simpl in Hd. rewrite andb_true_r in Hd.
  destruct (op2 OOr y) as [[f s]|] eqn:Ey; [|apply la_taut_single_sound; auto].
  apply op2_some in Ey. subst y. clear Hd. rewrite holds_or2.
  destruct (nop2 OLe f) as [[s1 d1]|] eqn:En1.
  1: destruct (op2 OLe s) as [[s2 d2]|] eqn:Eo1.
  { apply nop2_some in En1. apply op2_some in Eo1. subst. cbn [fst snd] in *.
    apply obind_ok in H. destruct H as [? [Ht H]]. apply teq_ok in Ht. subst.
    apply (assert_le_ok E) in H. unfold tNot. rewrite holds_not', !holds_le.
    destruct (oleb (nval E s2) (nval E d1)) eqn:El; [|reflexivity]. simpl. eapply le_trans; eauto. }
  all: destruct (op2 OLe f) as [[s3 d3]|] eqn:Eo2.
  1: { apply nop2_some in En1. apply op2_some in Eo2. subst. discriminate. }
  2: destruct (nop2 OLe s) as [[s4 d4]|] eqn:En2.
  2: { apply nop2_some in En2. apply op2_some in Eo2. subst. cbn [fst snd] in *.
    apply obind_ok in H. destruct H as [? [Ht H]]. apply teq_ok in Ht. apply teq_ok in H. subst.
    unfold tNot. rewrite holds_not'. apply orb_negb_r. }
  all: destruct (nop2 OGe f) as [[s5 d5]|] eqn:En3.
  1: { apply nop2_some in En1. apply nop2_some in En3. subst. discriminate. }
  2: { apply nop2_some in En3. apply op2_some in Eo2. subst. discriminate. }
  3: destruct (op2 OGe s) as [[s6 d6]|] eqn:Eo3.
  3: { apply nop2_some in En3. apply op2_some in Eo3. subst. cbn [fst snd] in *.
    apply obind_ok in H. destruct H as [? [Ht H]]. apply teq_ok in Ht. subst.
    apply (assert_le_ok E) in H. unfold tNot. rewrite holds_not', !holds_ge.
    destruct (oleb (nval E d5) (nval E s6)) eqn:El; [|reflexivity]. simpl. eapply le_trans; eauto. }
  all: destruct (op2 OGe f) as [[s7 d7]|] eqn:Eo4.
  all: try (destruct (nop2 OGe s) as [[s8 d8]|] eqn:En4).
  all: repeat match goal with
       | Hx : nop2 _ _ = Some _ |- _ => apply nop2_some in Hx; cbn [fst snd] in Hx
       | Hx : op2 _ _ = Some _ |- _ => apply op2_some in Hx
       end.
  all: subst; try discriminate.
  all: try (match goal with Hx : tNot _ = TOp _ _ |- _ => discriminate Hx | Hx : TOp _ _ = TOp _ _ |- _ => discriminate Hx end).
  all: apply obind_ok in H; destruct H as [? [Ht H]]; apply teq_ok in Ht; subst.
  all: try (apply teq_ok in H; subst; unfold tNot; rewrite holds_not'; apply orb_negb_r).
  all: apply (assert_lt_ok E) in H; unfold tNot; rewrite !holds_not', holds_le, holds_ge.
  all: match goal with |- negb (oleb ?x ?y) || negb (oleb ?z ?x) = true =>
         destruct (oleb x y) eqn:E1, (oleb z x) eqn:E2; try reflexivity; exfalso;
         apply (lt_irrefl _ x); apply (le_lt_trans _ _ _ _ E1); eapply lt_le_trans; [exact H|exact E2] end.
Qed.
Lemma nval_mult {I} (E : env I) a b : nval E (TOp OMult [a; b]) = omul (nval E a) (nval E b).
Proof. unfold nval. simpl. rewrite omul_1_l. reflexivity. Qed.
Lemma eval_mult {I} (E : env I) a b : eval (TOp OMult [a; b]) E = VN (omul (nval E a) (nval E b)).
Proof. unfold nval. simpl. rewrite omul_1_l. reflexivity. Qed.
Section Mul.
  Context (F : ofield).
  Add Field FMul : (o_th F).
  Local Open Scope of_scope.
  Lemma mul_neg_le (m x y : F) : m < 0 -> x <= y -> m * y <= m * x.
  Proof.
    intros Hm H. apply opp_pos in Hm. apply le_sub.
    replace (m * x - m * y) with ((- m) * (y - x)) by ring.
    apply mul_nonneg; [apply lt_le; exact Hm|]. apply -> le_sub. exact H.
  Qed.
  Lemma mul_neg_lt (m x y : F) : m < 0 -> x < y -> m * y < m * x.
  Proof.
    intros Hm H. apply opp_pos in Hm. apply lt_sub.
    replace (m * x - m * y) with ((- m) * (y - x)) by ring.
    apply mul_pos; [exact Hm|]. apply -> lt_sub. exact H.
  Qed.
End Mul.
Lemma la_mult_sound b : rule_sound (la_mult_generic b).
Proof.
  intros c ps args H _ _ I E HE _. unfold la_mult_generic in H.
  apply obind_ok in H. destruct H as [? [H1 H]]. apply len_is_ok, len1 in H1. destruct H1 as [y ->].
  cbn [idx nth_error unwrap obind] in H.
  apply obind_ok in H. destruct H as [[hyp scaled] [Hy H]]. apply m_op2_ok in Hy. subst y.
  apply obind_ok in H. destruct H as [[mc orig] [Hy H]]. apply m_op2_ok in Hy. cbn [fst snd] in *. subst hyp.
  apply obind_ok in H. destruct H as [[m zero] [Hy H]]. apply m_op2_ok in Hy. cbn [fst snd] in *. subst mc.
  apply obind_ok in H. destruct H as [z [Hz H]]. apply ok_or_ok in Hz.
  apply obind_ok in H. destruct H as [? [Hz0 H]]. apply rassert_ok in Hz0. apply Qeq_bool_iff in Hz0.
  assert (HZ : nval E zero = o0).
  { unfold nval. rewrite (as_number_eval E _ _ Hz). simpl. rewrite (injQ_eq _ _ _ Hz0). apply injQ_0. }
  destruct orig as [| | |o oargs| | | |]; try discriminate.
  apply obind_ok in H. destruct H as [? [H1 H]]. apply len_is_ok, len2 in H1. destruct H1 as [l [r ->]].
  cbn [idx nth_error unwrap obind] in H.
  apply obind_ok in H. destruct H as [o' [Ho H]].
  apply obind_ok in H. destruct H as [[ml mr] [Hm H]]. cbn [fst snd] in H.
  apply obind_ok in H. destruct H as [[m1 l1] [Hp H]]. apply m_op2_ok in Hp. cbn [fst snd] in *. subst ml.
  apply obind_ok in H. destruct H as [[m2 r1] [Hp H]]. apply m_op2_ok in Hp. cbn [fst snd] in *. subst mr.
  rinv. cbn [fst snd] in *.
  apply clause_holds_one. rewrite holds_implies, holds_and2.
  rename m1 into m.
  destruct (holds E (TOp (if b then OGt else OLt) [m; zero])) eqn:Em; [|reflexivity].
  destruct (holds E (TOp o [l1; r1])) eqn:Eo; [|reflexivity]. cbn [andb implb].
  destruct b.
  - injection Ho as <-. rewrite holds_gt, HZ in Em. apply oltb_lt in Em.
    destruct o; try discriminate Hm; apply m_op2_ok in Hm; cbn [fst snd] in Hm; subst scaled;
      (apply cmp_holds in Eo; [|reflexivity]); unfold crel in Eo.
    + rewrite holds_eq', !eval_mult, Eo. apply veqb_refl.
    + rewrite holds_lt, !nval_mult. apply oltb_lt. apply mul_lt_l; auto.
    + rewrite holds_gt, !nval_mult. apply oltb_lt. apply mul_lt_l; auto.
    + rewrite holds_le, !nval_mult. apply mul_le_l; auto. apply lt_le; auto.
    + rewrite holds_ge, !nval_mult. apply mul_le_l; auto. apply lt_le; auto.
  - rewrite holds_lt, HZ in Em. apply oltb_lt in Em.
    destruct o; try discriminate Ho; injection Ho as <-; apply m_op2_ok in Hm; cbn [fst snd] in Hm; subst scaled;
      (apply cmp_holds in Eo; [|reflexivity]); unfold crel in Eo.
    + rewrite holds_eq', !eval_mult, Eo. apply veqb_refl.
    + rewrite holds_gt, !nval_mult. apply oltb_lt. apply mul_neg_lt; auto.
    + rewrite holds_lt, !nval_mult. apply oltb_lt. apply mul_neg_lt; auto.
    + rewrite holds_ge, !nval_mult. apply mul_neg_le; auto.
    + rewrite holds_le, !nval_mult. apply mul_neg_le; auto.
Qed.
Lemma int_literal_ok {I} (E : env I) t z : int_literal t = ROk z -> eval t E = vint z.
Proof.
  unfold int_literal, as_signed_number_err. intros H. apply obind_ok in H. destruct H as [v [Hv H]].
  apply obind_ok in H. destruct H as [? [Hi H]]. apply rassert_ok in Hi. injection H as <-. apply ok_or_ok in Hv.
  rewrite (as_signed_number_eval E _ _ Hv), (injQ_int _ Hi). reflexivity.
Qed.
Lemma r_mod_simplify_sound : rule_sound r_mod_simplify.
Proof.
  intros c ps args H _ _ I E HE _. unfold r_mod_simplify in H.
  apply obind_ok in H. destruct H as [? [H1 H]]. apply len_is_ok, len1 in H1. destruct H1 as [y ->].
  cbn [idx nth_error unwrap obind] in H.
  apply obind_ok in H. destruct H as [[l r] [Hy H]]. apply m_op2_ok in Hy. cbn [fst snd] in *. subst y.
  apply obind_ok in H. destruct H as [[t1 t2] [Hy H]]. apply m_op2_ok in Hy. cbn [fst snd] in *. subst l.
  apply obind_ok in H. destruct H as [a [Ha H]]. apply obind_ok in H. destruct H as [b [Hb H]].
  apply obind_ok in H. destruct H as [v [Hv H]]. apply ok_or_ok in Hv.
  apply obind_ok in H. destruct H as [? [Hb0 H]]. apply rassert_ok in Hb0, H. apply Qeq_bool_iff in H.
  apply negb_true_iff in Hb0.
  apply clause_holds_one, holds_eq_iff. cbn [eval map eval_op bin2].
  rewrite (int_literal_ok E _ _ Ha), (int_literal_ok E _ _ Hb), (as_signed_number_eval E _ _ Hv).
  unfold imod, vint. cbn [num]. rewrite <- (inj_0 (iF I)), inj_eqb, Hb0, !floor_inj.
  rewrite (injQ_eq _ _ _ H), injQ_Z. reflexivity.
Qed.

(** ** Invalid steps accepted by la_generic *)
Definition xr := TVar "x" SReal.
Definition xi := TVar "x" SInt.
(** strict inequality over reals strengthened as if over integers *)
Lemma la_generic_refuted_real : rule_refuted r_la_generic.
Proof.
  exists [tNot (TOp OGt [xr; tReal 0]); TOp OGe [xr; tReal 1]], [], [tInt 1; tInt 1].
  split; [reflexivity|]. split; [reflexivity|]. split; [reflexivity|]. intros I.
  destruct (env_with (I := I) "x" SReal (VN (injQ (1#2))) eq_refl) as [E [HE Hx]].
  exists E. split; [exact HE|]. split; [intros p []|]. apply not_clause_b. cbn [existsb].
  unfold tNot. rewrite holds_not', holds_gt, holds_ge. unfold nval, xr, tReal. cbn [eval eval_const]. rewrite Hx. cbn [num].
  unfold oltb. rewrite !injQ_leb. reflexivity.
Qed.
(** a fractional coefficient makes an integral bound look fractional *)
Lemma la_generic_refuted_int : rule_refuted r_la_generic.
Proof.
  exists [tNot (TOp OGe [xi; tInt 1]); TOp OGe [xi; tInt 2]], [], [tReal (1#2); tReal (1#2)].
  split; [reflexivity|]. split; [reflexivity|]. split; [reflexivity|]. intros I.
  destruct (env_with (I := I) "x" SInt (vint 1)) as [E [HE Hx]].
  { cbv [idom dom_]. unfold vint. rewrite floor_inj. apply oeqb_eq. reflexivity. }
  exists E. split; [exact HE|]. split; [intros p []|]. apply not_clause_b. cbn [existsb].
  unfold tNot. rewrite holds_not', !holds_ge. unfold nval, xi, tInt. cbn [eval eval_const]. rewrite Hx. cbn [num vint].
  rewrite !inj_leb. reflexivity.
Qed.
(** reading [(div 1 2)] as one half: (< 0 (div 1 2)) is accepted as a tautology *)
Lemma la_tautology_refuted : rule_refuted r_la_tautology.
Proof.
  exists [TOp OLt [tInt 0; TOp OIntDiv [tInt 1; tInt 2]]], [], [].
  split; [reflexivity|]. split; [reflexivity|]. split; [reflexivity|]. intros I.
  destruct (env_exists (I := I)) as [E HE].
  exists E. split; [exact HE|]. split; [intros p []|]. apply not_clause_b. cbn [existsb].
  rewrite holds_lt. unfold nval. cbn. unfold idiv. cbn [num vint]. rewrite <- (inj_0 (iF I)), inj_eqb.
  rewrite !floor_inj. cbn. unfold oltb. change (@o0 (iF I)) with (inj 0 : iF I). rewrite inj_leb. reflexivity.
Qed.
(** a zero divisor crashes the checker *)
Lemma la_generic_panics : r_la_generic [TOp OLt [tInt 0; TOp ORealDiv [tReal 1; tReal 0]]] [] [tInt 1] = RPanic.
Proof. reflexivity. Qed.
Lemma la_mult_panics : la_mult_generic true
  [TOp OImplies [TOp OAnd [TOp OGt [xi; tInt 0]; TOp OAnd [tTrue; tTrue]]; tTrue]] [] [] = RPanic.
Proof. reflexivity. Qed.

Definition la_rules : list (string * rule) :=
  [("la_rw_eq", r_la_rw_eq); ("la_disequality", r_la_disequality); ("la_totality", r_la_totality);
   ("la_mult_pos", la_mult_generic true); ("la_mult_neg", la_mult_generic false); ("mod_simplify", r_mod_simplify)].
Lemma la_rules_sound name r : In (name, r) la_rules -> rule_sound r.
Proof.
  intros H.
  repeat (destruct H as [H|H]; [injection H as _ <-|]); [..|contradiction].
  - apply r_la_rw_eq_sound.
  - apply r_la_disequality_sound.
  - apply r_la_totality_sound.
  - apply la_mult_sound.
  - apply la_mult_sound.
  - apply r_mod_simplify_sound.
Qed.
Lemma la_generic_refuted_int_explicit :
  exists c ps args,
    r_la_generic c ps args = ROk tt /\
    c = [tNot (TOp OGe [TVar "x" SInt; tInt 1]); TOp OGe [TVar "x" SInt; tInt 2]] /\
    forall I : interp, exists E : env I, env_ok E /\ (forall p, In p ps -> clause_holds E p) /\ ~ clause_holds E c.
Proof.
  exists [tNot (TOp OGe [xi; tInt 1]); TOp OGe [xi; tInt 2]], [], [tReal (1#2); tReal (1#2)].
  split; [reflexivity|]. split; [reflexivity|]. intros I.
  destruct (env_with (I := I) "x" SInt (vint 1)) as [E [HE Hx]].
  { cbv [idom dom_]. unfold vint. rewrite floor_inj. apply oeqb_eq. reflexivity. }
  exists E. split; [exact HE|]. split; [intros p []|]. apply not_clause_b. cbn [existsb].
  unfold tNot. rewrite holds_not', !holds_ge. unfold nval, xi, tInt. cbn [eval eval_const]. rewrite Hx. cbn [num vint].
  rewrite !inj_leb. reflexivity.
Qed.
Lemma la_generic_valid c ps args : r_la_generic c ps args = ROk tt -> la_ok c args = true ->
  forall (I : interp) (E : env I), env_ok E -> clause_holds E c.
Proof.
  intros H Ho I E HE. assert (H' : r_la_generic c [] args = ROk tt) by exact H.
  apply (la_generic_sound _ _ _ H' Ho I E HE). intros p [].
Qed.
Lemma la_tautology_valid c ps args : r_la_tautology c ps args = ROk tt -> forallb divs_exact c = true ->
  forall (I : interp) (E : env I), env_ok E -> clause_holds E c.
Proof.
  intros H Ho I E HE. assert (H' : r_la_tautology c [] args = ROk tt) by exact H.
  apply (la_tautology_sound _ _ _ H' Ho I E HE). intros p [].
Qed.
