(** checker/rules/polynomial.rs *)
From Coq Require Import List String ZArith QArith Bool Arith Lia.
From Verif Require Import Base Term Sem Rules Utils Num.
Import ListNotations.
Local Open Scope nat_scope.

(** Monomial (13): a list of terms, sorted by address.  Polynomial (24): coefficients of monomials, and the constant term. *)
Definition monomial : Type := list term.
Definition mon_eqb : monomial -> monomial -> bool := list_eqb term_eqb.
Definition poly : Type := (list (monomial * Q) * Q)%type.
Definition p_new : poly := ([], 0%Q).
(** the same monomial up to the order of the factors: an address-free version of the comparison of sorted monomials *)
Definition mon_permb (a b : monomial) : bool := ms_eqb term_eqb (ms_of term_eqb a) (ms_of term_eqb b).
Section Poly.
  (** Equality of monomials: [mon_eqb] in the code. *)
  Variable meqb : monomial -> monomial -> bool.
  (** insert, 109-124 *)
  Definition p_insert (p : poly) (k : monomial) (v : Q) : poly :=
    if Qeq_bool v 0 then p else
    match im_get meqb (fst p) k with
    | Some old =>
        if Qeq_bool (old + v) 0 then (im_swap_remove meqb (fst p) k, snd p)
        else (im_insert meqb (fst p) k (old + v)%Q, snd p)
    | None => (im_insert meqb (fst p) k v, snd p)
    end.
  Definition p_inserts (p : poly) (l : list (monomial * Q)) : poly := fold_left (fun acc x => p_insert acc (fst x) (snd x)) l p.
  (** [sort_unstable_by_key(Rc::as_ptr)]: terms are sorted by their addresses *)
  Variable srt : list term -> list term.
  (** Monomial::mul, 16-20 *)
  Definition mon_mul (a b : monomial) : monomial := srt (a ++ b).
  (** mul, 93-107 *)
  Definition p_mul (a b : poly) : poly :=
    let r1 := fold_left (fun r x =>
      let r' := fold_left (fun r y => p_insert r (mon_mul (fst x) (fst y)) (snd x * snd y)%Q) (fst b) r in
      p_insert r' (fst x) (snd x * snd b)%Q) (fst a) p_new in
    let r2 := fold_left (fun r y => p_insert r (fst y) (snd y * snd a)%Q) (fst b) r1 in
    (fst r2, snd r2 + snd a * snd b)%Q.
  (** the last case of add_term, 77-90 *)
  Definition p_other (t : term) (coeff : Q) (p : poly) : outcome poly :=
    do f <- as_fraction t ;
    match f with
    | Some r => ROk (fst p, snd p + r * coeff)%Q
    | None =>
        match t with
        | TConst (CBV v _) => ROk (fst p, snd p + inject_Z v * coeff)%Q
        | _ => ROk (p_insert p [t] coeff)
        end
    end.
  (** add_term, 40-91 *)
  Section All.
    Variable f : term -> poly -> outcome poly.
    Fixpoint p_add_all (l : list term) (p : poly) : outcome poly :=
      match l with [] => ROk p | a :: r => do p' <- f a p ; p_add_all r p' end.
  End All.
  Section Prod.
    Variable f : term -> outcome poly.
    Fixpoint p_prod_from (acc : poly) (l : list term) : outcome poly :=
      match l with [] => ROk acc | a :: r => do p <- f a ; p_prod_from (p_mul acc p) r end.
    Definition p_prod (l : list term) : outcome poly :=
      match l with [] => RPanic | a :: r => do p <- f a ; p_prod_from p r end.
  End Prod.
  Definition one_arg {A} (l : list A) : bool := Nat.eqb (List.length l) 1.
  Fixpoint p_add_term (t : term) (coeff : Q) (p : poly) {struct t} : outcome poly :=
    match t with
    | TOp o args =>
        if op_eqb o OAdd || op_eqb o OBvAdd then p_add_all (fun a => p_add_term a coeff) args p
        else if (op_eqb o OSub || op_eqb o OBvNeg) && one_arg args then p_add_all (fun a => p_add_term a (- coeff)%Q) args p
        else if op_eqb o OSub || op_eqb o OBvSub then
          match args with
          | [] => RPanic
          | a :: r => do p' <- p_add_term a coeff p ; p_add_all (fun a => p_add_term a (- coeff)%Q) r p'
          end
        else if op_eqb o OMult || op_eqb o OBvMul then
          do r <- p_prod (fun a => p_add_term a 1%Q p_new) args ;
          let p' := p_inserts p (map (fun x => (fst x, snd x * coeff)%Q) (fst r)) in
          ROk (fst p', snd p' + coeff * snd r)%Q
        else if op_eqb o ORealDiv then
          match args with
          | [a; b] =>
              do f <- as_fraction b ;
              match f with
              | Some r => if Qeq_bool r 0 then ROk (p_insert p [t] coeff) else p_add_term a (coeff / r)%Q p
              | None => p_other t coeff p
              end
          | _ => p_other t coeff p
          end
        else if op_eqb o OToReal then
          match args with a :: _ => p_add_term a coeff p | [] => RPanic end
        else if op_eqb o OIntDiv then
          match args with
          | [a; b] =>
              do f <- as_fraction b ;
              match f with
              | Some r => if Qeq_bool r 0 then ROk (p_insert p [t] coeff) else p_other t coeff p
              | None => p_other t coeff p
              end
          | _ => p_other t coeff p
          end
        else p_other t coeff p
    | _ => p_other t coeff p
    end.
  (** from_term, 33-37 *)
  Definition p_from_term (t : term) : outcome poly := p_add_term t 1%Q p_new.
  (** is_zero, neg, add, sub, 126-150 *)
  Definition p_is_zero (p : poly) : bool := match fst p with [] => Qeq_bool (snd p) 0 | _ => false end.
  Definition p_neg (p : poly) : poly := (map (fun x => (fst x, - snd x)%Q) (fst p), - snd p)%Q.
  Definition p_sub (a b : poly) : poly :=
    let r := p_inserts a (fst (p_neg b)) in (fst r, snd r + snd (p_neg b))%Q.
  (** modulo, 152-166 *)
  Definition q_mod (n : Z) (q : Q) : option Q := if Qis_int q then Some (inject_Z (Z.modulo (Qnumer q) n)) else None.
  Fixpoint mod_coeffs (n : Z) (l : list (monomial * Q)) : option (list (monomial * Q)) :=
    match l with
    | [] => Some []
    | (m, c) :: r =>
        match q_mod n c, mod_coeffs n r with Some c', Some r' => Some ((m, c') :: r') | _, _ => None end
    end.
  Definition p_modulo (n : Z) (p : poly) : option poly :=
    match mod_coeffs n (fst p), q_mod n (snd p) with Some l, Some c => Some (l, c) | _, _ => None end.

  (** poly_simp, 169-189 *)
  Definition r_poly_simp : rule := fun c _ _ =>
    len_is c 1 ;;
    do t0 <- idx c 0 ;
    do ts <- m_op2 OEquals t0 ;
    do p <- p_from_term (fst ts) ;
    do q <- p_from_term (snd ts) ;
    match sort_of (fst ts) with
    | SBV w =>
        do p' <- unwrap (p_modulo (2 ^ Z.of_nat w) p) ;
        do q' <- unwrap (p_modulo (2 ^ Z.of_nat w) q) ;
        rassert (p_is_zero (p_sub p' q'))
    | _ => rassert (p_is_zero (p_sub p q))
    end.
End Poly.

(** poly_simp_rel, 191-247 *)
Definition bv_odd (t : term) : outcome unit :=
  match t with TConst (CBV v _) => rassert (Z.odd v) | _ => RErr end.
Definition bv_diff (t : term) : option (term * (term * term)) :=
  match op2 OBvMul t with
  | Some (c, d) => match op2 OBvSub d with Some xy => Some (c, xy) | None => None end
  | None => None
  end.
Definition bv_case (t : term) : option ((term * (term * term)) * (term * (term * term))) :=
  match op2 OEquals t with
  | Some (a, b) => match bv_diff a, bv_diff b with Some x, Some y => Some (x, y) | _, _ => None end
  | None => None
  end.
Definition real_diff (t : term) : outcome (term * term) :=
  match op1 OToReal t with
  | Some d => match op2 OSub d with Some xy => ROk xy | None => m_op2 OSub t end
  | None => m_op2 OSub t
  end.
Definition rel_op (o : op) : bool := op_eqb o OLt || op_eqb o OLe || op_eqb o OEquals || op_eqb o OGe || op_eqb o OGt.
Definition r_poly_simp_rel : rule := fun c ps _ =>
  len_is ps 1 ;;
  len_is c 1 ;;
  do p <- idx ps 0 ; do prem <- premise_term p ; do t0 <- idx c 0 ;
  match bv_case prem with
  | Some ((c1, (x1, x2)), (c2, (y1, y2))) =>
      bv_odd c1 ;; bv_odd c2 ;;
      do lr <- m_op2 OEquals t0 ; do l <- m_op2 OEquals (fst lr) ; do r <- m_op2 OEquals (snd lr) ;
      teq (fst l) x1 ;; teq (snd l) x2 ;; teq (fst r) y1 ;; teq (snd r) y2
  | None =>
      do ab <- m_op2 OEquals prem ; do a <- m_op2 OMult (fst ab) ; do b <- m_op2 OMult (snd ab) ;
      do x <- real_diff (snd a) ; do y <- real_diff (snd b) ;
      do c1 <- as_fraction_err (fst a) ; do c2 <- as_fraction_err (fst b) ;
      rassert (negb (Qeq_bool c1 0)) ;; rassert (negb (Qeq_bool c2 0)) ;;
      do lr <- m_op2 OEquals t0 ;
      match lr with
      | (TOp o [l1; l2], TOp o2 [r1; r2]) =>
          if rel_op o && op_eqb o2 o then
            rassert (op_eqb o OEquals || Bool.eqb (negb (Qle_bool c1 0)) (negb (Qle_bool c2 0))) ;;
            teq l1 (fst x) ;; teq l2 (snd x) ;; teq r1 (fst y) ;; teq r2 (snd y)
          else RErr
      | _ => RErr
      end
  end.
