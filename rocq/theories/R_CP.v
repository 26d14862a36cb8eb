(** Cutting planes rules (checker/rules/cutting_planes.rs). *)
From Coq Require Import List String Ascii ZArith QArith Bool Arith Lia.
From Verif Require Import Base Term Field Sem Rules Utils Num.
Import ListNotations.
Local Open Scope Z_scope.

(** numeric literals in the patterns of [match_term!], ast/macros.rs: [as_number()] is compared *)
Definition is_numb (n : Z) (t : term) : bool := match as_number t with Some q => Qeq_bool q (inject_Z n) | None => false end.
(** the pattern (- 1 l) *)
Definition neg_lit (t : term) : option term :=
  match op2 OSub t with Some (a, l) => if is_numb 1 a then Some l else None | None => None end.

(** cutting_planes.rs:13-19 *)
Definition split_summation (t : term) : list term := match as_op OAdd t with Some l => l | None => [t] end.

(** ** Sums.  A literal is a term, negated or not: the product of c and (- 1 l) is [((true, l), c)],
    the product of c and l is [((false, l), c)]. *)
Definition lit : Type := (bool * term)%type.
(** the body of the loop, 37-51 *)
Definition pb_entry (t : term) : outcome (lit * Z) :=
  match op2 OMult t with
  | Some (c, x) =>
      do z <- as_integer_err c ;
      ROk (match neg_lit x with Some l => (true, l) | None => (false, x) end, z)
  | None => RErr
  end.
(** 21-53, before the insertion in the map *)
Definition pb_entries (sum : term) : outcome (list (lit * Z)) :=
  let l := split_summation sum in
  match l with
  | [a] =>
      match as_integer a with
      | Some z => if z =? 0 then ROk [] else RErr
      | None => omap pb_entry l
      end
  | _ => omap pb_entry l
  end.
(** the entries and the constant of an inequality *)
Definition pb_ineq (t : term) : outcome (list (lit * Z) * Z) :=
  do sk <- m_op2 OGe t ;
  do k <- as_integer_err (snd sk) ;
  do l <- pb_entries (fst sk) ;
  ROk (l, k).

(** ** The hash map from printed literals to coefficients.
    A map is modelled as an association list without duplicates; the iteration order of the hash map only decides which
    error is reported, or the order of additions. *)
Definition pbhash : Type := list (string * Z).
Definition pget (m : pbhash) (k : string) : option Z := im_get String.eqb m k.
Definition pins (m : pbhash) (k : string) (c : Z) : pbhash := im_insert String.eqb m k c.
Definition tilde (k : string) : string := String "~" k.
(** 74-76 *)
Definition is_negated (k : string) : bool := match k with String c _ => Ascii.eqb c "~" | EmptyString => false end.

Section Show.
  (** [format!("{}", literal)]: the printer of terms (ast/printer.rs) is a parameter *)
  Variable show : term -> string.
  Definition key (l : lit) : string := if fst l then tilde (show (snd l)) else show (snd l).
  Definition hash_of (l : list (lit * Z)) : pbhash := fold_left (fun m e => pins m (key (fst e)) (snd e)) l [].
  (** 21-53 get_pb_hashmap *)
  Definition get_pb_hashmap (sum : term) : outcome pbhash := do l <- pb_entries sum ; ROk (hash_of l).
  (** 55-60 unwrap_pseudoboolean_inequality *)
  Definition unwrap_pb (t : term) : outcome (pbhash * Z) := do r <- pb_ineq t ; ROk (hash_of (fst r), snd r).
  (** 62-70 *)
  Definition add_pbsums (a b : pbhash) : pbhash :=
    fold_left (fun r p => pins r (fst p) (match pget r (fst p) with Some ca => ca + snd p | None => snd p end)) b a.
  (** 92-128 reduce_pbsum.  The values are read from the map before any change, as in the code, where the changes are
      applied after the loop. *)
  Definition reduce_step (m : pbhash) (acc : pbhash * Z) (k : string) : pbhash * Z :=
    if is_negated k then acc
    else
      match pget m k, pget m (tilde k) with
      | Some pos, Some neg =>
          (if neg <? pos then pins (pins (fst acc) k (pos - neg)) (tilde k) 0
           else pins (pins (fst acc) k 0) (tilde k) (neg - pos), snd acc + Z.min pos neg)
      | _, _ => acc
      end.
  Definition reduce_pbsum (m : pbhash) : pbhash * Z := fold_left (reduce_step m) (map fst m) (m, 0).
  (** 132-150 *)
  Definition subset_keys (a b : pbhash) : outcome unit :=
    ofor (fun p => rassert ((snd p =? 0) || match pget b (fst p) with Some _ => true | None => false end)) a ;; ROk tt.
  (** 152-160 *)
  Definition same_keys (a b : pbhash) : outcome unit := subset_keys a b ;; subset_keys b a.
  (** [premises[i].clause[0]] *)
  Definition first_lit (c : clause) : outcome term := idx c 0.

  (** 162-229 cp_addition *)
  Definition r_cp_addition : rule := fun c prems args =>
    len_is prems 2 ;;
    do p0 <- idx prems 0 ; len_is p0 1 ;; do l <- first_lit p0 ;
    do p1 <- idx prems 1 ; len_is p1 1 ;; do r <- first_lit p1 ;
    len_is args 0 ;;
    len_is c 1 ;; do g <- first_lit c ;
    do ml <- unwrap_pb l ;
    do mr <- unwrap_pb r ;
    do mc <- unwrap_pb g ;
    let red := reduce_pbsum (add_pbsums (fst ml) (fst mr)) in
    rassert (snd ml + snd mr =? snd mc + snd red) ;;
    same_keys (fst red) (fst mc) ;;
    ofor (fun p => if snd p =? 0 then ROk tt
                   else match pget (fst red) (fst p) with Some x => rassert (x =? snd p) | None => RErr end) (fst mc) ;;
    ROk tt.

  (** the final loop of the three rules below: the coefficients of the premise after [f] are those of the conclusion *)
  Definition match_coeffs (f : Z -> Z) (p c : pbhash) : outcome unit :=
    ofor (fun e => match pget c (fst e) with Some x => rassert (f (snd e) =? x) | None => ROk tt end) p ;; ROk tt.

  (** 231-270 cp_multiplication *)
  Definition r_cp_multiplication : rule := fun c prems args =>
    len_is prems 1 ;;
    do p0 <- idx prems 0 ; len_is p0 1 ;; do p <- first_lit p0 ;
    len_is args 1 ;; do a <- idx args 0 ; do s <- as_integer_err a ;
    len_is c 1 ;; do g <- first_lit c ;
    do mp <- unwrap_pb p ;
    do mc <- unwrap_pb g ;
    rassert (s * snd mp =? snd mc) ;;
    same_keys (fst mp) (fst mc) ;;
    match_coeffs (fun x => s * x) (fst mp) (fst mc).

  (** 272-321 cp_division.  The length of the premise clause is not checked.  Division of [rug] integers truncates. *)
  Definition cp_div (d x : Z) : Z := Z.quot (x + d - 1) d.
  Definition r_cp_division : rule := fun c prems args =>
    len_is prems 1 ;;
    do p0 <- idx prems 0 ; do p <- first_lit p0 ;
    len_is args 1 ;; do a <- idx args 0 ; do d <- as_integer_err a ;
    rassert (0 <? d) ;;
    len_is c 1 ;; do g <- first_lit c ;
    do mp <- unwrap_pb p ;
    do mc <- unwrap_pb g ;
    rassert (cp_div d (snd mp) =? snd mc) ;;
    same_keys (fst mp) (fst mc) ;;
    match_coeffs (cp_div d) (fst mp) (fst mc).

  (** 323-362 cp_saturation *)
  Definition r_cp_saturation : rule := fun c prems args =>
    len_is prems 1 ;; len_is args 0 ;;
    do p0 <- idx prems 0 ; do p <- first_lit p0 ;
    len_is c 1 ;; do g <- first_lit c ;
    do mp <- unwrap_pb p ;
    do mc <- unwrap_pb g ;
    rassert (snd mp =? snd mc) ;;
    same_keys (fst mp) (fst mc) ;;
    match_coeffs (Z.min (snd mp)) (fst mp) (fst mc).
End Show.

(** 364-393 cp_literal.  Only the first literal of the conclusion is looked at, and the number of premises is not checked. *)
Definition t_neg (l : term) : term := TOp OSub [tInt 1; l].
Definition r_cp_literal : rule := fun c _ args =>
  len_is args 1 ;;
  do a <- idx args 0 ;
  do g <- idx c 0 ;
  match op2 OGe g with
  | Some (s, z) =>
      if is_numb 0 z then
        match op2 OMult s with
        | Some (co, x) =>
            do k <- as_integer_err co ; rassert (k =? 1) ;;
            match neg_lit x with
            | Some l => teq (t_neg l) a
            | None => teq x a
            end
        | None =>
            match neg_lit s with
            | Some l => teq (t_neg l) a
            | None => teq s a
            end
        end
      else RErr
  | None => RErr
  end.

(** ** cp_normalize *)
(** 424-430: a coefficient, a term and whether it is negated *)
Record ctv : Type := mkCtv { ct_coeff : Z; ct_var : term; ct_neg : bool }.
(** 455-490: [eq].  When the left one is negated, the flag of the right one is not looked at. *)
Definition ctv_eqb (a b : ctv) : bool :=
  if negb (ct_coeff a =? ct_coeff b) then false
  else if term_eqb (ct_var a) (ct_var b) then Bool.eqb (ct_neg a) (ct_neg b)
  else if ct_neg a then match neg_lit (ct_var b) with Some l => term_eqb l (ct_var a) | None => false end
  else if ct_neg b then match neg_lit (ct_var a) with Some l => term_eqb l (ct_var b) | None => false end
  else false.
(** 492-520; a product of constants is the right summand *)
Definition term_to_ctv (t : term) : ctv + Z :=
  let norm (c : Z) (v : term) : ctv + Z :=
    inl (match neg_lit v with Some l => mkCtv c l true | None => mkCtv c v false end) in
  match op2 OMult t with
  | Some (l, r) =>
      match as_integer l, as_integer r with
      | None, None => norm 1 t
      | Some a, Some b => inr (a * b)
      | None, Some c => norm c l
      | Some c, None => norm c r
      end
  | None => norm 1 t
  end.
(** 522-535 *)
Definition collect_addition (t : term) : outcome (list ctv) :=
  omap (fun a => match term_to_ctv a with inl x => ROk x | inr _ => RErr end) (split_summation t).
(** 537-549 *)
Definition negate_ctv (x : ctv) : ctv := mkCtv (- ct_coeff x) (ct_var x) (ct_neg x).
Definition negate_sum (l : list ctv) : list ctv := map negate_ctv l.
(** 551-590: accumulate_sum and flatten_addition_tree; indexing an empty argument list panics *)
Fixpoint flatten (t : term) : outcome (list ctv * Z) :=
  let acc := fix acc (l : list term) : outcome (list ctv * Z) :=
    match l with
    | [] => ROk ([], 0)
    | a :: r => do x <- flatten a ; do y <- acc r ; ROk ((fst x ++ fst y)%list, snd x + snd y)
    end in
  match t with
  | TOp OAdd args => acc args
  | TOp OSub [] => RPanic
  | TOp OSub (a :: r) =>
      do x <- flatten a ; do y <- acc r ; ROk ((fst x ++ negate_sum (fst y))%list, snd x - snd y)
  | TConst (CInt k) => ROk ([], k)
  | _ => match term_to_ctv t with inl x => ROk ([x], 0) | inr k => ROk ([], k) end
  end.
(** 592-603 *)
Definition push_one (x : ctv) : ctv := if 0 <=? ct_coeff x then x else mkCtv (- ct_coeff x) (ct_var x) (negb (ct_neg x)).
Definition push_negation (l : list ctv) (k : Z) : list ctv * Z :=
  (map push_one l, fold_left (fun k x => if 0 <=? ct_coeff x then k else k - ct_coeff x) l k).
(** 605-635 *)
Definition check_pb (l : list ctv) (k : Z) (r : list ctv) (k' : Z) : outcome unit :=
  rassert (Nat.eqb (List.length l) (List.length r)) ;;
  ofor (fun p => rassert (ctv_eqb (fst p) (snd p))) (combine l r) ;;
  rassert (k =? k').
(** 395-420 *)
Definition match_relation (t : term) : outcome (op * term * term) :=
  match t with
  | TOp o [a; b] => match o with OEquals | OGt | OLt | OGe | OLe => ROk (o, a, b) | _ => RErr end
  | _ => RErr
  end.
(** 637-720 *)
Definition norm_side (vs : list ctv) (k : Z) (goal : term) : outcome unit :=
  do sk <- m_op2 OGe goal ;
  let (g, kg) := push_negation vs k in
  do l <- collect_addition (fst sk) ;
  do k' <- as_integer_err (snd sk) ;
  check_pb g kg l k'.
Definition r_cp_normalize : rule := fun c _ _ =>
  len_is c 1 ;;
  do c0 <- idx c 0 ;
  do gn <- m_op2 OEquals c0 ;
  do rel <- match_relation (fst gn) ;
  let '(o, a, b) := rel in
  do la <- flatten a ;
  do lb <- flatten b ;
  let vs := (fst la ++ negate_sum (fst lb))%list in
  let k := snd lb - snd la in
  match o with
  | OEquals =>
      do xy <- m_op2 OAnd (snd gn) ;
      do sl <- m_op2 OGe (fst xy) ; do sr <- m_op2 OGe (snd xy) ;
      norm_side vs k (fst xy) ;;
      let (g, kg) := push_negation vs k in
      norm_side (negate_sum g) (- kg) (snd xy)
  | OGt => norm_side vs (k + 1) (snd gn)
  | OLt => norm_side (negate_sum vs) (1 - k) (snd gn)
  | OLe => norm_side (negate_sum vs) (- k) (snd gn)
  | _ => norm_side vs k (snd gn)
  end.
