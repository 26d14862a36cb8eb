(** Rule bfun_elim (checker/rules/clausification.rs:266-404): elimination of quantifiers over Bool
    and of non-constant Bool arguments of functions. *)
From Coq Require Import List String Ascii ZArith QArith Bool Arith Lia.
From Verif Require Import Base Term Field Sem Sorting Rules Utils Polyeq PolyeqSound R_Simp Subst.
Import ListNotations.
Local Open Scope nat_scope.

Definition t_true : term := TOp OTrue [].
Definition t_false : term := TOp OFalse [].

(** Substitution::single (substitution.rs:97-106) followed by [apply]. The flag tells whether nothing was
    captured (Subst.v); it is not part of the code. *)
Definition subst1 (x : string * sort) (v t : term) : outcome (term * bool) :=
  do m <- subst_new [(TVar (fst x) (snd x), v)] ;
  do r <- sub_apply (sub_of m) t ;
  ROk (fst (fst r), snd r).

(** clausification.rs:267-288 [bfun_elim_first_step]; [rbs] is the list of bindings reversed, because the
    code takes them from the end of the slice. The accumulator becomes the result. *)
Fixpoint first_step (rbs : list (string * sort)) (t : term) : outcome (list term * bool) :=
  match rbs with
  | [] => ROk ([t], true)
  | x :: rest =>
      if sort_eqb (snd x) SBool then
        do a <- subst1 x t_false t ;
        do l0 <- first_step rest (fst a) ;
        do b <- subst1 x t_true t ;
        do l1 <- first_step rest (fst b) ;
        ROk ((fst l0 ++ fst l1)%list, snd a && snd l0 && (snd b && snd l1))
      else first_step rest t
  end.

(** clausification.rs:292-319 [bfun_elim_second_step]; the arguments before index [processed] are [done]. *)
Fixpoint second_step (f : term) (done args : list term) : term :=
  match args with
  | [] => TApp f done
  | a :: rest =>
      if sort_eqb (sort_of a) SBool && negb (term_eqb a t_false) && negb (term_eqb a t_true)
      then TOp OIte [a; second_step f (done ++ [t_true]) rest; second_step f (done ++ [t_false]) rest]
      else second_step f (done ++ [a]) rest
  end.

Definition not_bool (x : string * sort) : bool := negb (sort_eqb (snd x) SBool).

(** clausification.rs:322-386 [apply_bfun_elim]. The cache is dropped: it maps terms to the results computed
    for them, and the result is a function of the term. [2usize.pow] is only a capacity. *)
Fixpoint bfun (fuel : nat) (t : term) : outcome (term * bool) :=
  match fuel with
  | 0 => RPanic
  | S n =>
      match t with
      | TApp f args =>
          do l <- omap (bfun n) args ;
          ROk (second_step f [] (map fst l), forallb snd l)
      | TOp o args =>
          do l <- omap (bfun n) args ;
          ROk (TOp o (map fst l), forallb snd l)
      | TBind b vs inner =>
          match b with
          | BChoice | BLambda =>
              do r <- bfun n inner ; ROk (TBind b vs (fst r), snd r)
          | _ =>
              do l <- first_step (rev vs) inner ;
              let ot := match fst l with
                        | [a] => a
                        | _ => TOp (match b with BForall => OAnd | _ => OOr end) (fst l)
                        end in
              do r <- bfun n ot ;
              let nvs := filter not_bool vs in
              ROk (match nvs with [] => fst r | _ => TBind b nvs (fst r) end, snd l && snd r)
          end
      | TLet bs inner => do r <- bfun n inner ; ROk (TLet bs (fst r), snd r)
      | _ => ROk (t, true)
      end
  end.

(** depth of a term, which bounds the depth of the recursion *)
Fixpoint tdepth (t : term) : nat :=
  match t with
  | TConst _ | TVar _ _ | TSort _ => 1
  | TApp f l => S (Nat.max (tdepth f) (list_max (map tdepth l)))
  | TOp _ l => S (list_max (map tdepth l))
  | TBind _ _ b => S (tdepth b)
  | TLet bs b => S (Nat.max (list_max (map (fun p => tdepth (snd p)) bs)) (tdepth b))
  | TPOp _ a l => S (Nat.max (list_max (map tdepth a)) (list_max (map tdepth l)))
  end.
(** enough fuel: see [bfun_fuel] *)
Definition bfun_term (t : term) : outcome (term * bool) := bfun (2 * tdepth t + 2) t.

(** clausification.rs:388-404 [bfun_elim] *)
Definition r_bfun_elim : rule := fun c prems _ =>
  len_is prems 1 ;;
  len_is c 1 ;;
  do p <- idx prems 0 ; do psi <- premise_term p ;
  do e <- bfun_term psi ;
  do g <- idx c 0 ;
  assert_polyeq g (fst e).

(** ** ite_intro, tautology.rs:263-323 *)
(** short-circuiting [&&] and [||] on outcomes *)
Definition aand (a b : outcome bool) : outcome bool := do x <- a ; if x then b else ROk false.
Definition aor (a b : outcome bool) : outcome bool := do x <- a ; if x then ROk true else b.
(** the closure [is_valid]: [s1], [s2] and (ite cond r1 r2) are equal *)
Definition ite_valid (cond r1 s1 r2 s2 : term) : outcome bool :=
  aand (polyeq s1 s2)
    (match op3 OIte s1 with
     | Some (a, b, c) => aand (aand (polyeq a cond) (polyeq b r1)) (polyeq c r2)
     | None => ROk false
     end).
Definition ite_def (u : term) : outcome unit :=
  do x <- m_op3 OIte u ;
  let '(cond, e1, e2) := x in
  do ab <- m_op2 OEquals e1 ;
  do cd <- m_op2 OEquals e2 ;
  let (a, b) := ab in let (c, d) := cd in
  do v <- aor (aor (aor (ite_valid cond a b c d) (ite_valid cond b a c d)) (ite_valid cond a b d c)) (ite_valid cond b a d c) ;
  rassert v.
Definition r_ite_intro : rule := fun c _ _ =>
  len_is c 1 ;;
  do c0 <- idx c 0 ;
  do tu <- m_op2 OEquals c0 ;
  let (t, u) := tu in
  do e <- polyeq t u ;
  if e then ROk tt
  else
    do us <- m_ops OAnd u ;
    do u0 <- idx us 0 ;
    assert_polyeq u0 t ;;
    ofor ite_def (skipn 1 us) ;; ROk tt.
