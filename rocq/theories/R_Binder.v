(** The rules that look at the open anchors: refl (checker/rules/reflexivity.rs), bind, let, onepoint, sko_ex, sko_forall
    (checker/rules/subproof.rs) and bind_let (checker/rules/extras.rs). *)
From Coq Require Import List String ZArith Bool Arith Lia.
From Verif Require Import Base Term Field Sem Sorting Rules Utils Polyeq R_Simp Subst Checker Context.
Import ListNotations.
Local Open Scope string_scope.

Definition svmem (v : string * sort) (l : list (string * sort)) : bool := existsb (svar_eqb v) l.
(** number of elements of the set: [IndexSet::len] after collecting a list *)
Fixpoint sv_count (l : list (string * sort)) : nat :=
  match l with [] => 0 | v :: r => if svmem v r then sv_count r else S (sv_count r) end.
(** AnchorArg::as_assign / as_variable, ast/proof.rs:135-153 *)
Definition assigns (a : list anchor) : list ((string * sort) * term) :=
  flat_map (fun b => match b with AAssign v t => [(v, t)] | AVar _ => [] end) a.
Definition decls (a : list anchor) : list (string * sort) :=
  flat_map (fun b => match b with AVar v => [v] | AAssign _ _ => [] end) a.
(** the keys built by the rules from an assignment: the name, with the sort of the value *)
Definition asg_key (p : (string * sort) * term) : string * sort := (fst (fst p), sort_of (snd p)).
(** [context.last().unwrap()] *)
Definition last_ctx (cx : list (list anchor)) : outcome (list anchor) := unwrap (hd_error cx).
(** The context stack at a step. The table of rules below gets no state: each step starts with uncalculated contexts. The
    rule for an arbitrary stack is [refl_pair]; that histories of applications are right is C31. *)
Definition fresh_stack (cx : list (list anchor)) : cstack := map (fun a => mkLv a None) cx.

(** ** refl, reflexivity.rs:10-49: the pair of terms that was found to be equivalent, and the new stack *)
Definition refl_pair (st : cstack) (c : clause) : outcome (term * term * cstack) :=
  len_is c 1 ;;
  do c0 <- idx c 0 ;
  do lr <- m_op2 OEquals c0 ;
  let (l, r) := lr in
  do e0 <- alpha_equiv l r ;
  if e0 then ROk (l, r, st)
  else
    rassert (match st with [] => false | _ => true end) ;;
    do x <- ctx_apply st l ;
    let (l', st1) := x in
    do e1 <- alpha_equiv l' r ;
    if e1 then ROk (l', r, st1)
    else
      do y <- ctx_apply st1 r ;
      let (r', st2) := y in
      do e2 <- alpha_equiv l r' ;
      if e2 then ROk (l, r', st2)
      else do e3 <- alpha_equiv l' r' ; rassert e3 ;; ROk (l', r', st2).
Definition r_refl : crule := fun ra => do _ <- refl_pair (fresh_stack (ra_ctx ra)) (ra_concl ra) ; ROk tt.
(** 51-71 strict_refl, used for elaborated proofs *)
Definition strict_refl_st (st : cstack) (c : clause) : outcome cstack :=
  len_is c 1 ;;
  do c0 <- idx c 0 ;
  do lr <- m_op2 OEquals c0 ;
  let (l, r) := lr in
  if term_eqb l r then ROk st
  else
    rassert (match st with [] => false | _ => true end) ;;
    do x <- ctx_apply st l ;
    let (l', st1) := x in
    rassert (term_eqb l' r) ;; ROk st1.
Definition r_strict_refl : crule := fun ra => do _ <- strict_refl_st (fresh_stack (ra_ctx ra)) (ra_concl ra) ; ROk tt.

(** ** bind, subproof.rs:50-134 *)
Definition as_binder (t : term) : option (binder * list (string * sort) * term) :=
  match t with TBind b vs body => Some (b, vs, body) | _ => None end.
(** 96-112: a declared variable after an assigned one is an error; the assigned variables *)
Fixpoint bind_xs (xs : list (string * sort)) (a : list anchor) : outcome (list (string * sort)) :=
  match a with
  | [] => ROk xs
  | AVar _ :: r => match xs with [] => bind_xs xs r | _ => RErr end
  | AAssign v _ :: r => bind_xs (xs ++ [v]) r
  end.
Definition r_bind : crule := fun ra =>
  do prev <- ok_or (ra_prev ra) ;
  len_is (ra_concl ra) 1 ;;
  do pt <- premise_term prev ;
  do pq <- m_op2 OEquals pt ;
  do c0 <- idx (ra_concl ra) 0 ;
  do lr <- m_op2 OEquals c0 ;
  do bl <- ok_or (as_binder (fst lr)) ;
  do br <- ok_or (as_binder (snd lr)) ;
  let '(b, lb, left_) := bl in
  let '(b', rb, right_) := br in
  rassert (binder_beq b b') ;;
  teq left_ (fst pq) ;;
  teq right_ (snd pq) ;;
  rassert (negb (existsb (fun y => svmem y (fvars (fst pq)) && negb (svmem y lb)) rb)) ;;
  do a <- last_ctx (ra_ctx ra) ;
  do xs <- bind_xs [] a ;
  rassert (Nat.eqb (sv_count lb) (sv_count rb)) ;;
  (* 119-128; the second check, 129-132, is about an empty set *)
  rassert (forallb (fun x => svmem x rb || svmem x xs) lb).

(** ** let, subproof.rs:136-206 *)
Definition as_let (t : term) : option (list (string * term) * term) :=
  match t with TLet bs u => Some (bs, u) | _ => None end.
Definition asg_map (a : list anchor) : smap :=
  fold_left (fun m p => sins m (TVar (fst (asg_key p)) (snd (asg_key p))) (snd p)) (assigns a) [].
Definition let_pair (m : smap) (p : string * term) : outcome (term * term) :=
  do s <- ok_or (sget m (TVar (fst p) (sort_of (snd p)))) ; ROk (s, snd p).
Definition justifies (p : clause) (st : term * term) : outcome unit :=
  do t <- premise_term p ;
  do ab <- m_op2 OEquals t ;
  rassert (term_eqb (fst ab) (fst st) && term_eqb (snd ab) (snd st) ||
           term_eqb (fst ab) (snd st) && term_eqb (snd ab) (fst st)).
Definition r_let : crule := fun ra =>
  do prev <- ok_or (ra_prev ra) ;
  len_is (ra_concl ra) 1 ;;
  do a <- last_ctx (ra_ctx ra) ;
  let m := asg_map a in
  do c0 <- idx (ra_concl ra) 0 ;
  do lu <- m_op2 OEquals c0 ;
  do bu <- ok_or (as_let (fst lu)) ;
  let (bs, u) := bu in
  do pt <- premise_term prev ;
  do pu <- m_op2 OEquals pt ;
  teq u (fst pu) ;;
  teq (snd lu) (snd pu) ;;
  rassert (Nat.eqb (List.length bs) (List.length m)) ;;
  do prs <- omap (let_pair m) bs ;
  let prs' := filter (fun p => negb (term_eqb (fst p) (snd p))) prs in
  len_is (ra_prems ra) (List.length prs') ;;
  ofor (fun p => justifies (fst p) (snd p)) (combine (ra_prems ra) prs').

(** ** onepoint, subproof.rs:208-357 *)
(** 208-259 extract_points. The set [seen] only avoids repeated work. *)
Fixpoint find_points (pol : bool) (t : term) {struct t} : list (string * term) :=
  match t with
  | TBind BForall _ inner | TBind BExists _ inner => find_points pol inner
  | TOp o l =>
      if op_eqb o ONot then match l with [x] => find_points (negb pol) x | _ => [] end
      else if pol then
        if op_eqb o OEquals then
          match l with
          | [a; b] => (match a with TVar x _ => [(x, b)] | _ => [] end) ++ (match b with TVar x _ => [(x, a)] | _ => [] end)
          | _ => []
          end
        else if op_eqb o OAnd then flat_map (find_points true) l
        else []
      else
        if op_eqb o OImplies then match l with [p; q] => find_points true p ++ find_points false q | _ => [] end
        else if op_eqb o OOr then flat_map (find_points false) l
        else []
  | _ => []
  end.
(** 300-303; the order in which the points are visited is that of a hash set in the code *)
Fixpoint apply_points (st : cstack) (l : list (string * term)) : outcome (list (string * term)) :=
  match l with
  | [] => ROk []
  | (x, t) :: r =>
      do y <- ctx_apply st t ;
      let (t', st') := y in
      do r' <- apply_points st' r ; ROk ((x, t') :: r')
  end.
(** Term::as_quant, ast/term.rs:960-967 *)
Definition as_quant (t : term) : option (binder * list (string * sort) * term) :=
  match t with
  | TBind BForall vs u => Some (BForall, vs, u)
  | TBind BExists vs u => Some (BExists, vs, u)
  | _ => None
  end.
Definition point_eqb (a b : string * term) : bool := String.eqb (fst a) (fst b) && term_eqb (snd a) (snd b).
Definition r_onepoint : crule := fun ra =>
  do prev <- ok_or (ra_prev ra) ;
  len_is (ra_concl ra) 1 ;;
  do c0 <- idx (ra_concl ra) 0 ;
  do lr <- m_op2 OEquals c0 ;
  do ql <- ok_or (as_quant (fst lr)) ;
  let '(q, lb, left_) := ql in
  do qr <- (match as_quant (snd lr) with
            | Some (q', rb, u) => rassert (binder_beq q' q) ;; ROk (rb, u)
            | None => ROk ([], snd lr)
            end) ;
  let (rb, right_) := qr in
  do pt <- premise_term prev ;
  do pe <- m_op2 OEquals pt ;
  rassert (term_eqb (fst pe) left_ && term_eqb (snd pe) right_ || term_eqb (fst pe) right_ && term_eqb (snd pe) left_) ;;
  do pts <- apply_points (fresh_stack (ra_ctx ra)) (find_points (binder_beq q BExists) left_) ;
  do a <- last_ctx (ra_ctx ra) ;
  rassert (forallb (fun p => existsb (point_eqb (fst (fst p), snd p)) pts) (assigns a)) ;;
  rassert (binds_eqb (decls a) rb) ;;
  let expected := (decls a ++ map asg_key (assigns a))%list in
  rassert (forallb (fun v => svmem v expected) lb && forallb (fun v => svmem v lb) expected).

(** ** sko_ex and sko_forall, subproof.rs:359-445 *)
Definition sko_expected (q : binder) (x : string * sort) (rest : list (string * sort)) (phi : term) : term :=
  let inner := match rest with [] => phi | _ => TBind q rest phi end in
  TBind BChoice [x] (if binder_beq q BForall then tNot inner else inner).
Fixpoint sko_chain (q : binder) (m : smap) (bs : list (string * sort)) (phi : term) : outcome unit :=
  match bs with
  | [] => ROk tt
  | x :: rest =>
      do t <- ok_or (sget m (TVar (fst x) (snd x))) ;
      do e <- alpha_equiv t (sko_expected q x rest phi) ;
      rassert e ;;
      do sg <- subst_new [(TVar (fst x) (snd x), t)] ;
      do phi' <- subst sg phi ;
      sko_chain q m rest phi'
  end.
Definition r_sko (q : binder) : crule := fun ra =>
  do prev <- ok_or (ra_prev ra) ;
  len_is (ra_concl ra) 1 ;;
  do c0 <- idx (ra_concl ra) 0 ;
  do lr <- m_op2 OEquals c0 ;
  do ql <- ok_or (as_quant (fst lr)) ;
  let '(q', bs, phi) := ql in
  rassert (binder_beq q' q) ;;
  do pt <- premise_term prev ;
  do pe <- m_op2 OEquals pt ;
  teq (fst pe) phi ;;
  teq (snd pe) (snd lr) ;;
  do x <- ctx_apply_prev (fresh_stack (ra_ctx ra)) phi ;
  do a <- last_ctx (ra_ctx ra) ;
  sko_chain q (asg_map a) bs (fst x).

(** ** bind_let, extras.rs:113-157; the premises that are left once a pair has been justified (142-150) *)
Fixpoint skip_to (l r : term) (ps : list (term * term)) : option (list (term * term)) :=
  match ps with
  | [] => None
  | p :: ps' => if term_eqb (fst p) l && term_eqb (snd p) r then Some ps' else skip_to l r ps'
  end.
Fixpoint bind_let_pairs (lb rb : list (string * term)) (ps : list (term * term)) : outcome unit :=
  match lb, rb with
  | (x, v) :: lb', (y, w) :: rb' =>
      rassert (String.eqb x y) ;;
      if term_eqb v w then bind_let_pairs lb' rb' ps
      else match skip_to v w ps with Some ps' => bind_let_pairs lb' rb' ps' | None => RErr end
  | _, _ => ROk tt
  end.
Definition r_bind_let : crule := fun ra =>
  do prev <- ok_or (ra_prev ra) ;
  len_is (ra_concl ra) 1 ;;
  do pt <- premise_term prev ;
  do pq <- m_op2 OEquals pt ;
  do c0 <- idx (ra_concl ra) 0 ;
  do lr <- m_op2 OEquals c0 ;
  do bl <- ok_or (as_let (fst lr)) ;
  do br <- ok_or (as_let (snd lr)) ;
  let (lb, l) := bl in
  let (rb, r) := br in
  len_is lb (List.length rb) ;;
  do ps <- omap (fun p => do t <- premise_term p ; m_op2 OEquals t) (ra_prems ra) ;
  bind_let_pairs lb rb ps ;;
  teq l (fst pq) ;;
  teq r (snd pq).
