(** Quantifier rules, checker/rules/quantifier.rs. *)
From Coq Require Import List String ZArith Bool Arith Lia.
From Verif Require Import Base Term Field Sem Sorting Rules Utils Polyeq Std PolyeqSound R_Simp Subst SubstSound SubstClean AlphaSound
  Checker CheckerSem Context ContextSound R_Binder BinderSound OnepointSound.
Import ListNotations.
Local Open Scope nat_scope.
Local Notation doms I := (Forall2 (fun s v => idom I s v = true)).

(** ** forall_inst, 8-36 *)
Definition inst_map (bs : list (string * sort)) (args : list term) : smap :=
  fold_left (fun m p => sins m (TVar (fst (fst p)) (snd (fst p))) (snd p)) (combine bs args) [].
Definition r_forall_inst : rule := fun c _ args =>
  len_is c 1 ;;
  do x <- idx c 0 ;
  do lr <- m_op2 OOr x ;
  do n <- m_op1 ONot (fst lr) ;
  do bo <- m_bind BForall n ;
  len_is args (List.length (fst bo)) ;;
  ofor (fun p => rassert (sort_eqb (snd (fst p)) (sort_of (snd p)))) (combine (fst bo) args) ;;
  do m <- subst_new (inst_map (fst bo) args) ;
  do e <- subst m (snd bo) ;
  do r <- alpha_equiv (snd lr) e ;
  rassert r.

(** ** qnt_join, 38-61 *)
(** utils.rs [dedup]: the first occurrences *)
Fixpoint sv_dedup (seen l : list (string * sort)) : list (string * sort) :=
  match l with
  | [] => []
  | v :: r => if svmem v seen then sv_dedup seen r else v :: sv_dedup (v :: seen) r
  end.
Definition r_qnt_join : rule := fun c _ _ =>
  len_is c 1 ;;
  do x <- idx c 0 ;
  do lr <- m_op2 OEquals x ;
  do a <- ok_or (as_quant (fst lr)) ; let '(q1, b1, l1) := a in
  do b <- ok_or (as_quant l1) ; let '(q2, b2, l2) := b in
  do d <- ok_or (as_quant (snd lr)) ; let '(q3, b3, r3) := d in
  rassert (binder_beq q1 q2) ;;
  rassert (binder_beq q2 q3) ;;
  teq l2 r3 ;;
  rassert (binds_eqb b3 (sv_dedup [] (b1 ++ b2))).

(** ** qnt_rm_unused, 63-107 *)
Definition r_qnt_rm_unused : rule := fun c _ _ =>
  len_is c 1 ;;
  do x <- idx c 0 ;
  do lr <- m_op2 OEquals x ;
  do a <- ok_or (as_quant (fst lr)) ; let '(q1, lv, phi1) := a in
  let fv := fvars phi1 in
  if negb (existsb (fun v => svmem v fv) lv) && term_eqb phi1 (snd lr) then ROk tt
  else
    do b <- ok_or (as_quant (snd lr)) ; let '(q2, rv, phi2) := b in
    rassert (binder_beq q1 q2) ;;
    teq phi1 phi2 ;;
    rassert (forallb (fun v => svmem v lv) rv) ;;
    rassert (forallb (fun v => svmem v rv || negb (svmem v fv)) lv).

(** ** qnt_cnf *)
(** negation_normal_form, 110-178; the cache is left out *)
Definition lit (pol : bool) (t : term) : term := if pol then t else tNot t.
Definition two_pairs (pol : bool) (a b c d : term) : term :=
  if pol then TOp OAnd [TOp OOr [a; b]; TOp OOr [c; d]] else TOp OOr [TOp OAnd [a; b]; TOp OAnd [c; d]].
Fixpoint nnf (pol : bool) (t : term) {struct t} : term :=
  match t with
  | TOp o l =>
      if op_eqb o ONot then match l with [x] => nnf (negb pol) x | _ => lit pol t end
      else if op_eqb o OAnd then TOp (if pol then OAnd else OOr) (map (nnf pol) l)
      else if op_eqb o OOr then TOp (if pol then OOr else OAnd) (map (nnf pol) l)
      else if op_eqb o OImplies then
        match l with
        | [p; q] => TOp (if pol then OOr else OAnd) [nnf (negb pol) p; nnf pol q]
        | _ => lit pol t
        end
      else if op_eqb o OIte then
        match l with
        | [p; q; r] => two_pairs pol (nnf (negb pol) p) (nnf pol q) (nnf pol p) (nnf pol r)
        | _ => lit pol t
        end
      else if op_eqb o OEquals then
        match l with
        | [p; q] =>
            if sort_eqb (sort_of p) SBool
            then two_pairs pol (nnf (negb pol) p) (nnf pol q) (nnf (negb pol) q) (nnf pol p)
            else lit pol t
        | _ => lit pol t
        end
      else lit pol t
  | TBind BForall vs i => TBind (if pol then BForall else BExists) vs (nnf pol i)
  | TBind BExists vs i => TBind (if pol then BExists else BForall) vs (nnf pol i)
  | _ => lit pol t
  end.
(** distribute, 195-221 *)
Fixpoint distribute (fs : list (list (list term))) : outcome (list (list term)) :=
  match fs with
  | [] => RPanic
  | [f] => ROk f
  | f :: r => do t <- distribute r ; ROk (flat_map (fun h => map (fun k => h ++ k)%list t) f)
  end.
(** prenex_forall, 223-242 *)
Fixpoint prenex (t : term) : list (string * sort) * term :=
  match t with
  | TOp o l =>
      if op_eqb o OAnd || op_eqb o OOr
      then (flat_map (fun a => fst (prenex a)) l, TOp o (map (fun a => snd (prenex a)) l))
      else ([], t)
  | TBind BForall vs i => (vs ++ fst (prenex i), snd (prenex i))%list
  | _ => ([], t)
  end.
(** conjunctive_normal_form, 244-262 *)
Fixpoint cnf (t : term) : outcome (list (list term)) :=
  match t with
  | TOp o l =>
      if op_eqb o OAnd then do fs <- omap cnf l ; ROk (List.concat fs)
      else if op_eqb o OOr then do fs <- omap cnf l ; distribute fs
      else ROk [[t]]
  | _ => ROk [[t]]
  end.
Definition cnf_clause (c : list term) : outcome term :=
  match c with [] => RPanic | [t] => ROk t | _ => ROk (TOp OOr c) end.
(** 264-326 *)
Definition r_qnt_cnf : rule := fun c _ _ =>
  len_is c 1 ;;
  do x <- idx c 0 ;
  do lr <- m_op2 OOr x ;
  do l <- m_op1 ONot (fst lr) ;
  do a <- ok_or (as_quant l) ; let '(lq, lb, phi) := a in
  do b <- ok_or (as_quant (snd lr)) ; let '(rq, rb, phi') := b in
  rassert (binder_beq lq BForall) ;;
  rassert (binder_beq rq BForall) ;;
  let (new, pre) := prenex (nnf true phi) in
  let nb := (lb ++ new)%list in
  do cs <- cnf pre ;
  do clauses <- omap cnf_clause cs ;
  rassert (forallb (fun v => svmem v nb) rb) ;;
  rassert (existsb (fun k => term_eqb k phi') clauses) ;;
  let fv := fvars phi' in
  rassert (forallb (fun v => svmem v rb || negb (svmem v fv)) nb).

(** ** miniscope_distribute, 328-350 *)
Definition mini_shape (b : binder) (o : op) (x : term) : option (list (string * sort) * list term * list term) :=
  match op2 OEquals x with
  | Some (l, r) =>
      match as_bind b l, as_op o r with
      | Some (bs, body), Some rs => match as_op o body with Some phis => Some (bs, phis, rs) | None => None end
      | _, _ => None
      end
  | None => None
  end.
Definition mini_pair (b : binder) (bs : list (string * sort)) (p : term * term) : outcome unit :=
  do bi <- m_bind b (snd p) ; rassert (binds_eqb bs (fst bi)) ;; teq (fst p) (snd bi).
Definition mini_match (b1 : binder) (o1 : op) (b2 : binder) (o2 : op) (x : term)
  : outcome (binder * op * list (string * sort) * list term * list term) :=
  match mini_shape b1 o1 x with
  | Some (bs, phis, rs) => ROk (b1, o1, bs, phis, rs)
  | None => match mini_shape b2 o2 x with Some (bs, phis, rs) => ROk (b2, o2, bs, phis, rs) | None => RErr end
  end.
Definition r_miniscope_distribute : rule := fun c _ _ =>
  len_is c 1 ;;
  do x <- idx c 0 ;
  do m <- mini_match BForall OAnd BExists OOr x ;
  let '(b, o, bs, phis, rs) := m in
  len_is rs (List.length phis) ;;
  ofor (mini_pair b bs) (combine phis rs).
(** ** miniscope_split, 352-400 *)
Definition sv_remove (v : string * sort) (l : list (string * sort)) : list (string * sort) := filter (fun w => negb (svar_eqb v w)) l.
Fixpoint take_all (bs set : list (string * sort)) : outcome (list (string * sort)) :=
  match bs with
  | [] => ROk set
  | v :: r => if svmem v set then take_all r (sv_remove v set) else RErr
  end.
Fixpoint split_pairs (b : binder) (set : list (string * sort)) (ps : list (term * term)) : outcome unit :=
  match ps with
  | [] => ROk tt
  | (phi, r) :: ps' =>
      if term_eqb phi r then split_pairs b set ps'
      else do bi <- m_bind b r ; teq phi (snd bi) ;; do set' <- take_all (fst bi) set ; split_pairs b set' ps'
  end.
Definition r_miniscope_split : rule := fun c _ _ =>
  len_is c 1 ;;
  do x <- idx c 0 ;
  do m <- mini_match BForall OOr BExists OAnd x ;
  let '(b, o, bs, phis, rs) := m in
  len_is rs (List.length phis) ;;
  split_pairs b bs (combine phis rs) ;;
  rassert (negb (existsb (fun v => svmem v (fvars (TOp o rs))) bs)).
(** ** miniscope_ite, 402-427 *)
Definition r_miniscope_ite : rule := fun c _ _ =>
  len_is c 1 ;;
  do x <- idx c 0 ;
  do lr <- m_op2 OEquals x ;
  do a <- m_bind BForall (fst lr) ;
  do i <- m_op3 OIte (snd a) ; let '(p1, p2, p3) := i in
  do j <- m_op3 OIte (snd lr) ; let '(q1, q2, q3) := j in
  do b2 <- m_bind BForall q2 ;
  do b3 <- m_bind BForall q3 ;
  teq p1 q1 ;; teq p2 (snd b2) ;; teq p3 (snd b3) ;;
  rassert (binds_eqb (fst a) (fst b2)) ;;
  rassert (binds_eqb (fst a) (fst b3)) ;;
  rassert (negb (existsb (fun v => svmem v (fvars p1)) (fst a))).
