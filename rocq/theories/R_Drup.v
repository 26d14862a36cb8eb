(** drup.rs and checker/rules/drup.rs: clausal proofs by reverse unit propagation, with deletion and optionally RAT. *)
From Coq Require Import List String ZArith Bool Arith Lia.
From Verif Require Import Base Term Sem Rules Utils R_Resolution.
Import ListNotations.
Local Open Scope nat_scope.

(** drup.rs:9 *)
Definition dlit : Type := (bool * term)%type.
Definition dneg (l : dlit) : dlit := (negb (fst l), snd l).
(** [HashMap<Literal, bool>] *)
Definition denv : Type := list (dlit * bool).
Definition eget (e : denv) (l : dlit) : option bool := im_get blit_eqb e l.
Definition eset (e : denv) (l : dlit) (b : bool) : denv := im_insert blit_eqb e l b.

(** the two watched literals of a clause, and the clause.  The hashes kept for the history of the elaborator are left out. *)
Definition watched : Type := (option dlit * option dlit)%type.
Definition wclause : Type := (watched * list dlit)%type.
Inductive implied : Type := Pivot (l : dlit) (c : list dlit) | Bottom (c : list dlit) | NotUnsat.

(** 102-108 and 119-126: a literal that is not watched replaces the first watched one *)
Definition opt_is (o : option dlit) (l : dlit) : bool := match o with Some x => blit_eqb x l | None => false end.
Definition watch (w : watched) (l : dlit) : watched :=
  if opt_is (fst w) l || opt_is (snd w) l then w
  else match fst w, snd w with
       | Some _, _ => (Some l, snd w)
       | None, Some _ => (None, Some l)
       | None, None => w
       end.
(** the loop 95-133 *)
Fixpoint scan (e : denv) (lits : list dlit) (w : watched) (unset : option dlit) (not_unit : bool) : watched * option dlit * bool :=
  match lits with
  | [] => (w, unset, not_unit)
  | l :: r =>
      match eget e l with
      | None => match unset with
                | Some _ => scan e r (watch w l) unset true
                | None => scan e r (watch w l) (Some l) not_unit
                end
      | Some true => scan e r (watch w l) unset true
      | Some false => scan e r w unset not_unit
      end
  end.
(** 62-150 get_implied_clause; the two [assert_eq!] are the panics *)
Fixpoint get_implied (e : denv) (cls : list wclause) : outcome (implied * list wclause) :=
  match cls with
  | [] => ROk (NotUnsat, [])
  | (w, lits) :: r =>
      let next (w' : watched) := do x <- get_implied e r ; ROk (fst x, (w', lits) :: snd x) in
      match w with
      | (None, None) => ROk (Bottom lits, cls)
      | (Some l, None) | (None, Some l) =>
          match eget e l with
          | Some false => if List.length lits =? 1 then ROk (Bottom lits, cls) else RPanic
          | Some true => next w
          | None => if List.length lits =? 1 then ROk (Pivot l lits, cls) else RPanic
          end
      | (Some a, Some b) =>
          match eget e a, eget e b with
          | Some true, _ => next w
          | _, Some true => next w
          | None, None => next w
          | _, _ =>
              let '(w', unset, not_unit) := scan e lits w None false in
              if not_unit then next w'
              else match unset with
                   | Some l => ROk (Pivot l lits, (w', lits) :: r)
                   | None => ROk (Bottom lits, (w', lits) :: r)
                   end
          end
      end
  end.
(** 154-205 rup: the loop, with fuel (None: out of fuel) *)
Fixpoint rup_go (fuel : nat) (e : denv) (cls : list wclause) : outcome (option bool) :=
  match fuel with
  | 0 => ROk None
  | S n =>
      do x <- get_implied e cls ;
      match fst x with
      | Bottom _ => ROk (Some true)
      | Pivot l _ => rup_go n (eset (eset e l true) (dneg l) false) (snd x)
      | NotUnsat => ROk (Some false)
      end
  end.
(** 164-192: the negated literals of the goal as units, then the clauses with their first two literals watched *)
Definition first_two (lits : list dlit) : watched := (nth_error lits 0, nth_error lits 1).
Definition goal_unit (t : term) : wclause := let l := dneg (rm_neg_polarity t) in ((Some l, None), [l]).
Definition init_clauses (cls : list (list dlit)) (goal : list term) : list wclause :=
  (map goal_unit goal ++ map (fun c => (first_two c, c)) cls)%list.
Definition lit_count (cls : list wclause) : nat := List.length (flat_map snd cls).
(** the fuel is the number of literals plus one; [rup_total] shows that it never runs out *)
Definition rup (cls : list (list dlit)) (goal : list term) : outcome bool :=
  let ws := init_clauses cls goal in
  do r <- rup_go (S (lit_count ws)) [] ws ;
  match r with Some b => ROk b | None => RPanic end.

(** 307-351 check_drat (the case where some clause fails ends the loop) *)
Definition lit_term (l : dlit) : term := if fst l then snd l else tNot (snd l).
Fixpoint drat_loop (all : list (list dlit)) (np : dlit) (rest : list term) (cls : list (list dlit)) : outcome bool :=
  match cls with
  | [] => ROk true
  | c :: r =>
      if memb blit_eqb np c then
        do b <- rup all (map lit_term (set_remove blit_eqb np c) ++ rest)%list ;
        if b : bool then drat_loop all np rest r else ROk false
      else drat_loop all np rest r
  end.
Definition check_drat (cls : list (list dlit)) (goal : list term) : outcome bool :=
  match goal with
  | [] => RPanic
  | p :: rest => drat_loop cls (dneg (rm_neg_polarity p)) rest cls
  end.

Section Hash.
  (** The clauses are kept in a map from hashes.  The hash is a parameter, as is its type. *)
  Context {K : Type} (keqb : K -> K -> bool) (hash : term -> K).
  (** 44-58 *)
  Definition hash_term (t : term) : K := let (p, u) := rm_neg_polarity t in hash (if p then u else tNot u).
  Definition dmap : Type := list (K * list dlit).
  Definition lits_of (l : list term) : list dlit := set_of blit_eqb (map rm_neg_polarity l).
  Definition dins (m : dmap) (k : K) (c : list dlit) : dmap := im_insert keqb m k c.
  Definition dremove (m : dmap) (k : K) : dmap := filter (fun p => negb (keqb k (fst p))) m.
  (** 217-234: the premises; each is a [cl] term here *)
  Definition dclause (t : term) : list dlit := lits_of (match as_op OCl t with Some l => l | None => [t] end).
  Definition dinit (ps : list term) : dmap := fold_left (fun m p => dins m (hash_term p) (dclause p)) ps [].
  (** 237-289: one argument.  [terms[0]] of an empty list panics, as does an argument that is not a [cl]. *)
  Definition dstep (rat : bool) (m : dmap) (t : term) : outcome dmap :=
    match op1 ODelete t with
    | Some d =>
        match as_op OCl d with
        | Some [] => RPanic
        | Some l => ROk (dremove m (hash_term (TOp OCl l)))
        | None => RPanic
        end
    | None =>
        match as_op OCl t with
        | None => RPanic
        | Some l =>
            do b <- rup (map snd m) l ;
            do b' <- (if b : bool then ROk true else if rat && negb (Nat.eqb (List.length l) 0) then check_drat (map snd m) l else ROk false) ;
            rassert b' ;;
            ROk (dins m (hash_term t) (lits_of l))
        end
    end.
  Fixpoint dsteps (rat : bool) (m : dmap) (args : list term) : outcome dmap :=
    match args with
    | [] => ROk m
    | t :: r => do m' <- dstep rat m t ; dsteps rat m' r
    end.
  (** 209-305 check_drup and checker/rules/drup.rs *)
  Definition r_drup (rat : bool) : rule := fun c ps args =>
    do m <- dsteps rat (dinit (map (TOp OCl) ps)) args ;
    rassert (match im_get keqb m (hash_term (TOp OCl c)) with Some _ => true | None => false end).
End Hash.
