(** Uncrowding resolution steps: elaborator/uncrowding.rs. *)
From Coq Require Import List String ZArith Bool Arith Lia Permutation.
From Verif Require Import Base Term Sem Rules R_Resolution R_Extras R_ResExact Utils Checker Elab ElabRes.
Import ListNotations.
Open Scope string_scope.
Local Open Scope nat_scope.
Local Open Scope list_scope.

(** ResolutionPremise, uncrowding.rs:10-14 *)
Record rprem := mkRP { rp_node : enode; rp_clause : list lit; rp_pivot : option (lit * bool) }.
(** the pairs of arguments, 21-30: [chunk[1]] panics if there is no polarity, and everything but [true] is the polarity [false].  (The zip is lazy:
    an odd number of arguments only panics if there are premises enough.  The checker has rejected such a step before.) *)
Fixpoint arg_pivots (args : list term) : outcome (list (lit * bool)) :=
  match args with
  | [] => ROk []
  | [_] => RPanic
  | t :: u :: r => do l <- arg_pivots r ; ROk ((remove_all_negations t, is_true u) :: l)
  end.
(** from_step, 17-36 *)
Definition from_step (ps : list enode) (args : list term) : outcome (list rprem) :=
  do pv <- arg_pivots args ;
  ROk (map (fun e : enode * option (lit * bool) => mkRP (fst e) (lits (eclause (fst e))) (snd e)) (combine ps (None :: map Some pv))).

(** the first occurrence is removed: [position] and [remove] (50-51), the loop over the next clause (53-62) *)
Fixpoint rm1 (x : lit) (l : list lit) : option (list lit) :=
  match l with
  | [] => None
  | y :: r => if lit_eqb y x then Some r else match rm1 x r with Some r' => Some (y :: r') | None => None end
  end.
(** apply_naive_resolution, 38-67 *)
Fixpoint naive_run (cur : list lit) (ps : list rprem) : outcome (list lit) :=
  match ps with
  | [] => ROk cur
  | q :: r =>
      do pb <- unwrap (rp_pivot q) ;
      do cur1 <- unwrap (rm1 (pcur (fst pb) (snd pb)) cur) ;
      do nxt <- unwrap (rm1 (pnext (fst pb) (snd pb)) (rp_clause q)) ;
      naive_run (cur1 ++ nxt) r
  end.
Definition naive (ps : list rprem) : outcome (list lit) :=
  match ps with
  | q :: ((_ :: _) as r) => naive_run (rp_clause q) r
  | _ => RPanic
  end.

(** LiteralInfo, 217-226.  [in_polarity] is only read when the premises are rotated. *)
Record linfo := mkLI { in_crowding : bool; in_last : nat; in_elim : nat; in_polarity : bool }.
(** the last premise, counted from [i], with the literal (243-249) *)
Fixpoint last_incl (x : lit) (i : nat) (ps : list rprem) (acc : nat) : nat :=
  match ps with
  | [] => acc
  | q :: r => last_incl x (S i) r (if memb lit_eqb x (rp_clause q) then i else acc)
  end.
(** the last premise, counted from [i], after [k] that eliminates the literal (250-263) *)
Fixpoint eliminator (x : lit) (k i : nat) (ps : list rprem) (acc : nat * bool) : outcome (nat * bool) :=
  match ps with
  | [] => ROk acc
  | q :: r =>
      do pb <- unwrap (rp_pivot q) ;
      eliminator x k (S i) r (if lit_eqb (pcur (fst pb) (snd pb)) x && (k <? i) then (i, snd pb) else acc)
  end.
(** find_crowding_literals, 228-265.  The entries of the hash map are listed in the order in which their literals occur: see the lemma
    [cuts_order] for why this does not matter. *)
Definition literal_info (concl target : list lit) (ps : list rprem) (x : lit) : outcome linfo :=
  let k := last_incl x 0 ps 0 in
  do e <- eliminator x k 1 (tl ps) (0, false) ;
  ROk (mkLI (memb lit_eqb x concl && negb (memb lit_eqb x target)) k (fst e) (snd e)).
Definition crowding_literals (concl target : list lit) (ps : list rprem) : outcome (list (lit * linfo)) :=
  omap (fun x => do i <- literal_info concl target ps x ; ROk (x, i)) (Utils.dedup lit_eqb (flat_map rp_clause ps)).

(** Event, 268-272: eliminations come first *)
Inductive event := Elimination | LastInclusion.
Definition ev := (lit * event * nat)%type.
Definition ev_leb (a b : ev) : bool :=
  if snd a <? snd b then true else
  if snd a =? snd b then match snd (fst a), snd (fst b) with LastInclusion, Elimination => false | _, _ => true end else false.
(** [sort_unstable_by], 286-291, as an insertion sort *)
Fixpoint ev_insert (a : ev) (l : list ev) : list ev :=
  match l with [] => [a] | b :: r => if ev_leb a b then a :: l else b :: ev_insert a r end.
Fixpoint ev_sort (l : list ev) : list ev := match l with [] => [] | a :: r => ev_insert a (ev_sort r) end.
Definition events (infos : list (lit * linfo)) : list ev :=
  flat_map (fun e : lit * linfo => [(fst e, LastInclusion, in_last (snd e)); (fst e, Elimination, in_elim (snd e))])
           (filter (fun e => in_crowding (snd e)) infos).
(** 293-307; [need] is the set of literals to contract *)
Fixpoint contract_at (need : list lit) (l : list ev) : list nat :=
  match l with
  | [] => []
  | (x, LastInclusion, _) :: r => contract_at (x :: need) r
  | (x, Elimination, i) :: r => if memb lit_eqb x need then i :: contract_at [] r else contract_at need r
  end.
(** find_needed_contractions, 267-309 *)
Definition needed_contractions (infos : list (lit * linfo)) : list nat := contract_at [] (ev_sort (events infos)).

(** literals_to_clause, resolution.rs:67-70 *)
Definition lits_clause (l : list lit) : clause := map literal_to_term l.
(** add_partial_resolution_step, 133-193; the clause of the result comes along *)
Definition partial_step (ps : list rprem) (target : clause) : outcome (enode * list lit) :=
  do concl <- naive ps ;
  let contracted := Utils.dedup lit_eqb concl in
  do pv <- omap (fun q => unwrap (rp_pivot q)) (tl ps) ;
  let args := flat_map (fun pb : lit * bool => [literal_to_term (fst pb); if snd pb then tTrue else tFalse]) pv in
  let c := lits_clause concl in
  let res := EStep c "resolution" (map rp_node ps) args in
  if list_eqb term_eqb c target then ROk (res, concl)
  else if negb (List.length contracted =? List.length concl)
       then ROk (EStep (Utils.dedup term_eqb c) "contraction" [res] [], contracted)
       else ROk (res, concl).
(** the loop over the cuts, 96-106.  [q] is the premise at index [at_], where the previous step was put, and [rest] are the premises after it:
    [premises[previous_cut..cut]] is [q] with the next [cut - at_ - 1] of them.  (A slice that ends before it begins panics as well as one with fewer than two
    premises.) *)
Fixpoint run_cuts (target : clause) (at_ : nat) (q : rprem) (rest : list rprem) (cuts : list nat) : outcome enode :=
  match cuts with
  | [] => ROk (rp_node q)
  | cut :: r =>
      let k := cut - at_ - 1 in
      do s <- partial_step (q :: firstn k rest) target ;
      run_cuts target (cut - 1) (mkRP (fst s) (snd s) None) (skipn k rest) r
  end.
(** 108-137 *)
Definition add_missing (n : enode) (target : clause) : outcome enode :=
  if List.length (eclause n) =? List.length target then ROk n
  else do w <- weakened (eclause n) target ; ROk (EStep w "weakening" [n] []).
Definition put_in_order (n : enode) (target : clause) : outcome enode :=
  if list_eqb term_eqb (eclause n) target then ROk n
  else passert (forallb (fun t => memb term_eqb t target) (eclause n) && forallb (fun t => memb term_eqb t (eclause n)) target) ;;
       ROk (EStep target "reordering" [n] []).
Definition cuts_of (c : clause) (ps : list rprem) : outcome (list nat) :=
  do concl <- naive ps ;
  do infos <- crowding_literals concl (lits c) ps ;
  let l := needed_contractions infos in
  ROk (if match rev l with i :: _ => i =? List.length ps | [] => false end then l else l ++ [List.length ps]).
(** uncrowd_resolution without rotation of the premises, 69-137 (mod.rs:114-124: only for steps with arguments) *)
Definition uncrowd (c : clause) (ps : list enode) (args : list term) : outcome enode :=
  do qs <- from_step ps args ;
  do cuts <- cuts_of c qs ;
  match qs with
  | [] => RPanic
  | q :: rest =>
      do n <- run_cuts c 0 q rest cuts ;
      do n1 <- add_missing n c ;
      put_in_order n1 c
  end.
