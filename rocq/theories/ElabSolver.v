(** The replacement of a step by the proof of an external solver: elaborator/hole.rs and elaborator/lia_generic.rs.  The solver's proof is arbitrary; it has
    been parsed and checked on its own (hole.rs:129-151, lia_generic.rs:124-145). *)
From Coq Require Import List String ZArith Bool Arith Lia.
From Verif Require Import Base Term Rules Checker Nodes ElabIds.
Import ListNotations.
Local Open Scope string_scope.
Local Open Scope nat_scope.
Local Open Scope list_scope.

(** increase_subproof_depth, hole.rs:153-171 and lia_generic.rs:147-165.  Simplification: mutate (mod.rs:391-430) recomputes the outbound premises of a
    subproof; they are the images of the old ones. *)
Fixpoint shift (delta : nat) (prefix : string) (n : pnode) : pnode :=
  match n with
  | PAssume a id d t => PAssume a (prefix ++ "." ++ id)%string (d + delta) t
  | PStep a id d cl r ps args ds prev =>
      PStep a (prefix ++ "." ++ id)%string (d + delta) cl r (map (shift delta prefix) ps) args (map (shift delta prefix) ds)
        (match prev with Some p => Some (shift delta prefix p) | None => None end)
  | PSub a l args out extra => PSub a (shift delta prefix l) args (map (shift delta prefix) out) (map (shift delta prefix) extra)
  end.

(** traverse, node.rs:119-163: the nodes in postorder, each once; a subproof's outbound premises first, the last one before the others.  The explicit stack
    is replaced by recursion. *)
Fixpoint visit (n : pnode) (st : list nat * list pnode) : list nat * list pnode :=
  if memb Nat.eqb (paddr n) (fst st) then st
  else
    let st' :=
      match n with
      | PAssume _ _ _ _ => st
      | PStep _ _ _ _ _ ps _ ds prev =>
          let s1 := fold_left (fun s p => visit p s) ds (fold_left (fun s p => visit p s) ps st) in
          match prev with Some p => visit p s1 | None => s1 end
      | PSub _ l _ out _ => visit l (fold_right (fun p s => visit p s) st out)
      end in
    (paddr n :: fst st', snd st' ++ [n]).
Definition is_assume_at (d : nat) (n : pnode) : bool := match n with PAssume _ _ d' _ => Nat.eqb d' d | _ => false end.
(** get_assumptions_of_depth, node.rs:176-187 *)
Definition assumptions_of (d : nat) (n : pnode) : list pnode := filter (is_assume_at d) (snd (visit n ([], []))).

(** hole.rs:180-184 *)
Definition solver_root (forest : list pnode) : outcome pnode :=
  unwrap (find (fun n => match pclause n with [] => true | _ => false end) forest).
(** hole.rs:189-195 *)
Definition nn (t : term) : term := tNot (tNot t).
Definition sub_clause (concl : clause) : clause := map nn concl ++ [tFalse].
(** hole.rs:200-263, lia_generic.rs:222-292: [k] is the first unused address, [sid] the id of the subproof, [nid j], [nid (j + 1)], ... the following ids. *)
Definition not_not_step (k d : nat) (nid : nat -> string) (p : nat * term) : pnode :=
  PStep (k + fst p) (nid (fst p)) d [tNot (nn (snd p)); snd p] "not_not" [] [] [] None.
Definition close (k d : nat) (concl : clause) (sid : string) (nid : nat -> string) (asms : list pnode) (prf : pnode) : pnode :=
  let n := List.length concl in
  let last := PStep k sid (S d) (sub_clause concl) "subproof" [] [] asms (Some prf) in
  let sub := PSub (k + 1) last [] [] [] in
  let nns := map (not_not_step (k + 2) d nid) (combine (seq 0 n) concl) in
  let fls := PStep (k + 2 + n) (nid n) d [tNot tFalse] "false" [] [] [] None in
  PStep (k + 3 + n) (nid (n + 1)) d concl "resolution" (sub :: nns ++ [fls]) [] [] None.
(** insert_solver_proof, hole.rs:173-263 *)
Definition hole_insert (k : nat) (root : string) (d : nat) (concl : clause) (forest : list pnode) : outcome pnode :=
  do prf <- solver_root forest ;
  let prf := shift (d + 1) root prf in
  ROk (close k d concl (pos root 0) (fun i => pos root (1 + i)) (assumptions_of (d + 1) prf) prf).

(** lia_generic.rs:196-202: the map from the assumed terms to their nodes; the last one wins *)
Definition assume_term (n : pnode) : option term := match n with PAssume _ _ _ t => Some t | _ => None end.
Definition node_for (asms : list pnode) (t : term) : option pnode :=
  find (fun n => match assume_term n with Some u => term_eqb u t | None => false end) (rev asms).
(** lia_generic.rs:204-228: [j] assumptions have been added *)
Fixpoint rebuild (k d : nat) (nid : nat -> string) (asms : list pnode) (covered : list term) (j : nat) (concl : clause) : list pnode * nat :=
  match concl with
  | [] => ([], j)
  | t :: r =>
      let u := tNot t in
      match (if memb term_eqb u covered then None else node_for asms u) with
      | Some n => let q := rebuild k d nid asms (u :: covered) j r in (n :: fst q, snd q)
      | None => let q := rebuild k d nid asms (u :: covered) (S j) r in (PAssume (k + j) (nid j) (d + 1) u :: fst q, snd q)
      end
  end.
(** insert_solver_proof, lia_generic.rs:167-292 *)
Definition lia_insert (k : nat) (root : string) (d : nat) (concl : clause) (forest : list pnode) : outcome pnode :=
  do prf <- solver_root forest ;
  let sid := pos root 0 in
  let prf := shift (d + 1) sid prf in
  let nid := pos (sid ++ ".added")%string in
  let q := rebuild k d nid (assumptions_of (d + 1) prf) [] 0 concl in
  ROk (close (k + snd q) d concl sid (fun i => nid (snd q + i)) (fst q) prf).

(** ** Specification: when the checker accepts the steps of a graph *)
(** all nodes below a node *)
Fixpoint subnodes (n : pnode) : list pnode :=
  n :: match n with
       | PAssume _ _ _ _ => []
       | PStep _ _ _ _ _ ps _ ds prev => flat_map subnodes ps ++ flat_map subnodes ds ++ match prev with Some p => subnodes p | None => [] end
       | PSub _ l _ out _ => flat_map subnodes out ++ subnodes l
       end.
(** an address denotes one node *)
Definition addr_ok (n : pnode) : Prop := forall x y, In x (subnodes n) -> In y (subnodes n) -> paddr x = paddr y -> x = y.
(** the nodes below a node that are inside of the subproof of depth [d]: the premises of smaller depth are outside *)
Fixpoint scope (d : nat) (n : pnode) : list pnode :=
  if Nat.ltb (pdepth n) d then []
  else n :: match n with
            | PAssume _ _ _ _ => []
            | PStep _ _ _ _ _ ps _ ds prev => flat_map (scope d) ps ++ flat_map (scope d) ds ++ match prev with Some p => scope d p | None => [] end
            | PSub _ l _ out _ => flat_map (scope d) out ++ scope d l
            end.
Section Accepted.
  Variable table : string -> option crule.
  Definition as_command (n : pnode) : command :=
    match n with PAssume _ id _ t => CAssume id t | PStep _ id _ cl r _ args _ _ => CStep (mkStep id cl r [] args []) | PSub _ _ args _ _ => CSub [] args 0 end.
  (** [cx]: the anchors of the open subproofs, innermost first; a premise of an outer scope is checked in its own context.  A step is accepted by its rule,
      only subproof steps discharge, and the last step of a subproof discharges all assumptions of the subproof. *)
  Fixpoint gok (cx : list (list anchor)) (n : pnode) : Prop :=
    match n with
    | PAssume _ _ _ _ => True
    | PStep _ _ d cl r ps args ds prev =>
        (exists f, table r = Some f /\
           f (mkRA cl (map pclause ps) args cx (match prev with Some p => Some (pclause p) | None => None end) (map as_command ds)) = ROk tt) /\
        (ds = [] \/ r = "subproof") /\
        fold_right and True (map (fun p => gok (skipn (d - pdepth p) cx) p) ps) /\ match prev with Some p => gok (skipn (d - pdepth p) cx) p | None => True end
    | PSub _ l args _ extra =>
        gok (args :: cx) l /\ fold_right and True (map (gok (args :: cx)) extra) /\
        (forall x, In x (flat_map (scope (pdepth l)) extra ++ scope (pdepth l) l) -> is_assume_at (pdepth l) x = true ->
           match l with PStep _ _ _ _ _ _ _ ds _ => In (paddr x) (map paddr ds) | _ => False end)
    end.
  (** the rules of the steps *)
  Fixpoint rules_in (n : pnode) : list string :=
    match n with
    | PAssume _ _ _ _ => []
    | PStep _ _ _ _ r ps _ _ prev => r :: flat_map rules_in ps ++ match prev with Some p => rules_in p | None => [] end
    | PSub _ l _ _ extra => rules_in l ++ flat_map rules_in extra
    end.
  (** the rule does not depend on the context *)
  Definition ctx_free (r : string) : Prop := forall f cl ps args cx cx' prev ds, table r = Some f ->
    f (mkRA cl ps args cx prev ds) = f (mkRA cl ps args cx' prev ds).
End Accepted.
(** the last step of a subproof is inside of a subproof *)
Fixpoint deep (n : pnode) : bool :=
  match n with
  | PAssume _ _ _ _ => true
  | PStep _ _ _ _ _ ps _ ds prev => forallb deep ps && forallb deep ds && match prev with Some p => deep p | None => true end
  | PSub _ l _ out extra => Nat.leb 1 (pdepth l) && deep l && forallb deep out && forallb deep extra
  end.
(** the elaborated proof: the node with address [a] is replaced everywhere (mutate, mod.rs:391-430) *)
Fixpoint replace_node (a : nat) (new n : pnode) : pnode :=
  if Nat.eqb (paddr n) a then new
  else match n with
  | PAssume _ _ _ _ => n
  | PStep a' id d cl r ps args ds prev =>
      PStep a' id d cl r (map (replace_node a new) ps) args (map (replace_node a new) ds)
        (match prev with Some p => Some (replace_node a new p) | None => None end)
  | PSub a' l args out extra => PSub a' (replace_node a new l) args (map (replace_node a new) out) (map (replace_node a new) extra)
  end.
(** the solver's nodes are allocated at other addresses than those of the proof *)
Fixpoint move (off : nat) (n : pnode) : pnode :=
  match n with
  | PAssume a id d t => PAssume (off + a) id d t
  | PStep a id d cl r ps args ds prev =>
      PStep (off + a) id d cl r (map (move off) ps) args (map (move off) ds) (match prev with Some p => Some (move off p) | None => None end)
  | PSub a l args out extra => PSub (off + a) (move off l) args (map (move off) out) (map (move off) extra)
  end.
(** the elaboration of the step with address [a], conclusion [concl] and id [root] at depth 0 of a proof, given the solver's proof [sp]; addresses below 100
    are used by the two proofs *)
Definition elaborate (ins : nat -> string -> nat -> clause -> list pnode -> outcome pnode) (sp proof : list command) (a : nat) (root : string) (concl : clause) : outcome (list command) :=
  do sf <- to_nodes sp ; do f <- to_nodes proof ;
  do n <- ins 200 root 0 concl (map (move 100) sf) ;
  to_list 1000 (map (replace_node a n) f).
