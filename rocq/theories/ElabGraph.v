(** The removal of reordering steps on the graph of a proof: sharing and depths, which the trees of Elab.v do not have. *)
From Coq Require Import List String ZArith Bool Arith Lia.
From Verif Require Import Base Term Rules Checker Nodes Elab ElabReorder.
Import ListNotations.
Open Scope string_scope.
Local Open Scope nat_scope.
Local Open Scope list_scope.

(** remove_reorderings with mutate, elaborator/reordering.rs:4-29 and mod.rs:330-430.  Every node is rebuilt once (mutate's cache), so the new nodes
    keep the addresses of the old ones here; a reordering step is replaced by the image of its premise.  Recomputed clauses are left out: they are
    those of [reorder_pass], which are the same as before when the reordering steps are copies. *)
Fixpoint gremove (n : pnode) : pnode :=
  match n with
  | PAssume _ _ _ _ => n
  | PStep a id d cl r ps args ds prev =>
      if String.eqb r "reordering" then match ps with p :: _ => gremove p | [] => n end
      else PStep a id d cl r (map gremove ps) args (map gremove ds) (match prev with Some p => Some (gremove p) | None => None end)
  | PSub a l args out extra => PSub a (gremove l) args (map gremove out) (map gremove extra)
  end.
(** the tree of a node *)
Fixpoint tree (n : pnode) : enode :=
  match n with
  | PAssume _ _ _ t => EPrem [t]
  | PStep _ _ _ cl r ps args _ _ => EStep cl r (map tree ps) args
  | PSub _ (PStep _ _ _ cl r ps args _ (Some prev)) anc _ _ => ESub anc cl r (map tree ps) args (tree prev)
  | PSub _ l _ _ _ => tree l
  end.
(** the graph has only copies *)
Fixpoint copies (n : pnode) : bool :=
  match n with
  | PAssume _ _ _ _ => true
  | PStep _ _ _ cl r ps _ ds prev =>
      (negb (String.eqb r "reordering") || match ps with p :: _ => list_eqb term_eqb cl (pclause p) | [] => false end) &&
      forallb copies ps && forallb copies ds && match prev with Some p => copies p | None => true end
  | PSub _ l _ out extra => copies l && forallb copies out && forallb copies extra
  end.
