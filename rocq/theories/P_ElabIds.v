(** C46: the ids of the steps that elaboration adds. *)
From Coq Require Import List String ZArith Bool Arith Lia.
From Verif Require Import Base Term Rules R_Eq Polyeq Checker CheckerSound Table Parser Elab ElabLocal ElabReorder ElabGraph Nodes ElabIds ElabSolver ElabRefute SolverInsert P_ElabSolver P_ElabSubproof.
Import ListNotations.
Local Open Scope string_scope.
Local Open Scope nat_scope.
Local Open Scope list_scope.

(** However many steps and nested subproofs replace a step, the ids are given out without a panic, they are different, and all begin with the id of the
    replaced step and [.t]. *)
Theorem C46_distinct : forall root p, exists ids, new_ids root p = ROk ids /\ NoDup ids /\ forall v, In v ids -> exists r, v = (root ++ ".t" ++ r)%string.
Proof.
  intros root p. exists (items_ids root 0 p). split; [apply new_ids_eq|]. split; [eapply new_ids_nodup, new_ids_eq|].
  intros v Hv. destruct (new_ids_begin root p _ v (new_ids_eq root p) Hv) as [r Hr]. exists r. rewrite Hr, append_assoc. reflexivity.
Qed.
Print Assumptions C46_distinct.
Example C46_distinct_example : new_ids "t5" [One; Sub [One; Sub [One]; One]; One] = ROk ["t5.t1"; "t5.t2.t1"; "t5.t2.t2.t1"; "t5.t2.t2"; "t5.t2.t3"; "t5.t2"; "t5.t3"].
Proof. vm_compute. reflexivity. Qed.

(** After one pass over a proof with distinct ids, all ids are distinct, provided that no id of the proof is another one followed by [.t] and something.
    Missing: proofs with such ids (refuted in C46_subproof_ids_refuted), a second pass (refuted below), and the insertion of solver proofs. *)
Theorem C46_pass_partial : forall p ids, NoDup ids -> (forall r v s, In r ids -> In v ids -> v <> (r ++ ".t" ++ s)%string) ->
  exists added, Forall2 (fun r l => new_ids r (p r) = ROk l) ids added /\ NoDup (ids ++ List.concat added).
Proof.
  intros p ids Hd Hi. exists (map (fun r => items_ids r 0 (p r)) ids). split.
  - clear. induction ids as [|r ids IH]; constructor; [apply new_ids_eq|exact IH].
  - rewrite <- flat_map_concat_map. apply pass_nodup; [exact Hd|]. intros r v Hr Hv [s Hs]. apply (Hi r v s Hr Hv). rewrite Hs, append_assoc. reflexivity.
Qed.
Print Assumptions C46_pass_partial.
Example C46_pass_example : NoDup ["h1"; "t1"; "t10"; "t1.h1"] /\ forall r v s, In r ["h1"; "t1"; "t10"; "t1.h1"] -> In v ["h1"; "t1"; "t10"; "t1.h1"] -> v <> (r ++ ".t" ++ s)%string.
Proof.
  split; [repeat constructor; cbn; intuition discriminate|].
  intros r v s Hr Hv. cbn in Hr, Hv. intuition (subst; discriminate).
Qed.

(** ** Two passes *)
(** The local pass replaces the resolution step [t3], whose conclusion has a double negation that its premises do not have, by four steps; the first of them
    keeps the id [t3], the others are called [t3.t1], [t3.t2] and [t3.t3] (resolution.rs:79-143).  The uncrowding pass then splits the step [t3] into a resolution
    [t3.t1] and a contraction [t3] (uncrowding.rs:95-139). *)
Definition a_ := vB "a". Definition c_ := vB "c".
Fixpoint nots (n : nat) (t : term) : term := match n with 0 => t | S n => tNot (nots n t) end.
Definition ps_ (a : nat) (id : string) (cl : clause) (r : string) (ps : list pnode) (args : list term) : pnode := PStep a id 0 cl r ps args [] None.
Definition w_h1 := PAssume 0 "h1" 0 (TOp OOr [a_; c_]).
Definition w_t1 := ps_ 1 "t1" [a_; c_] "or" [w_h1] [].
Definition w_h2 := PAssume 2 "h2" 0 (TOp OOr [tNot a_; c_]).
Definition w_t2 := ps_ 3 "t2" [tNot a_; c_] "or" [w_h2] [].
Definition w_h3 := PAssume 4 "h3" 0 (tNot c_).
Definition w_prems : list term := [TOp OOr [a_; c_]; TOp OOr [tNot a_; c_]; tNot c_].
(** the proof *)
Definition g0 : pnode := ps_ 6 "t4" [] "resolution" [ps_ 5 "t3" [nots 2 c_] "resolution" [w_t1; w_t2] []; w_h3] [].
(** after the local pass *)
Definition w_n1 := ps_ 11 "t3.t1" [nots 4 c_; nots 1 c_] "not_not" [] [].
Definition w_n2 := ps_ 12 "t3.t2" [nots 5 c_; nots 2 c_] "not_not" [] [].
Definition g1 : pnode :=
  let t3 := ps_ 10 "t3" [c_] "resolution" [w_t1; w_t2] [a_; tTrue] in
  let t33 := ps_ 13 "t3.t3" [nots 2 c_] "resolution" [t3; w_n1; w_n2] [c_; tTrue; nots 4 c_; tTrue] in
  ps_ 14 "t4" [] "resolution" [t33; w_h3] [nots 1 c_; tFalse].
(** after the uncrowding pass *)
Definition g2 : pnode :=
  let t31 := ps_ 20 "t3.t1" [c_; c_] "resolution" [w_t1; w_t2] [a_; tTrue] in
  let t3 := ps_ 21 "t3" [c_] "contraction" [t31] [] in
  let t33 := ps_ 22 "t3.t3" [nots 2 c_] "resolution" [t3; w_n1; w_n2] [c_; tTrue; nots 4 c_; tTrue] in
  ps_ 23 "t4" [] "resolution" [t33; w_h3] [nots 1 c_; tFalse].
Definition listed (g : pnode) : outcome (list command) := to_list 1000 [g].
Lemma passes : elab_local (tree g0) = ROk (tree g1) /\ uncrowd_pass (tree g1) = ROk (tree g2) /\ reorder_pass (tree g2) = ROk (tree g2) /\
  new_ids "t3" [One; One; One] = ROk ["t3.t1"; "t3.t2"; "t3.t3"] /\ new_ids "t3" [One] = ROk ["t3.t1"].
Proof. repeat split; vm_compute; reflexivity. Qed.
(** The proof is accepted, and so are the results of the passes; the last one cannot be read after printing. *)
Theorem C46_two_passes_refuted : exists p0 p1 p2,
  listed g0 = ROk p0 /\ listed g1 = ROk p1 /\ listed g2 = ROk p2 /\
  check tab cfg0 w_prems p0 = ROk false /\ check tab cfge w_prems p1 = ROk false /\ check tab cfge w_prems p2 = ROk false /\
  reread p0 = ROk p0 /\ reread p1 = ROk p1 /\ reread p2 = RErr.
Proof.
  destruct (listed g0) as [p0| |] eqn:E0; vm_compute in E0; try discriminate. destruct (listed g1) as [p1| |] eqn:E1; vm_compute in E1; try discriminate.
  destruct (listed g2) as [p2| |] eqn:E2; vm_compute in E2; try discriminate. exists p0, p1, p2. injection E0 as <-. injection E1 as <-. injection E2 as <-.
  repeat split; vm_compute; reflexivity.
Qed.
Print Assumptions C46_two_passes_refuted.
