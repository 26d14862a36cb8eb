(** Properties C30 (hash consing) and C42 (hash consing across the pools of a parallel check). *)
From Coq Require Import List String ZArith Bool Arith Lia.
From Verif Require Import Base Term Parser Pool.
Import ListNotations.
Local Open Scope list_scope.

(** In one pool, after any additions and for any allocator, two allocations are the same iff they represent the
    same structure, and every allocation represents one. *)
Theorem C30_hash_consing : forall alloc, (forall p, ~ In (alloc p) (map fst p)) -> forall p, reach alloc p ->
  (forall a, In a (map fst p) <-> exists t, denotes p a t) /\
  forall a b t u, denotes p a t -> denotes p b u -> (a = b <-> t = u).
Proof.
  intros alloc Hf p Hr. pose proof (reach_wf alloc Hf p Hr) as Hw. split.
  - intros a. split.
    + intros Ha. destruct (unfold_In p a Hw Ha) as [t Ht]. exists t. apply denotes_unfold; auto.
    + intros [t Ht]. apply denotes_unfold in Ht; auto. eapply unfold_In'; eauto.
  - intros a b t u Ha Hb. apply denotes_unfold in Ha, Hb; auto. split; [congruence|]. intros <-. eapply unfold_inj; eauto.
Qed.
Print Assumptions C30_hash_consing.

(** Adding a term, then anything else, then a second term: the two results are the same pointer iff the terms are
    equal; and the results represent the terms that were added. *)
Theorem C30_terms : forall alloc, (forall p, ~ In (alloc p) (map fst p)) -> forall p t q u, reach alloc p ->
  later alloc (fst (build alloc p (term_tree t))) q ->
  (snd (build alloc p (term_tree t)) = snd (build alloc q (term_tree u)) <-> t = u) /\
  denotes (fst (build alloc p (term_tree t))) (snd (build alloc p (term_tree t))) (term_tree t) /\
  reach alloc (fst (build alloc p (term_tree t))).
Proof.
  intros alloc Hf p t q u Hr Hl. pose proof (reach_wf alloc Hf p Hr) as Hw.
  destruct (build_spec alloc Hf (term_tree t) p Hw) as [H1 H2]. split; [|split].
  - rewrite (build_iff alloc Hf p (term_tree t) (term_tree u) q Hr Hl). split; [apply term_tree_inj|congruence].
  - apply denotes_unfold; auto. exact (proj1 (later_wf alloc Hf _ _ H1 Hw)).
  - eapply reach_later; eauto.
Qed.
Print Assumptions C30_terms.

(** Additions never change what an existing pointer represents. *)
Theorem C30_stable : forall alloc, (forall p, ~ In (alloc p) (map fst p)) -> forall p q a t, reach alloc p ->
  later alloc p q -> denotes p a t -> denotes q a t.
Proof.
  intros alloc Hf p q a t Hr Hl Ha. pose proof (reach_wf alloc Hf p Hr) as Hw. destruct (later_wf alloc Hf _ _ Hl Hw) as [Hw' Hk].
  apply denotes_unfold; auto. apply Hk. apply denotes_unfold; auto.
Qed.
Print Assumptions C30_stable.

(** A worker thread of the parallel checker: as long as the shared pool stays empty, the pointers it obtains from
    additions to its layered pool, and those of the global pool, are equal when they represent the same
    structure. Missing: see the refutations below. *)
Theorem C42_thread_partial : forall alloc, (forall p, ~ In (alloc p) (map fst p)) -> forall g, reach alloc g ->
  forall qs known, thread alloc (mkPools g [] []) (map fst g) qs known ->
  forall a b t u, In a known -> In b known -> denotes (p_all qs) a t -> denotes (p_all qs) b u -> (a = b <-> t = u).
Proof.
  intros alloc Hf g Hr qs kn Ht a b t u Ha Hb Da Db.
  assert (H0 : exists q, canon (mkPools g [] []) q /\ incl (map fst g) (map fst q)).
  { exists g. split; [apply (start_canon alloc Hf); auto|apply incl_refl]. }
  split.
  - intros <-. destruct (thread_canon alloc Hf _ _ _ _ Ht H0) as [q [Hq Hk]].
    pose proof (canon_denotes _ _ _ _ Hq (Hk _ Ha) Da). pose proof (canon_denotes _ _ _ _ Hq (Hk _ Ha) Db). congruence.
  - intros <-. eapply (thread_inj alloc Hf); eauto.
Qed.
Print Assumptions C42_thread_partial.

(** An allocator. *)
Definition next_addr (p : storage) : addr := fold_right N.max 0%N (map (fun e => N.succ (fst e)) p).
Lemma next_addr_fresh p : ~ In (next_addr p) (map fst p).
Proof.
  assert (H : forall a, In a (map fst p) -> (a < next_addr p)%N); [|intros Hin; specialize (H _ Hin); lia].
  unfold next_addr. induction p as [|[b n] r IH]; intros a Ha; [destruct Ha|]. cbn [map fst fold_right] in *.
  destruct Ha as [<-|Ha]; [lia|]. specialize (IH a Ha). lia.
Qed.

(** A thread whose shared pool grows between two additions of the same term obtains two pointers for it:
    [LocalPool::add] asks the shared pool before its own. *)
Definition int0 : node := (LConst (CInt 0), []).
Theorem C42_local_pool_refuted : exists ps0 n,
  let ps1 := local_add next_addr ps0 n in          (* the thread adds a term *)
  let ps2 := ctx_add next_addr (fst ps1) n in      (* a context, shared with other threads, adds the same term *)
  let ps3 := local_add next_addr (fst ps2) n in    (* the thread adds it again *)
  reach next_addr (p_all ps0) /\ snd ps1 <> snd ps3 /\
  exists t, denotes (p_all (fst ps3)) (snd ps1) t /\ denotes (p_all (fst ps3)) (snd ps3) t.
Proof.
  exists (mkPools [] [] []), int0. cbn zeta. split; [constructor|]. split; [vm_compute; discriminate|].
  exists (Node (LConst (CInt 0)) []). split; apply (denotes_node _ _ _ []); try constructor; vm_compute; tauto.
Qed.
Print Assumptions C42_local_pool_refuted.

(** A thread's [compute_sort] stores sorts in the thread's own pool without asking the others: the sort of a new
    term is not the pointer-equal [Bool] of the global pool. *)
Definition bool_sort : node := (LSort LBool, []).
Definition global_bool : storage := [(0%N, bool_sort)].
Theorem C42_thread_sort_refuted : exists g n, reach next_addr g /\
  exists a, In (a, n) g /\ snd (local_put next_addr (mkPools g [] []) n) <> a /\
  exists t, denotes (p_all (fst (local_put next_addr (mkPools g [] []) n))) a t /\
            denotes (p_all (fst (local_put next_addr (mkPools g [] []) n))) (snd (local_put next_addr (mkPools g [] []) n)) t.
Proof.
  exists global_bool, bool_sort. split; [exact (reach_add next_addr [] bool_sort (reach_nil _) (Forall_nil _))|].
  exists 0%N. split; [left; reflexivity|]. split; [vm_compute; discriminate|].
  exists (Node (LSort LBool) []). split; apply (denotes_node _ _ _ []); try constructor; vm_compute; tauto.
Qed.
Print Assumptions C42_thread_sort_refuted.

(** [LocalPool::sort] of a term of the shared pool is the term itself, not its sort. *)
Theorem C42_local_sort_refuted : exists ps a x s, reach next_addr (p_all ps) /\
  denotes (p_all ps) a (term_tree (TVar x s)) /\ forall sorts, local_sort [] sorts ps a = ROk a.
Proof.
  exists (mkPools global_bool [(1%N, (LVar "x", [0%N]))] []), 1%N, "x"%string, SBool. split; [|split].
  - exact (reach_add next_addr global_bool (LVar "x", [0%N])
      (reach_add next_addr [] bool_sort (reach_nil _) (Forall_nil _))
      (Forall_cons _ (or_introl eq_refl) (Forall_nil _))).
  - apply (denotes_node _ _ _ [0%N]); [left; reflexivity|]. constructor; [|constructor].
    apply (denotes_node _ _ _ []); [right; left; reflexivity|constructor].
  - intros sorts. reflexivity.
Qed.
Print Assumptions C42_local_sort_refuted.

(** Non-vacuity: a term with a shared subterm, added twice with another in between. *)
Example C30_witness :
  let x := TVar "x" SInt in
  let t := TOp OEquals [TOp OAdd [x; x]; TBind BForall [("y"%string, SInt)] (TVar "y" SInt)] in
  let u := TOp OAdd [x; TConst (CInt 1)] in
  let p1 := build next_addr [] (term_tree t) in
  let p2 := build next_addr (fst p1) (term_tree u) in
  let p3 := build next_addr (fst p2) (term_tree t) in
  reach next_addr (fst p2) /\ snd p1 = snd p3 /\ fst p3 = fst p2 /\ snd p2 <> snd p1 /\ List.length (fst p1) = 6 /\ List.length (fst p2) = 8.
Proof.
  cbv zeta. split; [|vm_compute; repeat split; discriminate].
  match goal with |- reach _ (fst (build _ (fst (build _ [] (term_tree ?t))) (term_tree ?u))) =>
    exact (proj2 (proj2 (C30_terms next_addr next_addr_fresh _ u _ u
      (proj2 (proj2 (C30_terms next_addr next_addr_fresh [] t _ t (reach_nil _) (later_refl _ _)))) (later_refl _ _)))) end.
Qed.
(** Non-vacuity for threads: a thread over the global pool {Bool} adds the variable p and its negation. *)
Example C42_thread_witness : exists qs known a b, thread next_addr (mkPools global_bool [] []) (map fst global_bool) qs known /\
  In a known /\ In b known /\ denotes (p_all qs) a (term_tree (TVar "p" SBool)) /\ denotes (p_all qs) b (term_tree (TOp ONot [TVar "p" SBool])).
Proof.
  pose (ps0 := mkPools global_bool [] []).
  pose (ps1 := local_add next_addr ps0 (LVar "p", [0%N])).
  pose (ps2 := local_put next_addr (fst ps1) bool_sort).
  pose (ps3 := local_add next_addr (fst ps2) (LOp ONot, [snd ps1])).
  exists (fst ps3), (snd ps3 :: snd ps1 :: map fst global_bool), (snd ps1), (snd ps3). split.
  - unfold ps3. apply thread_add; [|constructor; [left; reflexivity|constructor]].
    unfold ps2. apply thread_sort; [|constructor]. unfold ps1. apply thread_add; [constructor|].
    constructor; [left; reflexivity|constructor].
  - split; [right; left; reflexivity|]. split; [left; reflexivity|].
    assert (H : denotes (p_all (fst ps3)) (snd ps1) (term_tree (TVar "p" SBool))).
    { apply (denotes_node _ _ _ [0%N]); [vm_compute; tauto|]. constructor; [|constructor].
      apply (denotes_node _ _ _ []); [vm_compute; tauto|constructor]. }
    split; [exact H|]. apply (denotes_node _ _ _ [snd ps1]); [vm_compute; tauto|]. constructor; [exact H|constructor].
Qed.
