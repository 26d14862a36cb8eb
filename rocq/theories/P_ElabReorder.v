(** C34: the last two passes of the elaborator, uncrowding and the removal of reordering steps, over whole proofs. *)
From Coq Require Import List String ZArith Bool Arith Lia Permutation.
From Verif Require Import Base Term Sem Rules R_Resolution R_ResExact R_Extras R_Eq Utils Checker Elab ElabRes ElabRefute ElabUncrowd ElabUncrowdSound ElabReorder ElabReorderSound.
Import ListNotations.
Open Scope string_scope.
Local Open Scope nat_scope.
Local Open Scope list_scope.

(** If a proof is [tame], removing its reordering steps does not panic and gives an accepted proof without reordering steps.  Its clause has the same
    literals as before; if there is at most one it is the same clause. *)
Theorem C34_reorder_partial other cx n : tame other cx n ->
  exists n', reorder_pass n = ROk n' /\ accepted other cx n' /\ no_reordering n' /\ Permutation (eclause n) (eclause n') /\
    (List.length (eclause n) <= 1 -> eclause n' = eclause n).
Proof.
  intros H. destruct (reorder_ok other n cx H) as (n' & G1 & G2 & G3 & G4 & G5). exists n'. split; [exact G1|]. split; [exact G4|]. split; [exact G5|]. split; [exact G2|].
  intros HL. apply G3. left. exact HL.
Qed.
Print Assumptions C34_reorder_partial.

(** Uncrowding and then removing the reordering steps of a proof whose resolution steps meet the conditions of C34_uncrowd_partial: no panic, and an
    accepted proof with the same conclusion. *)
Theorem C34_last_passes_partial other cx n : ready other cx n ->
  exists n1 n2, uncrowd_pass n = ROk n1 /\ reorder_pass n1 = ROk n2 /\ accepted other cx n2 /\ no_reordering n2 /\ Permutation (eclause n) (eclause n2) /\
    (List.length (eclause n) <= 1 -> eclause n2 = eclause n).
Proof.
  intros H. destruct (last_passes_ok other n cx H) as (n1 & n2 & G1 & G2 & G3 & G4 & G5 & G6 & G7). exists n1, n2. split; [exact G1|]. split; [exact G2|]. split; [exact G6|].
  split; [exact G7|]. split; [exact G4|]. intros HL. apply G5. left. exact HL.
Qed.
Print Assumptions C34_last_passes_partial.

(** A refutation with a crowded resolution step, whose premise is a reordering *)
Definition rp_tree : enode :=
  EStep [] "resolution"
    [EStep [vB "a"; vB "x"] "reordering" [EPrem [vB "x"; vB "a"]] []; EPrem [n_ "x"; vB "y"; vB "a"]; EPrem [n_ "y"]; EPrem [n_ "a"]]
    [vB "x"; tTrue; vB "y"; tTrue; vB "a"; tTrue].
Definition rp_result : enode :=
  let s1 := EStep [vB "a"; vB "a"] "resolution" [EPrem [vB "x"; vB "a"]; EPrem [n_ "x"; vB "y"; vB "a"]; EPrem [n_ "y"]] [vB "x"; tTrue; vB "y"; tTrue] in
  EStep [] "resolution" [EStep [vB "a"] "contraction" [s1] []; EPrem [n_ "a"]] [vB "a"; tTrue].
Example rp_ready other : ready other [] rp_tree.
Proof.
  cbn [ready rp_tree]. split; [|split; [|cbn; auto]].
  - apply Y_resolution; [reflexivity|vm_compute; reflexivity|discriminate| |cbn; lia].
    cbn -[In]. repeat split; intros E HE HI; cbn in HE; repeat (destruct HE as [<-|HE]; [revert HI; cbn; intuition discriminate|]); destruct HE.
  - split; [|cbn; auto]. apply Y_reordering. vm_compute. reflexivity.
Qed.
Example rp_run : (do n <- uncrowd_pass rp_tree ; reorder_pass n) = ROk rp_result.
Proof. vm_compute. reflexivity. Qed.
Example rp_tame other : exists n, uncrowd_pass rp_tree = ROk n /\ tame other [] n.
Proof. destruct (uncrowd_pass_ok other rp_tree [] (rp_ready other)) as (n & H1 & _ & H2 & _). exists n. auto. Qed.

(** ** In general the passes fail on accepted proofs. *)
Lemma run_intro other cx c r f ps args : In (r, f) intro_rules -> f c (map eclause ps) args = ROk tt -> Forall (accepted other cx) ps -> accepted other cx (EStep c r ps args).
Proof. intros Hi H HF. apply accepted_step. split; [|exact HF]. apply (run_plain other r f); auto. Qed.

(** and_intro depends on the order of the literals of its premises: the result is rejected. *)
Theorem C34_reorder_and_intro_refuted :
  exists n n1 n2, uncrowd_pass n = ROk n1 /\ reorder_pass n1 = ROk n2 /\ (forall other cx, accepted other cx n) /\ (forall other cx, ~ accepted other cx n2).
Proof.
  set (n := EStep [TOp OAnd [TOp OOr [vB "b"; vB "a"]]] "and_intro" [EStep [vB "b"; vB "a"] "reordering" [EPrem [vB "a"; vB "b"]] []] []).
  exists n, n, (EStep [TOp OAnd [TOp OOr [vB "b"; vB "a"]]] "and_intro" [EPrem [vB "a"; vB "b"]] []).
  split; [vm_compute; reflexivity|]. split; [vm_compute; reflexivity|]. split; intros other cx.
  - apply (run_intro other cx _ "and_intro" r_and_intro); [cbn; tauto|vm_compute; reflexivity|]. constructor; [|constructor].
    apply (run_intro other cx _ "reordering" r_reordering); [cbn; tauto|vm_compute; reflexivity|]. constructor; [exact Logic.I|constructor].
  - apply rejected. vm_compute. reflexivity.
Qed.
Print Assumptions C34_reorder_and_intro_refuted.

(** A resolution step without pivots, one of whose premises is already the empty clause: the checker accepts it, the local pass leaves it as it is, and
    the removal of reordering steps panics, although the proof has no reordering step. *)
Theorem C34_reorder_no_pivots_refuted :
  exists s n, r_resolution [] (map eclause [s; EPrem [vB "a"]]) [] = ROk tt /\ (forall other cx, accepted other cx s) /\ elab_resolution "resolution" [] [(0, s); (0, EPrem [vB "a"])] [] = ROk n /\ no_reordering n /\ uncrowd_pass n = ROk n /\ reorder_pass n = RPanic.
Proof.
  set (s := EStep [] "resolution" [EPrem [vB "a"]; EPrem [n_ "a"]] [vB "a"; tTrue]).
  exists s, (EStep [] "resolution" [s; EPrem [vB "a"]] []). split; [vm_compute; reflexivity|]. split.
  - intros other cx. apply (run_intro other cx _ "resolution" r_resolution_with_args); [cbn; tauto|vm_compute; reflexivity|]. repeat constructor.
  - split; [vm_compute; reflexivity|]. split; [cbn; repeat split; discriminate|]. split; vm_compute; reflexivity.
Qed.
Print Assumptions C34_reorder_no_pivots_refuted.

(** A contraction that keeps a repeated literal: panic. *)
Theorem C34_reorder_contraction_refuted :
  exists n n1, uncrowd_pass n = ROk n1 /\ reorder_pass n1 = RPanic /\ (forall other cx, accepted other cx n).
Proof.
  set (s := EStep [vB "a"; vB "a"; vB "a"] "weakening" [EPrem [vB "a"; vB "a"]] []).
  set (n := EStep [vB "a"; vB "a"] "contraction" [s] []).
  exists n, n. split; [vm_compute; reflexivity|]. split; [vm_compute; reflexivity|]. intros other cx.
  apply (run_intro other cx _ "contraction" r_contraction); [cbn; tauto|vm_compute; reflexivity|]. constructor; [|constructor].
  apply (run_intro other cx _ "weakening" r_weakening); [cbn; tauto|vm_compute; reflexivity|]. repeat constructor.
Qed.
Print Assumptions C34_reorder_contraction_refuted.

(** Without uncrowding before it, the pass breaks crowded resolution steps, again without any reordering step: the proof of the empty clause becomes a
    rejected one of another clause. *)
Theorem C34_reorder_crowded_refuted :
  exists n n', eclause n = [] /\ no_reordering n /\ (forall other cx, accepted other cx n) /\ reorder_pass n = ROk n' /\ eclause n' = [vB "a"] /\ (forall other cx, ~ accepted other cx n').
Proof.
  set (s := EStep [vB "a"; vB "a"] "weakening" [EPrem [vB "a"]] []).
  set (n := EStep [] "resolution" [s; EPrem [n_ "a"]] [vB "a"; tTrue]).
  exists n, (EStep [vB "a"] "resolution" [s; EPrem [n_ "a"]] [vB "a"; tTrue]). split; [reflexivity|]. split; [cbn; repeat split; discriminate|]. split; [|split; [vm_compute; reflexivity|split; [reflexivity|]]]; intros other cx.
  - apply (run_intro other cx _ "resolution" r_resolution_with_args); [cbn; tauto|vm_compute; reflexivity|]. constructor; [|repeat constructor].
    apply (run_intro other cx _ "weakening" r_weakening); [cbn; tauto|vm_compute; reflexivity|]. repeat constructor.
  - apply rejected. vm_compute. reflexivity.
Qed.
Print Assumptions C34_reorder_crowded_refuted.
