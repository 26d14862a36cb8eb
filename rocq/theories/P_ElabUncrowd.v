(** C34: uncrowding a resolution step keeps its clause and acceptance. *)
From Coq Require Import List String ZArith Bool Arith Lia Permutation.
From Verif Require Import Base Term Sem Rules R_Resolution R_ResExact R_Eq Utils Checker Elab ElabRes ElabRefute ElabUncrowd ElabUncrowdSound.
Import ListNotations.
Open Scope string_scope.
Local Open Scope nat_scope.
Local Open Scope list_scope.

(** A resolution step with pivots that the checker accepts, with accepted premises, is uncrowded into accepted steps that end in the same clause, if no
    literal that was resolved away occurs in a later premise and the first pivot occurs once in the first premise.  Without rotation of premises. *)
Theorem C34_uncrowd_partial other cx c ps args :
  r_resolution_with_args c (map eclause ps) args = ROk tt -> Forall (accepted other cx) ps ->
  no_return (res_steps (map eclause ps) args) -> first_once (map eclause ps) args ->
  exists n, uncrowd c ps args = ROk n /\ eclause n = c /\ accepted other cx n.
Proof. exact (uncrowd_ok other cx c ps args). Qed.
Print Assumptions C34_uncrowd_partial.

(** The contractions do not depend on the order in which the hash map lists the literals. *)
Theorem C34_uncrowd_order infos infos' : Permutation infos infos' -> needed_contractions infos = needed_contractions infos'.
Proof. exact (cuts_order infos infos'). Qed.
Print Assumptions C34_uncrowd_order.

(** The example of the tests in uncrowding.rs *)
Definition uc_prems : list clause :=
  [[vB "x"; vB "a"; vB "b"]; [n_ "x"; vB "y"; vB "a"; vB "c"]; [n_ "y"; vB "z"; vB "b"]; [n_ "a"]; [n_ "z"; vB "c"]; [vB "d"; n_ "b"; vB "w"]; [vB "d"; n_ "c"]; [n_ "d"]].
Definition uc_args : list term :=
  [vB "x"; tTrue; vB "y"; tTrue; vB "a"; tTrue; vB "z"; tTrue; vB "b"; tTrue; vB "c"; tTrue; vB "d"; tTrue].
Example uc_fits : r_resolution_with_args [vB "w"] uc_prems uc_args = ROk tt /\ no_return (res_steps uc_prems uc_args) /\ first_once uc_prems uc_args.
Proof.
  split; [vm_compute; reflexivity|]. split; [|cbn; lia].
  cbn -[In]. repeat split; intros E HE HI; cbn in HE; repeat (destruct HE as [<-|HE]; [revert HI; cbn; intuition discriminate|]); destruct HE.
Qed.
(** three contractions: the first before the premise with (not a), the others before those with (not c) and (not d) *)
Definition uc_result : enode :=
  let step ps a := fun c => EStep c "resolution" ps a in
  let contr c p := EStep c "contraction" [p] [] in
  let P i := EPrem (nth i uc_prems []) in
  let s1 := step [P 0; P 1; P 2] [vB "x"; tTrue; vB "y"; tTrue] [vB "a"; vB "b"; vB "a"; vB "c"; vB "z"; vB "b"] in
  let s2 := contr [vB "a"; vB "b"; vB "c"; vB "z"] s1 in
  let s3 := step [s2; P 3; P 4; P 5] [vB "a"; tTrue; vB "z"; tTrue; vB "b"; tTrue] [vB "c"; vB "c"; vB "d"; vB "w"] in
  let s4 := contr [vB "c"; vB "d"; vB "w"] s3 in
  let s5 := step [s4; P 6] [vB "c"; tTrue] [vB "d"; vB "w"; vB "d"] in
  let s6 := contr [vB "d"; vB "w"] s5 in
  step [s6; P 7] [vB "d"; tTrue] [vB "w"].
Example uc_run : uncrowd [vB "w"] (map EPrem uc_prems) uc_args = ROk uc_result.
Proof. vm_compute. reflexivity. Qed.
(** weakening and reordering at the end *)
Example uc_weaken : exists n, uncrowd [vB "b"; vB "b"; vB "c"] (map EPrem [[vB "a"; vB "b"]; [n_ "a"; vB "c"]]) [vB "a"; tTrue] = ROk (EStep [vB "b"; vB "b"; vB "c"] "reordering" [EStep [vB "b"; vB "c"; vB "b"] "weakening" [n] []] []).
Proof. eexists. vm_compute. reflexivity. Qed.

(** In general it fails: a literal that was resolved away comes back, and the first partial step is rejected. *)
Definition ucr_prems : list clause := [[vB "x"; vB "a"; vB "b"]; [n_ "x"; vB "a"; vB "b"]; [n_ "a"]; [n_ "b"; vB "a"]].
Definition ucr_args : list term := [vB "x"; tTrue; vB "a"; tTrue; vB "b"; tTrue].
Theorem C34_uncrowd_refuted :
  exists c ps args, r_resolution_with_args c ps args = ROk tt /\
    exists n, uncrowd c (map EPrem ps) args = ROk n /\ forall other cx, ~ accepted other cx n.
Proof.
  exists [vB "a"], ucr_prems, ucr_args. split; [vm_compute; reflexivity|].
  let n := eval vm_compute in (match uncrowd [vB "a"] (map EPrem ucr_prems) ucr_args with ROk n => n | _ => EPrem [] end) in
  exists n. split; [vm_compute; reflexivity|]. intros other cx. apply rejected. vm_compute. reflexivity.
Qed.
Print Assumptions C34_uncrowd_refuted.
(** The first premise has the first pivot twice: panic. *)
Theorem C34_uncrowd_panic_refuted :
  exists c ps args, r_resolution_with_args c ps args = ROk tt /\ uncrowd c (map EPrem ps) args = RPanic.
Proof. exists [vB "b"], [[vB "a"; vB "a"; vB "b"]; [n_ "a"]], [vB "a"; tTrue]. split; vm_compute; reflexivity. Qed.
Print Assumptions C34_uncrowd_panic_refuted.
