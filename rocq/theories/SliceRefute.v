(** Proofs for which slicing goes wrong (slice.rs). Each text is accepted by the parser. *)
From Coq Require Import List String ZArith Bool Arith.
From Verif Require Import Base Term Rules Utils Checker CheckerSound Parser Slice.
Import ListNotations.
Local Open Scope string_scope.
Definition tc : term := TVar "c" SBool.
Definition st (i : string) (c : clause) (ps : list string) : raw := RwStep i c "hole" ps [] [].
(** the steps of a text with a given id *)
Definition named (i : string) (r : raw) : bool := match r with RwStep j _ _ _ _ _ => String.eqb j i | _ => false end.

Definition parsed (text : list raw) : list command := match parse_proof text with ROk p => p | _ => [] end.
Definition cut_at (text : list raw) (id : string) (d : nat) : list command * list term := match slice (parsed text) id d with ROk (Some x) => x | _ => ([], []) end.
Definition shown (text : list raw) (id : string) (d : nat) : list raw := match print_proof (fst (cut_at text id d)) with Some l => l | None => [] end.
Local Ltac run := vm_compute; reflexivity.

(** an id used in two closed subproofs: the reference of [t] to [x] becomes one to [y] *)
Definition dup_text : list raw :=
  [RwAnchor "u1" []; st "x" [ta] []; RwStep "x'" [ta] "hole" ["x"] [] []; RwStep "u1" [ta] "subproof" [] [] [];
   RwAnchor "u2" []; st "y" [tb] []; st "x" [tc] []; st "t" [tb; tc] ["y"; "x"; "u1"]; RwStep "u2" [tb; tc] "subproof" [] [] []].
Lemma slice_dup : exists text proof sl out, parse_proof text = ROk proof /\ slice proof "t" 1 = ROk (Some sl) /\ print_proof (fst sl) = Some out /\
  filter (named "t") text = [st "t" [tb; tc] ["y"; "x"; "u1"]] /\ filter (named "t") out = [st "t" [tb; tc] ["y"; "y"; "u1"]].
Proof.
  exists dup_text, (parsed dup_text), (cut_at dup_text "t" 1), (shown dup_text "t" 1). split; [run|]. split; [run|]. split; [run|]. split; run.
Qed.
(** an assumption after a nested subproof: the closing step discharges a step, or the assumption is gone *)
Definition late_text : list raw :=
  [RwAnchor "u" []; RwAnchor "u.v" []; st "u.v.t" [ta] []; RwStep "u.v" [ta] "subproof" [] [] [];
   RwAssume "u.h" tb; st "u.g" [tb] ["u.h"]; st "u.t" [tb] ["u.g"]; RwStep "u" [tNot tb; tb] "subproof" [] [] ["u.h"]; st "t" [tb] ["u"]].
Lemma slice_late : exists text proof sl out, parse_proof text = ROk proof /\ slice proof "t" 9 = ROk (Some sl) /\ print_proof (fst sl) = Some out /\
  filter (named "u") text = [RwStep "u" [tNot tb; tb] "subproof" [] [] ["u.h"]] /\
  filter (named "u") out = [RwStep "u" [tNot tb; tb] "subproof" [] [] ["u.g"]].
Proof.
  exists late_text, (parsed late_text), (cut_at late_text "t" 9), (shown late_text "t" 9). split; [run|]. split; [run|]. split; [run|]. split; run.
Qed.
Lemma slice_late_gone : exists text proof sl out, parse_proof text = ROk proof /\ slice proof "u.t" 0 = ROk (Some sl) /\ print_proof (fst sl) = Some out /\
  filter (named "u") out = [RwStep "u" [tNot tb; tb] "subproof" [] [] ["u.t"]] /\ (forall i t, ~ In (RwAssume i t) out).
Proof.
  exists late_text, (parsed late_text), (cut_at late_text "u.t" 0), (shown late_text "u.t" 0). split; [run|]. split; [run|]. split; [run|]. split; [run|].
  intros i t H. vm_compute in H. repeat (destruct H as [H|H]; [discriminate H|]). exact H.
Qed.
(** the last step of the enclosing subproof has a premise that is not kept: panic *)
Definition prem_text : list raw :=
  [st "t0" [ta] []; RwAnchor "u" []; st "u.s" [tb] []; st "u.t" [tb] []; RwStep "u" [tb] "subproof" ["t0"] [] []].
Lemma slice_panics : exists text proof, parse_proof text = ROk proof /\ slice proof "u.s" 0 = RPanic.
Proof.
  exists prem_text, (parsed prem_text). split; run.
Qed.
(** the next-to-last command of the enclosing subproof is a subproof: no kept step uses the requested step *)
Definition cut_text : list raw :=
  [RwAnchor "u" []; st "u.t" [ta] []; RwAnchor "u.v" []; st "u.v.t" [tb] []; RwStep "u.v" [tb] "subproof" [] [] [];
   RwStep "u" [tb] "subproof" [] [] []].
Definition uses (i : string) (r : raw) : bool := match r with RwStep _ _ _ ps _ ds => memb String.eqb i ps || memb String.eqb i ds | _ => false end.
Lemma slice_unused : exists text proof sl a i b, parse_proof text = ROk proof /\ slice proof "u.t" 0 = ROk (Some sl) /\
  print_proof (fst sl) = Some (a ++ [st "u.t" [ta] []; i] ++ b)%list /\ existsb (uses "u.t") (a ++ [st "u.t" [ta] []; i] ++ b)%list = false /\
  i = RwStep "u.v" [tb] "hole" [] [trust] [].
Proof.
  exists cut_text, (parsed cut_text), (cut_at cut_text "u.t" 0), [RwAnchor "u" []], (RwStep "u.v" [tb] "hole" [] [trust] []), [RwStep "u" [tb] "subproof" [] [] []; rw_end "u"]. split; [run|]. split; [run|]. split; [run|]. split; run.
Qed.
(** an assumption after a step is kept, but not among the assertions of the new problem *)
Definition assert_text : list raw := [st "t0" [ta] []; RwAssume "h" tb; st "t1" [ta; tb] ["t0"; "h"]].
Lemma slice_assert : exists text proof sl, parse_proof text = ROk proof /\ slice proof "t1" 0 = ROk (Some sl) /\
  In (CAssume "h" tb) (fst sl) /\ snd sl = [].
Proof.
  exists assert_text, (parsed assert_text), (cut_at assert_text "t1" 0). split; [run|]. split; [run|]. split; [vm_compute; auto|run].
Qed.
(** a step with the id of the final step: the slice cannot be read back *)
Definition end_text : list raw := [st "slice_end" [ta] []].
Lemma slice_end_clash : exists text proof sl out, parse_proof text = ROk proof /\ slice proof "slice_end" 0 = ROk (Some sl) /\
  print_proof (fst sl) = Some out /\ parse_proof out = RErr.
Proof.
  exists end_text, (parsed end_text), (cut_at end_text "slice_end" 0), (shown end_text "slice_end" 0). split; [run|]. split; [run|]. split; run.
Qed.
