(** C35: slicing. *)
From Coq Require Import List String ZArith Bool Arith Lia.
From Verif Require Import Base Term Rules Utils Checker CheckerSound Parser ParserSound Slice SliceRefute SliceSound SliceCopy SliceMain.
Import ListNotations.
Local Open Scope string_scope.

(** False in general. Each text below is accepted by the parser. An id that is used in two closed subproofs: a premise of the requested step is
    replaced by another one. *)
Theorem C35_references_refuted : exists text proof sl out, parse_proof text = ROk proof /\ slice proof "t" 1 = ROk (Some sl) /\ print_proof (fst sl) = Some out /\
  filter (named "t") text = [st "t" [tb; tc] ["y"; "x"; "u1"]] /\ filter (named "t") out = [st "t" [tb; tc] ["y"; "y"; "u1"]].
Proof. exact slice_dup. Qed.
Print Assumptions C35_references_refuted.
(** An assumption after a nested subproof: the step that discharges it discharges an ordinary step in the slice, *)
Theorem C35_discharge_refuted : exists text proof sl out, parse_proof text = ROk proof /\ slice proof "t" 9 = ROk (Some sl) /\ print_proof (fst sl) = Some out /\
  filter (named "u") text = [RwStep "u" [tNot tb; tb] "subproof" [] [] ["u.h"]] /\
  filter (named "u") out = [RwStep "u" [tNot tb; tb] "subproof" [] [] ["u.g"]].
Proof. exact slice_late. Qed.
Print Assumptions C35_discharge_refuted.
(** or the assumption is missing from the slice. *)
Theorem C35_assumption_refuted : exists text proof sl out, parse_proof text = ROk proof /\ slice proof "u.t" 0 = ROk (Some sl) /\ print_proof (fst sl) = Some out /\
  filter (named "u") out = [RwStep "u" [tNot tb; tb] "subproof" [] [] ["u.t"]] /\ (forall i t, ~ In (RwAssume i t) out).
Proof. exact slice_late_gone. Qed.
Print Assumptions C35_assumption_refuted.
(** A last step with premises: panic. *)
Theorem C35_panic_refuted : exists text proof, parse_proof text = ROk proof /\ slice proof "u.s" 0 = RPanic.
Proof. exact slice_panics. Qed.
Print Assumptions C35_panic_refuted.
(** The next-to-last command of the enclosing subproof is a subproof: no step of the slice uses the requested step. *)
Theorem C35_unused_refuted : exists text proof sl a i b, parse_proof text = ROk proof /\ slice proof "u.t" 0 = ROk (Some sl) /\
  print_proof (fst sl) = Some (a ++ [st "u.t" [ta] []; i] ++ b)%list /\ existsb (uses "u.t") (a ++ [st "u.t" [ta] []; i] ++ b)%list = false /\
  i = RwStep "u.v" [tb] "hole" [] [trust] [].
Proof. exact slice_unused. Qed.
Print Assumptions C35_unused_refuted.
(** An assumption after a step is not among the assertions of the new problem. *)
Theorem C35_assertions_refuted : exists text proof sl, parse_proof text = ROk proof /\ slice proof "t1" 0 = ROk (Some sl) /\
  In (CAssume "h" tb) (fst sl) /\ snd sl = [].
Proof. exact slice_assert. Qed.
Print Assumptions C35_assertions_refuted.
(** A step named [slice_end]: the slice cannot be read back. *)
Theorem C35_end_refuted : exists text proof sl out, parse_proof text = ROk proof /\ slice proof "slice_end" 0 = ROk (Some sl) /\
  print_proof (fst sl) = Some out /\ parse_proof out = RErr.
Proof. exact slice_end_clash. Qed.
Print Assumptions C35_end_refuted.

(** Holds when no id is used twice and the subproofs are tidy: they begin with their assumptions, the last step has no premises and discharges
    exactly these assumptions, and no other step discharges anything. Then the slice at a step exists. Its text is obtained from the text of the
    proof by leaving out lines and by turning steps into holes with the same id and clause, and one line is added at the end, which uses the
    top-level command the step is in. It contains the line of every command on which the step depends through at most [D] references, and for those
    at distance [D + 1] a line with the same id and clause. Since the printer prints references as the ids of the commands they point to, the
    references of the kept lines point to the commands with the same ids. *)
Theorem C35_slice_partial : forall text proof lines id D, parse_proof text = ROk proof -> print_proof proof = Some lines ->
  NoDup (flat_map all_ids proof) -> forallb (tidy 0) proof = true -> existsb (has_target id) proof = true ->
  exists sl asserts body i0, slice proof id D = ROk (Some (sl, asserts)) /\ print_proof sl = Some (body ++ [rw_end i0])%list /\ cut lines body /\
    (forall n j r, needs proof n id j -> In r lines -> raw_id r = Some j -> (n <= D -> In r body) /\ (n <= S D -> present r body)) /\
    exists c, In c proof /\ has_target id c = true /\ cmd_id c = Some i0.
Proof. intros text proof lines id D Hp. apply slice_complete. exact (parse_shape _ _ Hp). Qed.
Print Assumptions C35_slice_partial.
(** The requested step itself is always complete. *)
Theorem C35_step_partial : forall text proof lines id D r, parse_proof text = ROk proof -> print_proof proof = Some lines ->
  NoDup (flat_map all_ids proof) -> forallb (tidy 0) proof = true -> existsb (has_target id) proof = true ->
  In r lines -> raw_id r = Some id -> exists sl asserts out, slice proof id D = ROk (Some (sl, asserts)) /\ print_proof sl = Some out /\ In r out.
Proof.
  intros text proof lines id D r Hp Hl H1 H2 H3 Hr Hi. destruct (C35_slice_partial text proof lines id D Hp Hl H1 H2 H3) as [sl [asr [body [i0 [E1 [E2 [_ [E3 _]]]]]]]].
  exists sl, asr, (body ++ [rw_end i0])%list. split; [exact E1|]. split; [exact E2|]. apply in_app_iff. left. apply (E3 0 id r); auto; [constructor|lia].
Qed.
Print Assumptions C35_step_partial.

(** The conditions hold of the proof in the unit tests of slice.rs, at a step within a subproof. *)
Definition ex_proof : list command := Eval vm_compute in match parse_proof ex_text with ROk p => p | _ => [] end.
Example C35_nonvacuous : parse_proof ex_text = ROk ex_proof /\ print_proof ex_proof = Some ex_text /\ NoDup (flat_map all_ids ex_proof) /\
  forallb (tidy 0) ex_proof = true /\ existsb (has_target "t3.t1") ex_proof = true.
Proof.
  split; [vm_compute; reflexivity|]. split; [vm_compute; reflexivity|]. split; [|split; vm_compute; reflexivity].
  assert (H : flat_map all_ids ex_proof = nodup string_dec (flat_map all_ids ex_proof)) by (vm_compute; reflexivity). rewrite H. apply NoDup_nodup.
Qed.
Example C35_needs : needs ex_proof 2 "t5" "t3" /\ needs ex_proof 2 "t3.t1" "t3.a0".
Proof.
  split.
  - apply (needs_S _ 1 "t5" "t4" "t3" (nth 8 (flat_list false [] ex_proof []) (mkStep "" [] "" [] [] [], (false, []))));
      [apply nth_In; vm_compute; lia|reflexivity|vm_compute; auto|].
    apply (needs_S _ 0 "t4" "t3" "t3" (nth 7 (flat_list false [] ex_proof []) (mkStep "" [] "" [] [] [], (false, []))));
      [apply nth_In; vm_compute; lia|reflexivity|vm_compute; auto|constructor].
  - apply (needs_S _ 1 "t3.t1" "t3.t0" "t3.a0" (nth 4 (flat_list false [] ex_proof []) (mkStep "" [] "" [] [] [], (false, []))));
      [apply nth_In; vm_compute; lia|reflexivity|vm_compute; auto|].
    apply (needs_S _ 0 "t3.t0" "t3.a0" "t3.a0" (nth 3 (flat_list false [] ex_proof []) (mkStep "" [] "" [] [] [], (false, []))));
      [apply nth_In; vm_compute; lia|reflexivity|vm_compute; auto|constructor].
Qed.
