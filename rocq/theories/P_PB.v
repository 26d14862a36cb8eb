(** C24: pseudo-Boolean bit-blasting. *)
From Coq Require Import List String ZArith Bool Arith.
From Verif Require Import Base Field Term Sem Sorting Rules Refute R_LA R_CP R_PB PBSound PBRefute Table Checker CheckerSound CheckerSem CheckerRefute.
Import ListNotations.

(** ** Comparisons *)
(** False in general: the sums may leave out high bits, *)
Theorem C24_unsigned_refuted : rule_refuted r_pb_eq /\ rule_refuted r_pb_ult /\ rule_refuted r_pb_ugt /\ rule_refuted r_pb_uge /\ rule_refuted r_pb_ule.
Proof. exact (conj pb_eq_refuted (conj pb_ult_refuted (conj pb_ugt_refuted (conj pb_uge_refuted pb_ule_refuted)))). Qed.
Print Assumptions C24_unsigned_refuted.
(** the sign bit may be counted twice, *)
Theorem C24_signed_refuted : rule_refuted r_pb_slt /\ rule_refuted r_pb_sgt /\ rule_refuted r_pb_sge /\ rule_refuted r_pb_sle.
Proof. exact (conj pb_slt_refuted (conj pb_sgt_refuted (conj pb_sge_refuted pb_sle_refuted))). Qed.
Print Assumptions C24_signed_refuted.
(** and the elements of a pbbterm need not be bits. *)
Theorem C24_nonbit_refuted : exists t, r_pb_eq [t] [] [] = ROk tt /\ clause_wt [t] = true /\ forall I (E : env I), holds E t = false.
Proof. exact (ex_intro _ nonbit_eq pb_nonbit). Qed.
Print Assumptions C24_nonbit_refuted.
(** Sound for every width when each sum has a summand for every bit, and the elements of a pbbterm are bits ([pb_unsigned_ok]). *)
Theorem C24_unsigned_partial : forall r, In r [r_pb_eq; r_pb_ult; r_pb_ugt; r_pb_uge; r_pb_ule] ->
  forall c ps args, r c ps args = ROk tt -> pb_unsigned_ok c = true -> clause_wt c = true -> forallb clause_wt ps = true -> entails ps c.
Proof. intros r [<-|[<-|[<-|[<-|[<-|[]]]]]]; [exact pb_eq_sound|exact pb_ult_sound|exact pb_ugt_sound|exact pb_uge_sound|exact pb_ule_sound]. Qed.
Print Assumptions C24_unsigned_partial.
(** Sound for every width when each sum has a summand for every bit but the sign ([pb_signed_ok]); the checker cannot require this: for width 1
    there is no such sum. *)
Theorem C24_signed_partial : forall r, In r [r_pb_slt; r_pb_sgt; r_pb_sge; r_pb_sle] ->
  forall c ps args, r c ps args = ROk tt -> pb_signed_ok c = true -> clause_wt c = true -> forallb clause_wt ps = true -> entails ps c.
Proof. intros r [<-|[<-|[<-|[<-|[]]]]]; [exact pb_slt_sound|exact pb_sgt_sound|exact pb_sge_sound|exact pb_sle_sound]. Qed.
Print Assumptions C24_signed_partial.

(** ** Variables and constants *)
Theorem C24_pbbvar : rule_sound r_pb_var.
Proof. exact pb_var_sound. Qed.
Print Assumptions C24_pbbvar.
(** The elements are wrapped to 32 bits, so 2^32+1 counts as 1. *)
Theorem C24_pbbconst_refuted : rule_refuted r_pb_const.
Proof. exact pb_const_refuted. Qed.
Print Assumptions C24_pbbconst_refuted.
Theorem C24_pbbconst_partial : forall c ps args, r_pb_const c ps args = ROk tt -> pb_const_ok c = true -> clause_wt c = true -> forallb clause_wt ps = true -> entails ps c.
Proof. exact pb_const_sound. Qed.
Print Assumptions C24_pbbconst_partial.

(** ** Bitwise operators *)
(** The bound variable [z] of the choice term captures a free [z] of the operands. *)
Theorem C24_capture_refuted : rule_refuted r_pb_xor /\ rule_refuted r_pb_and.
Proof. exact (conj pb_xor_refuted pb_and_refuted). Qed.
Print Assumptions C24_capture_refuted.
(** The choice term of [bvand] has no lower bound, so it can be -1 when both bits are 0; then a comparison of the blasted vector is wrong. *)
Theorem C24_and_not_a_bit_refuted : exists a b, r_pb_and [a] [] [] = ROk tt /\ r_pb_eq [b] [] [] = ROk tt /\ clause_wt [a; b] = true /\
  forall I : interp, exists I' (E : env I'), env_ok E /\ holds E a = true /\ holds E b = false.
Proof. exact (ex_intro _ and_step (ex_intro _ and_cmp pb_and_minus)). Qed.
Print Assumptions C24_and_not_a_bit_refuted.
Theorem C24_bvxor_partial : forall c ps args, r_pb_xor c ps args = ROk tt -> pb_xor_ok c = true -> clause_wt c = true -> forallb clause_wt ps = true -> entails ps c.
Proof. exact pb_xor_sound. Qed.
Print Assumptions C24_bvxor_partial.
Theorem C24_bvand_partial : forall c ps args, r_pb_and c ps args = ROk tt -> pb_and_ok c = true -> clause_wt c = true -> forallb clause_wt ps = true -> entails ps c.
Proof. exact pb_and_sound. Qed.
Print Assumptions C24_bvand_partial.
(** The rules for one bit accept any integers. *)
Theorem C24_ith_bit_refuted : rule_refuted r_pb_xor_ith /\ rule_refuted r_pb_and_ith.
Proof. exact (conj pb_xor_ith_refuted pb_and_ith_refuted). Qed.
Print Assumptions C24_ith_bit_refuted.
Theorem C24_xor_ith_bit_partial : forall c ps args, r_pb_xor_ith c ps args = ROk tt -> pb_ith_ok bit_term args = true -> clause_wt c = true -> forallb clause_wt ps = true -> entails ps c.
Proof. exact pb_xor_ith_sound. Qed.
Print Assumptions C24_xor_ith_bit_partial.
Theorem C24_and_ith_bit_partial : forall c ps args, r_pb_and_ith c ps args = ROk tt -> pb_ith_ok low_term args = true -> clause_wt c = true -> forallb clause_wt ps = true -> entails ps c.
Proof. exact pb_and_ith_sound. Qed.
Print Assumptions C24_and_ith_bit_partial.
(** What the conditions [bit_term] and [low_term] mean. *)
Theorem C24_bit_term : forall t, wt t = true -> forall (I : interp) (E : env I), env_ok E ->
  (bit_term t = true -> nval E t = inj 0 \/ nval E t = inj 1) /\ (low_term t = true -> exists k : Z, nval E t = inj k /\ (k <= 1)%Z).
Proof.
  intros t Hw I E HE. split; intros H; [|exact (low_val E t HE Hw H)]. destruct (bit_val E t HE Hw H) as [[|] Hb]; [right|left]; exact Hb.
Qed.
Print Assumptions C24_bit_term.

(** ** Panics: every rule indexes the conclusion before looking at its length *)
Theorem C24_panics : forall name r, In (name, r) pb_rules -> r [] [] [tInt 0; tInt 0] = RPanic.
Proof. exact pb_empty. Qed.
Print Assumptions C24_panics.

(** So the checker accepts, in both modes, a proof of false from satisfiable assertions. *)
Theorem C24_end_to_end_refuted : forall other cfg, cfg = cfg_default \/ cfg = cfg_elaborated ->
  exists prems proof,
    check (rule_table other) cfg prems proof = ROk false /\
    forallb bool_term prems = true /\ forallb shape_ok proof = true /\ forallb cmd_wt proof = true /\
    forall I : interp, exists E : env I, env_ok E /\ forall p, In p prems -> holds E p = true.
Proof. exact soundness_refuted_pb. Qed.
Print Assumptions C24_end_to_end_refuted.

(** ** Non-vacuity: accepted steps that meet the conditions *)
Example C24_ex_eq : r_pb_eq [ex_eq] [] [] = ROk tt /\ pb_unsigned_ok [ex_eq] = true /\ bool_term ex_eq = true := pb_eq_ok.
Example C24_ex_slt : r_pb_slt [ex_slt] [] [] = ROk tt /\ pb_signed_ok [ex_slt] = true /\ bool_term ex_slt = true := pb_slt_ok.
Example C24_ex_xor : r_pb_xor [ex_xor] [] [] = ROk tt /\ pb_xor_ok [ex_xor] = true /\ bool_term ex_xor = true := pb_ex_xor.
Example C24_ex_and : r_pb_and [ex_and] [] [] = ROk tt /\ pb_and_ok [ex_and] = true /\ bool_term ex_and = true := pb_ex_and.
