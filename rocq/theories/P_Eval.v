(** C16: term evaluation. *)
From Coq Require Import List String ZArith QArith Bool Arith Lia.
From Verif Require Import Base Term Field Sem Sorting Rules Refute Num R_LA CPSound R_Eval EvalSound PolySound CheckerSem Checker CheckerSound CheckerRefute Table.
Import ListNotations.
Local Open Scope string_scope.
Local Open Scope nat_scope.

(** False in general: each of these equalities is well-sorted, accepted, and false under every interpretation. *)
Definition ci z := TConst (CInt z).
Definition bv z w := TConst (CBV z w).
Definition bad_evals : list term :=
  [ tEq (TOp OAdd [TOp OIntDiv [TOp OSub [ci 7]; ci 2]; ci 4]) (ci 1);          (* (+ (div (- 7) 2) 4) = 1; it is 0 *)
    tEq (TOp OAdd [TOp OMod [TOp OSub [ci 7]; ci 3]; ci 3]) (ci 2);             (* (+ (mod (- 7) 3) 3) = 2; it is 5 *)
    tEq (TOp OSBvToInt [bv 3 2]) (ci 1);                                       (* (sbv_to_int #b11) = 1; it is -1 *)
    tEq (TOp OBvSub [bv 3 2; bv 1 2]) (bv 0 2);                                (* (bvsub #b11 #b01) = #b00; it is #b10 *)
    tEq (TOp OBvSLt [bv 3 2; bv 0 2]) tFalse;                                  (* (bvslt #b11 #b00) = false *)
    tEq (TOp OBvSDiv [bv 3 2; bv 1 2]) (bv 1 2);                               (* (bvsdiv #b11 #b01) = #b01; it is #b11 *)
    tEq (TOp OBvSRem [bv 3 2; bv 2 2]) (bv 1 2);                               (* (bvsrem #b11 #b10) = #b01; it is #b11 *)
    tEq (TOp OBvSMod [bv 5 3; bv 4 3]) (bv 3 3);                               (* (bvsmod #b101 #b100) = #b011; it is #b101 *)
    tEq (TPOp PSignExtend [ci 1] [bv 3 2]) (bv 1 3);                           (* ((_ sign_extend 1) #b11) = #b001; it is #b111 *)
    tEq (TPOp PBvExtract [ci 1; ci 1] [bv 2 2]) (bv 0 1) ].                    (* ((_ extract 1 1) #b10) = #b0; it is #b1 *)
Theorem C16_evaluate_refuted : forall t, In t bad_evals ->
  r_evaluate [t] [] [] = ROk tt /\ clause_wt [t] = true /\ forall (I : interp) (E : env I), holds E t = false.
Proof.
  intros t H. assert (A : r_evaluate [t] [] [] = ROk tt /\ clause_wt [t] = true).
  { revert t H. apply Forall_forall. repeat constructor; vm_compute; reflexivity. }
  destruct A as [A1 A2]. split; [exact A1|]. split; [exact A2|]. intros I E.
  assert (B : forall a z k, nval E a = inj k -> k <> z -> holds E (TOp OEquals [a; ci z]) = false).
  { intros a z k Ha Hk. destruct (holds E _) eqn:Hh; auto. apply eqv_iff in Hh. apply (f_equal num) in Hh. change (nval E a = nval E (ci z)) in Hh.
    unfold ci in Hh. rewrite Ha, nval_cint in Hh. apply inj_inj in Hh. contradiction. }
  destruct H as [<-|[<-|[<-|H]]].
  - apply (B _ _ 0%Z); [|discriminate]. rewrite nval_add. cbn [fold_right].
    assert (N : nval E (TOp OIntDiv [TOp OSub [ci 7]; ci 2]) = inj (-4)).
    { unfold nval, ci. cbn [eval map eval_op fold1 fold_left eval_const]. unfold idiv, vint. cbn [num].
      rewrite <- (inj_0 (iF I)), inj_eqb, <- (inj_opp (iF I)), !floor_inj. reflexivity. }
    rewrite N. unfold ci. rewrite nval_cint, <- (inj_0 (iF I)), <- !inj_add. reflexivity.
  - apply (B _ _ 5%Z); [|discriminate]. rewrite nval_add. cbn [fold_right].
    assert (N : nval E (TOp OMod [TOp OSub [ci 7]; ci 3]) = inj 2).
    { unfold nval, ci. cbn [eval map eval_op bin2 eval_const]. unfold imod, vint. cbn [num].
      rewrite <- (inj_0 (iF I)), inj_eqb, <- (inj_opp (iF I)), !floor_inj. reflexivity. }
    rewrite N. unfold ci. rewrite nval_cint, <- (inj_0 (iF I)), <- !inj_add. reflexivity.
  - apply (B _ _ (-1)%Z); [|discriminate]. reflexivity.
  - cbn [bad_evals In] in H. repeat (destruct H as [<-|H]; [reflexivity|]). destruct H.
Qed.
Print Assumptions C16_evaluate_refuted.
Theorem C16_end_to_end_refuted : forall other cfg, cfg = cfg_default \/ cfg = cfg_elaborated ->
  exists prems proof,
    check (rule_table other) cfg prems proof = ROk false /\
    forallb bool_term prems = true /\ forallb shape_ok proof = true /\ forallb cmd_wt proof = true /\
    forall I : interp, exists E : env I, env_ok E /\ forall p, In p prems -> holds E p = true.
Proof. exact soundness_refuted_eval. Qed.
Print Assumptions C16_end_to_end_refuted.

(** Evaluation keeps the value of a term that meets [eval_safe]: bit-vector literals are in range; no signed operation is applied to a value
    whose sign bit is set; no extraction has its top bit set; div and mod are applied to non-negative dividends; the operators pow2, log2 and
    is_pow2, which SMT-LIB does not define, are not evaluated.  Missing from the full property: the other terms, for which it is false. *)
Theorem C16_evaluate_partial : forall t t', evaluate t = ROk t' -> wt t = true -> eval_safe t = true ->
  forall (I : interp) (E : env I), eval t' E = eval t E /\ wt t' = true /\ sort_of t' = sort_of t.
Proof. intros t t' H Hw Hs I E. destruct (evaluate_sound E t t' Hw Hs H) as [H1 [H2 [H3 _]]]. auto. Qed.
Print Assumptions C16_evaluate_partial.
(** The rule. *)
Theorem C16_rule_partial : forall t v ps args, r_evaluate [tEq t v] ps args = ROk tt -> eval_safe t = true -> clause_wt [tEq t v] = true -> entails ps [tEq t v].
Proof. intros t v ps args H Hs Hw. eapply evaluate_rule_sound; eauto. Qed.
Print Assumptions C16_rule_partial.
(** Evaluation panics on division by zero and on shifts beyond the width. *)
Theorem C16_panics : evaluate (TOp OIntDiv [ci 1; ci 0]) = RPanic /\ evaluate (TOp ORealDiv [TConst (CReal 1); TConst (CReal 0)]) = RPanic /\
  evaluate (TOp OMod [ci 1; ci 0]) = RPanic /\ evaluate (TOp OBvAShr [bv 2 2; bv 3 2]) = RPanic /\ evaluate (TPOp PRotateLeft [ci 3] [bv 2 2]) = RPanic.
Proof. vm_compute. auto. Qed.
Print Assumptions C16_panics.

(** ** Witnesses *)
(** (concat ((_ rotate_left 3) (bvadd #b10000001 #b10000001)) ((_ zero_extend 1) (bvlshr #b110 #b001))), inside a term that stays symbolic *)
Definition deep : term :=
  TOp OBvConcat [TPOp PRotateLeft [ci 3] [TOp OBvAdd [bv 129 8; bv 129 8]]; TPOp PZeroExtend [ci 1] [TOp OBvLShr [bv 6 3; bv 1 3]]].
Definition mixed_t : term := TOp OAnd [TOp OLt [TOp ORealDiv [ci 7; ci 2]; TConst (CReal (15 # 4))]; TOp OEquals [deep; TVar "x" (SBV 12)]].
Example C16_witness : evaluate deep = ROk (bv 259 12) /\ wt deep = true /\ eval_safe deep = true /\
  evaluate mixed_t = ROk (TOp OAnd [tTrue; TOp OEquals [bv 259 12; TVar "x" (SBV 12)]]) /\ wt mixed_t = true /\ eval_safe mixed_t = true /\
  r_evaluate [tEq deep (bv 259 12)] [] [] = ROk tt /\ r_evaluate [tEq deep (bv 258 12)] [] [] = RErr /\ clause_wt [tEq deep (bv 259 12)] = true.
Proof. vm_compute. auto 10. Qed.
