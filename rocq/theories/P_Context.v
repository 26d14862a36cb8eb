(** C31: the context stack. *)
From Coq Require Import List String Ascii ZArith QArith Bool Arith Lia.
From Verif Require Import Base Term Field Sem Sorting Rules Refute Utils R_Simp Subst SubstSound SubstClean SubstRefute Checker CheckerSound CheckerSem Context ContextSound.
Import ListNotations.
Local Open Scope string_scope.

(** C31, full statement: for every history of opened and closed anchors (well-sorted) and applications to well-sorted
    terms, each application of the context to a term [t] yields a term with the same value as [t] in all environments
    which the open anchors allow ([outs_ok [] ops outs]). This fails in three ways. *)
Definition op_wt (o : cop) : bool :=
  match o with OpPush a => forallb anchor_wt a | OpPop => true | OpApply t | OpApplyPrev t => wt t end.
(** the last output of a history [ops ++ [OpApply t]] differs from [t] in some (for every interpretation) allowed environment *)
Definition wrong_after (cx : list (list anchor)) (t t' : term) : Prop :=
  forall I : interp, exists E : env I, in_ctx cx E /\ holds E t <> holds E t'.

Definition zero : term := TConst (CInt 0).
(** (a) A variable is declared again: the results computed while it stood for a term remain in the cache. *)
Definition stale_ops : list cop := [OpPush [AAssign ("y", SInt) zero]; OpApply (eq2 (vi "y") zero); OpPush [AVar ("y", SInt)]].
Theorem C31_stale_cache_refuted :
  forallb op_wt stale_ops = true /\
  (exists o, ctx_run [] (stale_ops ++ [OpApply (eq2 (vi "y") zero)]) = ROk [o; eq2 zero zero]) /\
  wrong_after [[AVar ("y", SInt)]; [AAssign ("y", SInt) zero]] (eq2 (vi "y") zero) (eq2 zero zero) /\
  (** without the earlier application the result would be right *)
  ctx_run [] [OpPush [AAssign ("y", SInt) zero]; OpPush [AVar ("y", SInt)]; OpApply (eq2 (vi "y") zero)] = ROk [eq2 (vi "y") zero].
Proof.
  split; [reflexivity|]. split; [eexists; reflexivity|]. split; [|reflexivity]. intros I. destruct (env_exists (I := I)) as [E HE].
  exists (upd (upd E "y" SInt (vint 0)) "y" SInt (vint 1)). split.
  - apply (in_ctx_cons _ _ (upd E "y" SInt (vint 0))); [|apply (ext_var "y" SInt (vint 1)); [apply dom_vint|constructor]].
    apply (in_ctx_cons _ _ E); [constructor; auto|]. apply (ext_asg "y" SInt zero). constructor.
  - unfold holds. cbn [eq2 vi zero eval map eval_op truth eval_const]. rewrite upd_same.
    change (veqb (vint 1) (vint 0 : value I) && true <> veqb (vint 0) (vint 0 : value I) && true). rewrite !andb_true_r.
    assert (veqb (vint 1) (vint 0 : value I) = false) as ->.
    { apply not_true_iff_false. intros H. apply veqb_eq in H. symmetry in H. apply (vint_neq I H). }
    rewrite veqb_refl. discriminate.
Qed.
Print Assumptions C31_stale_cache_refuted.
(** (b) A declared variable captures the variables of earlier assigned terms. *)
Theorem C31_capture_refuted :
  ctx_run [] [OpPush [AAssign ("x", SBool) (vb "y")]; OpPush [AVar ("y", SBool)]; OpApply (vb "x")] = ROk [vb "y"] /\
  wrong_after [[AVar ("y", SBool)]; [AAssign ("x", SBool) (vb "y")]] (vb "x") (vb "y").
Proof.
  split; [reflexivity|]. intros I. destruct (env_with (I := I) "y" SBool (VB true)) as [E [HE Hy]]; [reflexivity|].
  exists (upd (upd E "x" SBool (VB true)) "y" SBool (VB false)). split.
  - apply (in_ctx_cons _ _ (upd E "x" SBool (VB true))); [|apply (ext_var "y" SBool (VB false)); [reflexivity|constructor]].
    apply (in_ctx_cons _ _ E); [constructor; auto|]. rewrite <- Hy. apply (ext_asg "x" SBool (vb "y")). constructor.
  - unfold holds. cbn. discriminate.
Qed.
Print Assumptions C31_capture_refuted.
(** (c) A term mentions the variable it is assigned to. *)
Theorem C31_self_refuted :
  ctx_run [] [OpPush [AAssign ("x", SBool) (TOp ONot [vb "x"])]; OpApply (vb "x")] = ROk [TOp ONot [vb "x"]] /\
  forall (I : interp) (E : env I), holds E (vb "x") <> holds E (TOp ONot [vb "x"]).
Proof. split; [reflexivity|]. intros I E. unfold holds. cbn. destruct (truth (E "x" SBool)); discriminate. Qed.
Print Assumptions C31_self_refuted.

(** What holds: if the anchors are hygienic ([hyg_ctx], see ContextSound.v) and the names of assigned variables and
    terms are not bound in the terms the context is applied to, then in every history every application is right. *)
Theorem C31_context_partial : forall ops, ops_ok [] ops -> exists outs, ctx_run [] ops = ROk outs /\ outs_ok [] ops outs.
Proof. intros ops H. apply ctx_history; auto. exact Logic.I. Qed.
Print Assumptions C31_context_partial.
(** nested anchors (:= (x Int) 1), (y Int) (:= (z Int) (+ x y)), applied, closed, applied again *)
Example C31_example :
  let a1 := [AAssign ("x", SInt) (TConst (CInt 1))] in
  let a2 := [AVar ("y", SInt); AAssign ("y", SInt) (vi "y"); AAssign ("z", SInt) (TOp OAdd [vi "x"; vi "y"])] in
  let t := TBind BExists [("w", SInt)] (eq2 (vi "z") (TOp OAdd [vi "x"; vi "w"])) in
  let ops := [OpPush a1; OpApply t; OpPush a2; OpApply t; OpApplyPrev t; OpPop; OpApply t] in
  ops_ok [] ops /\
  ctx_run [] ops = ROk
    [TBind BExists [("w", SInt)] (eq2 (vi "z") (TOp OAdd [TConst (CInt 1); vi "w"]));
     TBind BExists [("w", SInt)] (eq2 (TOp OAdd [TConst (CInt 1); vi "y"]) (TOp OAdd [TConst (CInt 1); vi "w"]));
     TBind BExists [("w", SInt)] (eq2 (vi "z") (TOp OAdd [TConst (CInt 1); vi "w"]));
     TBind BExists [("w", SInt)] (eq2 (vi "z") (TOp OAdd [TConst (CInt 1); vi "w"]))].
Proof.
  cbv zeta. split; [|reflexivity].
  repeat (apply conj; [|]); try exact Logic.I; try reflexivity; try (cbn; discriminate);
    (eexists; split; [reflexivity|]; apply avoids_b_spec; reflexivity).
Qed.
