(** Accepted proofs of satisfiable assertions, and the corollaries used in P_Checker.v. *)
From Coq Require Import List String ZArith QArith Bool Arith Lia.
From Verif Require Import CPRefute Num R_LA PolyeqRefute Base Term Field Sem Sorting Rules Refute Polyeq Std PolyeqSound Checker CheckerSound CheckerSem Table CPSound R_Poly PolySound PBRefute.
Import ListNotations.
Open Scope string_scope.
Local Open Scope nat_scope.

Definition cfg_default : config := mkCfg false false [].
Definition cfg_elaborated : config := mkCfg true false [].

(** (assert p): p, (= p p), (or (not p) p), resolve to the empty clause *)
Definition p_ := TVar "p" SBool.
Definition gr_proof : list command :=
  [ CAssume "h" p_;
    CStep (mkStep "t1" [tEq p_ p_] "eq_reflexive" [] [] []);
    CStep (mkStep "t2" [tNot p_; p_] "equiv1" [(0, 1)] [] []);
    CStep (mkStep "t3" [] "resolution" [(0, 0); (0, 2)] [] []) ].
Lemma soundness_refuted_resolution other :
  exists prems proof,
    check (rule_table other) cfg_default prems proof = ROk false /\
    forallb bool_term prems = true /\ forallb shape_ok proof = true /\ forallb cmd_wt proof = true /\
    forall I : interp, exists E : env I, env_ok E /\ forall p, In p prems -> holds E p = true.
Proof.
  exists [p_], gr_proof. do 4 (split; [vm_compute; reflexivity|]).
  intros I. destruct (env_with (I := I) "p" SBool (VB true) eq_refl) as [E [HE Hp]]. exists E. split; [exact HE|].
  intros p [<-|[]]. unfold holds. cbn. rewrite Hp. reflexivity.
Qed.

(** (assert (> x 0.0)) (assert (not (>= x 1.0))) for a real x *)
Definition xr_ := TVar "x" SReal.
Definition la_prems : list term := [TOp OGt [xr_; tReal 0]; tNot (TOp OGe [xr_; tReal 1])].
Definition la_proof : list command :=
  [ CAssume "h1" (TOp OGt [xr_; tReal 0]); CAssume "h2" (tNot (TOp OGe [xr_; tReal 1]));
    CStep (mkStep "t1" [tNot (TOp OGt [xr_; tReal 0]); TOp OGe [xr_; tReal 1]] "la_generic" [] [tReal 1; tReal 1] []);
    CStep (mkStep "t2" [] "resolution" [(0, 2); (0, 0); (0, 1)]
             [TOp OGt [xr_; tReal 0]; tFalse; TOp OGe [xr_; tReal 1]; tTrue] []) ].
Lemma soundness_refuted_la other :
  exists prems proof,
    check (rule_table other) cfg_elaborated prems proof = ROk false /\
    forallb bool_term prems = true /\ forallb shape_ok proof = true /\ forallb cmd_wt proof = true /\
    forall I : interp, exists E : env I, env_ok E /\ forall p, In p prems -> holds E p = true.
Proof.
  exists la_prems, la_proof. do 4 (split; [vm_compute; reflexivity|]).
  intros I. destruct (env_with (I := I) "x" SReal (VN (injQ (1#2))) eq_refl) as [E [HE Hx]].
  exists E. split; [exact HE|].
  intros p [<-|[<-|[]]]; unfold tNot; rewrite ?holds_not', ?holds_gt, ?holds_ge; unfold nval, xr_, tReal;
    cbn [eval eval_const]; rewrite Hx; cbn [num]; unfold oltb; rewrite !injQ_leb; reflexivity.
Qed.

(** (assert (> x 0)) (assert (not (> (- x) 0))) *)
Definition xi_ := TVar "x" SInt.
Definition am_f := TOp OGt [TOp OSub [xi_]; tInt 0].
Definition am_prems : list term := [TOp OGt [xi_; tInt 0]; tNot am_f].
Definition am_proof : list command :=
  [ CAssume "h1" am_f; CAssume "h2" (tNot am_f); CStep (mkStep "t1" [] "resolution" [(0, 0); (0, 1)] [] []) ].
Lemma am_model (I : interp) : exists E : env I, env_ok E /\ (forall p, In p am_prems -> holds E p = true) /\ holds E am_f = false.
Proof.
  destruct assume_refuted_formula as [_ H]. destruct (H I) as [E [HE [H1 H2]]]. exists E. split; [exact HE|].
  split; [|exact H2]. intros p [<-|[<-|[]]]; [exact H1|]. rewrite holds_not. unfold am_f, xi_. unfold vI in H2. rewrite H2. reflexivity.
Qed.
Lemma soundness_refuted_assume other :
  exists prems proof,
    check (rule_table other) cfg_default prems proof = ROk false /\
    forallb bool_term prems = true /\ forallb shape_ok proof = true /\ forallb cmd_wt proof = true /\
    forall I : interp, exists E : env I, env_ok E /\ forall p, In p prems -> holds E p = true.
Proof.
  exists am_prems, am_proof. do 4 (split; [vm_compute; reflexivity|]).
  intros I. destruct (am_model I) as [E [HE [H _]]]. eauto.
Qed.
Lemma assume_not_entailed other :
  exists prems proof id t,
    check (rule_table other) cfg_default prems proof = ROk false /\ In (CAssume id t) proof /\
    forallb bool_term prems = true /\ bool_term t = true /\
    forall I : interp, exists E : env I, env_ok E /\ (forall p, In p prems -> holds E p = true) /\ holds E t = false.
Proof.
  exists am_prems, am_proof, "h1", am_f. split; [vm_compute; reflexivity|]. split; [left; reflexivity|].
  do 2 (split; [vm_compute; reflexivity|]). apply am_model.
Qed.

(** (assert x): a subproof under the anchor (:= (x Bool) false) closed by [refl] exports (= x false) *)
Definition xb_ := TVar "x" SBool.
Definition re_proof : list command :=
  [ CAssume "h" xb_;
    CSub [ CStep (mkStep "t1.t1" [tEq xb_ tFalse] "refl" [] [] []);
           CStep (mkStep "t1" [tEq xb_ tFalse] "refl" [] [] []) ] [AAssign ("x", SBool) tFalse] 0;
    CStep (mkStep "t2" [tNot xb_; tFalse] "equiv1" [(0, 1)] [] []);
    CStep (mkStep "t3" [tNot tFalse] "false" [] [] []);
    CStep (mkStep "t4" [] "resolution" [(0, 2); (0, 0); (0, 3)] [xb_; tFalse; tFalse; tTrue] []) ].
Lemma bool_model (I : interp) b : exists E : env I, env_ok E /\ holds E xb_ = b.
Proof.
  destruct (env_with (I := I) "x" SBool (VB b) eq_refl) as [E [HE Hp]]. exists E. split; [exact HE|].
  unfold holds. cbn. rewrite Hp. reflexivity.
Qed.
Lemma soundness_refuted_end other cfg : cfg = cfg_default \/ cfg = cfg_elaborated ->
  exists prems proof,
    check (rule_table other) cfg prems proof = ROk false /\
    forallb bool_term prems = true /\ forallb shape_ok proof = true /\ forallb cmd_wt proof = true /\
    forall I : interp, exists E : env I, env_ok E /\ forall p, In p prems -> holds E p = true.
Proof.
  intros Hc. exists [xb_], re_proof. split; [destruct Hc as [-> | ->]; vm_compute; reflexivity|]. do 3 (split; [vm_compute; reflexivity|]).
  intros I. destruct (bool_model I true) as [E [HE Hp]]. exists E. split; [exact HE|]. intros p [<-|[]]. exact Hp.
Qed.
(** (assert (not x)): the let rule gives (= (let ((x true)) x) x) and (= (let ((x true)) x) true) *)
Definition lt_ := TLet [("x", tTrue)] xb_.
Definition le_proof : list command :=
  [ CAssume "h" (tNot xb_);
    CSub [ CStep (mkStep "t1.t1" [tEq xb_ xb_] "refl" [] [] []);
           CStep (mkStep "t1" [tEq lt_ xb_] "let" [] [] []) ] [AAssign ("x", SBool) tTrue] 0;
    CSub [ CStep (mkStep "t2.t1" [tEq xb_ tTrue] "refl" [] [] []);
           CStep (mkStep "t2" [tEq lt_ tTrue] "let" [] [] []) ] [AAssign ("x", SBool) tTrue] 1;
    CStep (mkStep "t3" [tEq tTrue lt_] "symm" [(0, 2)] [] []);
    CStep (mkStep "t4" [tEq tTrue xb_] "trans" [(0, 3); (0, 1)] [] []);
    CStep (mkStep "t5" [tNot tTrue; xb_] "equiv1" [(0, 4)] [] []);
    CStep (mkStep "t6" [tTrue] "true" [] [] []);
    CStep (mkStep "t7" [] "resolution" [(0, 5); (0, 6); (0, 0)] [tTrue; tFalse; xb_; tTrue] []) ].
Lemma soundness_refuted_let other cfg : cfg = cfg_default \/ cfg = cfg_elaborated ->
  exists prems proof,
    check (rule_table other) cfg prems proof = ROk false /\
    forallb bool_term prems = true /\ forallb shape_ok proof = true /\ forallb cmd_wt proof = true /\
    forall I : interp, exists E : env I, env_ok E /\ forall p, In p prems -> holds E p = true.
Proof.
  intros Hc. exists [tNot xb_], le_proof. split; [destruct Hc as [-> | ->]; vm_compute; reflexivity|]. do 3 (split; [vm_compute; reflexivity|]).
  intros I. destruct (bool_model I false) as [E [HE Hp]]. exists E. split; [exact HE|]. intros p [<-|[]]. rewrite holds_not, Hp. reflexivity.
Qed.
(** (assert (>= x 0)) (assert (not (>= (- x) 0))): cp_normalize drops the unary minus *)
Definition cp_proof : list command :=
  [ CAssume "h1" x_ge0; CAssume "h2" (tNot minus_x);
    CStep (mkStep "t1" [tEq minus_x x_ge0] "cp_normalize" [] [] []);
    CStep (mkStep "t2" [minus_x; tNot x_ge0] "equiv2" [(0, 2)] [] []);
    CStep (mkStep "t3" [] "resolution" [(0, 3); (0, 1); (0, 0)] [minus_x; tTrue; x_ge0; tFalse] []) ].
Lemma soundness_refuted_cp other cfg : cfg = cfg_default \/ cfg = cfg_elaborated ->
  exists prems proof,
    check (rule_table other) cfg prems proof = ROk false /\
    forallb bool_term prems = true /\ forallb shape_ok proof = true /\ forallb cmd_wt proof = true /\
    forall I : interp, exists E : env I, env_ok E /\ forall p, In p prems -> holds E p = true.
Proof.
  intros Hc. exists [x_ge0; tNot minus_x], cp_proof. split; [destruct Hc as [-> | ->]; vm_compute; reflexivity|]. do 3 (split; [vm_compute; reflexivity|]).
  intros I. destruct (minus_model I) as [E [HE [H1 H2]]]. exists E. split; [exact HE|].
  intros p [<-|[<-|[]]]; auto. rewrite holds_not, H2. reflexivity.
Qed.
(** drat steps derive p and (not p) from nothing: clauses added by drat need not follow from the premises *)
Definition drat_proof : list command :=
  [ CStep (mkStep "t1" [xb_] "drat" [] [TOp OCl [xb_]] []);
    CStep (mkStep "t2" [tNot xb_] "drat" [] [TOp OCl [tNot xb_]] []);
    CStep (mkStep "t3" [] "resolution" [(0, 0); (0, 1)] [xb_; tTrue] []) ].
Lemma soundness_refuted_drat other cfg : cfg = cfg_default \/ cfg = cfg_elaborated ->
  exists prems proof,
    check (rule_table other) cfg prems proof = ROk false /\
    forallb bool_term prems = true /\ forallb shape_ok proof = true /\ forallb cmd_wt proof = true /\
    forall I : interp, exists E : env I, env_ok E /\ forall p, In p prems -> holds E p = true.
Proof.
  intros Hc. exists [], drat_proof. split; [destruct Hc as [-> | ->]; vm_compute; reflexivity|]. do 3 (split; [vm_compute; reflexivity|]).
  intros I. destruct (bool_model I false) as [E [HE _]]. exists E. split; [exact HE|]. intros p [].
Qed.

(** poly_simp proves that two times (div 1 2) equals 1, but the left-hand side is 0 *)
Definition half_eq : term := tEq (TOp OMult [TConst (CInt 2); TOp OIntDiv [TConst (CInt 1); TConst (CInt 2)]]) (TConst (CInt 1)).
Lemma nval_cint {I} (E : env I) z : nval E (TConst (CInt z)) = inj z. Proof. reflexivity. Qed.
Lemma nval_half {I} (E : env I) : nval E (TOp OIntDiv [TConst (CInt 1); TConst (CInt 2)]) = inj 0.
Proof. unfold nval; cbn [eval map eval_op fold1 fold_left eval_const]; unfold idiv, vint; cbn [num]; rewrite <- (inj_0 (iF I)), inj_eqb, !floor_inj; reflexivity. Qed.
Lemma half_eq_false {I} (E : env I) : holds E half_eq = false.
Proof.
  unfold half_eq. destruct (holds E _) eqn:H; auto. apply eqv_iff in H. apply (f_equal num) in H. exfalso.
  change (nval E (TOp OMult [TConst (CInt 2); TOp OIntDiv [TConst (CInt 1); TConst (CInt 2)]]) = nval E (TConst (CInt 1))) in H. rewrite nval_mult2, nval_half, !nval_cint, <- inj_mul in H.
  apply inj_inj in H. discriminate.
Qed.
Definition poly_proof : list command :=
  [ CAssume "a0" (tNot half_eq); CStep (mkStep "t1" [half_eq] "poly_simp" [] [] []);
    CStep (mkStep "t2" [] "resolution" [(0, 0); (0, 1)] [half_eq; tFalse] []) ].
Lemma soundness_refuted_poly other cfg : cfg = cfg_default \/ cfg = cfg_elaborated ->
  exists prems proof,
    check (rule_table other) cfg prems proof = ROk false /\
    forallb bool_term prems = true /\ forallb shape_ok proof = true /\ forallb cmd_wt proof = true /\
    forall I : interp, exists E : env I, env_ok E /\ forall p, In p prems -> holds E p = true.
Proof.
  intros Hc. exists [tNot half_eq], poly_proof. split; [destruct Hc as [-> | ->]; vm_compute; reflexivity|]. do 3 (split; [vm_compute; reflexivity|]).
  intros I. destruct (bool_model I false) as [E [HE _]]. exists E. split; [exact HE|]. intros p [<-|[]]. rewrite holds_not, half_eq_false. reflexivity.
Qed.

(** evaluate drops the top bit of an extraction: the step concludes ((_ extract 1 1) #b10) = #b0 *)
Definition ext_eq : term := tEq (TPOp PBvExtract [TConst (CInt 1); TConst (CInt 1)] [TConst (CBV 2 2)]) (TConst (CBV 0 1)).
Lemma ext_eq_false {I} (E : env I) : holds E ext_eq = false.
Proof. reflexivity. Qed.
Definition eval_proof : list command :=
  [ CAssume "a0" (tNot ext_eq); CStep (mkStep "t1" [ext_eq] "evaluate" [] [] []);
    CStep (mkStep "t2" [] "resolution" [(0, 0); (0, 1)] [ext_eq; tFalse] []) ].
Lemma soundness_refuted_eval other cfg : cfg = cfg_default \/ cfg = cfg_elaborated ->
  exists prems proof,
    check (rule_table other) cfg prems proof = ROk false /\
    forallb bool_term prems = true /\ forallb shape_ok proof = true /\ forallb cmd_wt proof = true /\
    forall I : interp, exists E : env I, env_ok E /\ forall p, In p prems -> holds E p = true.
Proof.
  intros Hc. exists [tNot ext_eq], eval_proof. split; [destruct Hc as [-> | ->]; vm_compute; reflexivity|]. do 3 (split; [vm_compute; reflexivity|]).
  intros I. destruct (bool_model I false) as [E [HE _]]. exists E. split; [exact HE|]. intros p [<-|[]]. rewrite holds_not, ext_eq_false. reflexivity.
Qed.

(** pbblast_bveq accepts sums over some of the bits: the step concludes (#b00 = #b10) = (bit 0 - bit 0 = 0) *)
Definition pb_proof : list command :=
  [ CAssume "a0" (tNot cut_eq); CStep (mkStep "t1" [cut_eq] "pbblast_bveq" [] [] []);
    CStep (mkStep "t2" [] "resolution" [(0, 0); (0, 1)] [cut_eq; tFalse] []) ].
Lemma soundness_refuted_pb other cfg : cfg = cfg_default \/ cfg = cfg_elaborated ->
  exists prems proof,
    check (rule_table other) cfg prems proof = ROk false /\
    forallb bool_term prems = true /\ forallb shape_ok proof = true /\ forallb cmd_wt proof = true /\
    forall I : interp, exists E : env I, env_ok E /\ forall p, In p prems -> holds E p = true.
Proof.
  intros Hc. exists [tNot cut_eq], pb_proof. split; [destruct Hc as [-> | ->]; vm_compute; reflexivity|]. do 3 (split; [vm_compute; reflexivity|]).
  intros I. destruct (bool_model I false) as [E [HE _]]. exists E. split; [exact HE|]. intros p [<-|[]]. rewrite holds_not, cut_eq_false. reflexivity.
Qed.

(** ** Corollaries *)
Lemma check_table_sound other cfg prems proof :
  check (rule_table other) cfg prems proof = ROk false ->
  forallb shape_ok proof = true -> forallb cmd_wt proof = true ->
  wf_proof (rule_side (elaborated cfg)) proof = true -> assumes_ok cfg prems proof = true ->
  forall (I : interp) (E : env I), env_ok E -> ~ (forall p, In p prems -> holds E p = true).
Proof. apply check_sound. apply rule_table_sound. Qed.
Lemma holey_exact table cfg prems proof b :
  check table cfg prems proof = ROk b ->
  (b = true <-> exists s, In s (proof_steps proof) /\
     (In (s_rule s) (allowed cfg) \/ table (elaborated cfg) (s_rule s) = None \/
      s_rule s = "hole" \/ s_rule s = "lia_generic")).
Proof.
  intros H. apply check_holey in H. rewrite H, existsb_exists.
  assert (Hu : forall s, unchecked table cfg s = true <-> (In (s_rule s) (allowed cfg) \/ table (elaborated cfg) (s_rule s) = None \/
      s_rule s = "hole" \/ s_rule s = "lia_generic")).
  { intros s. unfold unchecked. rewrite !orb_true_iff, !(memb_In String.eqb String.eqb_eq). cbn [In].
    assert (Ht : (match table (elaborated cfg) (s_rule s) with None => true | Some _ => false end) = true <-> table (elaborated cfg) (s_rule s) = None)
      by (destruct (table _ _); split; congruence).
    rewrite Ht. intuition congruence. }
  split; intros [s [H1 H2]]; exists s; split; auto; apply Hu; auto.
Qed.
Lemma assume_exact table cfg prems proof b :
  check table cfg prems proof = ROk b -> elaborated cfg = true ->
  forall id t, In (CAssume id t) proof -> In t prems.
Proof. intros H He id t Hin. destruct (check_assumes _ _ _ _ _ H id t Hin) as [|[He' _]]; [auto|congruence]. Qed.
Lemma assume_entailed table cfg prems proof b :
  check table cfg prems proof = ROk b ->
  forallb cmd_wt proof = true -> assumes_ok cfg prems proof = true ->
  forall id t, In (CAssume id t) proof ->
  exists p, In p prems /\ forall (I : interp) (E : env I), env_ok E -> holds E t = holds E p.
Proof.
  intros H Hwt Hao id t Hin. destruct (check_assumes _ _ _ _ _ H id t Hin) as [Hq|[Hel [p [Hq He]]]]; [eauto|].
  exists p. split; [exact Hq|]. intros I E HE.
  unfold assumes_ok in Hao. rewrite Hel in Hao. cbn [orb] in Hao. apply andb_true_iff in Hao. destruct Hao as [Ho1 Ho2].
  rewrite forallb_forall in Ho1, Ho2, Hwt. pose proof (Ho1 _ Hq) as Op. pose proof (Ho2 _ Hin) as Ot. pose proof (Hwt _ Hin) as Wt.
  cbn in Ot, Wt. cbv beta in Op. unfold assume_std in Op, Ot. rewrite !andb_true_iff in Op. rewrite !andb_true_iff in Ot.
  apply bool_term_wt in Wt. unfold holds. f_equal. apply assume_eq_sound; tauto.
Qed.
