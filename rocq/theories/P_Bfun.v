(** C28 (bfun_elim) and C41 (ite_intro). *)
From Coq Require Import List String ZArith QArith Bool.
From Verif Require Import Base Term Field Sem Sorting Rules Refute Polyeq CheckerSem Subst SubstSound R_Bfun BfunSound.
Import ListNotations.
Open Scope string_scope.

(** ** bfun_elim *)
(** The full statement, [rule_sound r_bfun_elim], fails: renaming a bound variable may capture a free one. *)
Theorem C28_bfun_elim_refuted : rule_refuted r_bfun_elim.
Proof. exact bfun_elim_refuted. Qed.
Print Assumptions C28_bfun_elim_refuted.
(** The elimination gives a term of the same sort and meaning, if nothing is captured by the substitutions of constants
    for the Bool variables (the flag). *)
Theorem C28_bfun_elim_meaning_partial : forall t r, bfun_term t = ROk (r, true) -> wt t = true ->
  wt r = true /\ sort_of r = sort_of t /\ forall (I : interp) (E : env I), env_ok E -> eval r E = eval t E.
Proof. intros t r. exact (bfun_sound _ t r). Qed.
Print Assumptions C28_bfun_elim_meaning_partial.
(** It terminates and does not crash on terms without [let]. *)
Theorem C28_bfun_elim_total : forall t, no_let t = true -> exists r, bfun_term t = ROk r.
Proof. exact bfun_total. Qed.
Print Assumptions C28_bfun_elim_total.
(** So the rule is sound if nothing is captured, and the conclusion and the expected term are of the kind on which the
    comparison is sound (C19). *)
Theorem C28_bfun_elim_partial : forall (g psi : term) (args : list term) e,
  r_bfun_elim [g] [[psi]] args = ROk tt -> bool_term g = true -> bool_term psi = true ->
  bfun_term psi = ROk (e, true) -> std_term g = true -> std_term e = true ->
  forall (I : interp) (E : env I), env_ok E -> holds E psi = true -> holds E g = true.
Proof.
  intros g psi args e H Wg Wp He Sg Se I E HE Hp.
  assert (Hc : clause_holds E [g]).
  { refine (bfun_elim_sound [g] [[psi]] args H _ _ _ I E HE _).
    - unfold bfun_ok. rewrite He, Sg, Se. reflexivity.
    - unfold clause_wt. cbn [forallb]. rewrite Wg. reflexivity.
    - unfold clause_wt. cbn [forallb]. rewrite Wp. reflexivity.
    - intros p [<-|[]]. exists psi. split; [left; reflexivity|exact Hp]. }
  destruct Hc as [l [[<-|[]] Hl]]. exact Hl.
Qed.
Print Assumptions C28_bfun_elim_partial.
(** A concrete case: (forall ((b Bool) (x Int)) (p b (or b c) x)) *)
Example C28_bfun_elim_witness :
  let p := TVar "p" (SFun [SBool; SBool; SInt; SBool]) in
  let b := TVar "b" SBool in let c := TVar "c" SBool in let x := TVar "x" SInt in
  let ite a l r := TOp OIte [a; l; r] in
  let psi := TBind BForall [("b", SBool); ("x", SInt)] (TApp p [b; TOp OOr [b; c]; x]) in
  let inst k := ite (TOp OOr [k; c]) (TApp p [k; t_true; x]) (TApp p [k; t_false; x]) in
  let g := TBind BForall [("x", SInt)] (TOp OAnd [inst t_false; inst t_true]) in
  r_bfun_elim [g] [[psi]] [] = ROk tt /\ bool_term g = true /\ bool_term psi = true /\
  bfun_term psi = ROk (g, true) /\ std_term g = true.
Proof. vm_compute. repeat split. Qed.

(** ** ite_intro *)
(** It inherits the unsoundness of the comparison (C19): (= (/ 2 (- 1)) -0.5) is accepted. *)
Theorem C41_ite_intro_refuted : rule_refuted r_ite_intro.
Proof. exact ite_intro_refuted. Qed.
Print Assumptions C41_ite_intro_refuted.
(** It concludes only valid equations when the terms are of the kind on which the comparison is sound. *)
Theorem C41_ite_intro_partial : forall (g : term) (ps : list clause) (args : list term),
  r_ite_intro [g] ps args = ROk tt -> bool_term g = true -> std_term g = true ->
  forall (I : interp) (E : env I), env_ok E -> holds E g = true.
Proof.
  intros g ps args H Wg Sg I E HE.
  assert (Hc : clause_holds E [g]).
  { refine (ite_intro_sound [g] [] args H _ _ eq_refl I E HE _).
    - unfold ite_intro_ok. cbn [forallb]. rewrite Sg. reflexivity.
    - unfold clause_wt. cbn [forallb]. rewrite Wg. reflexivity.
    - intros p []. }
  destruct Hc as [l [[<-|[]] Hl]]. exact Hl.
Qed.
Print Assumptions C41_ite_intro_partial.
Example C41_ite_intro_witness :
  let x := TVar "x" SInt in let c := TVar "c" SBool in
  let it := TOp OIte [c; x; tInt 0] in
  let t := TOp OGt [it; tInt 1] in
  let g := tEq t (TOp OAnd [t; TOp OIte [c; tEq it x; tEq (tInt 0) it]]) in
  r_ite_intro [g] [] [] = ROk tt /\ bool_term g = true /\ std_term g = true.
Proof. vm_compute. repeat split. Qed.
