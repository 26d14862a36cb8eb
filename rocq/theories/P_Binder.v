(** C21: the rules that close a subproof with an anchor: bind, let, onepoint, sko_ex, sko_forall, bind_let; and refl,
    the rule that uses the anchor's substitution. [end_sound r side]: if an accepted, well-sorted end step meets [side], then its
    conclusion holds in every environment of the outer context, provided that the premises and the previous
    command hold in all environments that extend it as the anchor says ([ext], CheckerSem.v). *)
From Coq Require Import List String ZArith Bool.
From Verif Require Import Base Term Field Sem Sorting Rules Std Checker CheckerSem R_Binder BinderRefute BinderSound OnepointSound.
Import ListNotations.
Open Scope string_scope.

(** ** None of the rules is sound as it stands *)
Theorem C21_bind_refuted : end_refuted r_bind.
Proof. exact bind_refuted. Qed.
Print Assumptions C21_bind_refuted.
Theorem C21_let_refuted : end_refuted r_let.
Proof. exact let_refuted. Qed.
Print Assumptions C21_let_refuted.
Theorem C21_onepoint_refuted : end_refuted r_onepoint.
Proof. exact onepoint_refuted. Qed.
Print Assumptions C21_onepoint_refuted.
Theorem C21_sko_ex_refuted : end_refuted (r_sko BExists).
Proof. exact sko_ex_refuted. Qed.
Print Assumptions C21_sko_ex_refuted.
Theorem C21_sko_forall_refuted : end_refuted (r_sko BForall).
Proof. exact sko_forall_refuted. Qed.
Print Assumptions C21_sko_forall_refuted.
Theorem C21_bind_let_refuted : end_refuted r_bind_let.
Proof. exact bind_let_refuted. Qed.
Print Assumptions C21_bind_let_refuted.

(** ** They are sound under conditions on the variables *)
(** bind: the substitution of the anchor identifies the variables of both binders, and the bodies mention no other
    variable of the anchor ([same_meaning]) *)
Theorem C21_bind_sound_partial : end_sound r_bind (fun ra => bind_side ra && no_disch ra).
Proof. exact bind_end. Qed.
Print Assumptions C21_bind_sound_partial.
(** let: the anchor only assigns, distinct variables; the right-hand side, the assigned and the bound terms do not mention them *)
Theorem C21_let_sound_partial : end_sound r_let (fun ra => let_side ra && no_disch ra).
Proof. exact let_end. Qed.
Print Assumptions C21_let_sound_partial.
Theorem C21_bind_let_sound_partial : end_sound r_bind_let (fun ra => bind_let_side ra && no_disch ra).
Proof. exact bind_let_end. Qed.
Print Assumptions C21_bind_let_sound_partial.
(** onepoint: the assigned variables can be read off the points one after the other, no point is captured by an inner
    binder, and the assigned variables are gone from the right-hand side *)
Theorem C21_onepoint_sound_partial : end_sound r_onepoint (fun ra => onepoint_side ra && no_disch ra).
Proof. exact onepoint_end. Qed.
Print Assumptions C21_onepoint_sound_partial.
(** sko_ex, sko_forall: the anchor only assigns, distinct variables of the quantifier; neither the assigned terms nor the right-hand
    side mention them; bound names are distinct where terms are compared and substituted *)
Theorem C21_sko_sound_partial : forall q, end_sound (r_sko q) (fun ra => sko_side ra && no_disch ra).
Proof. exact sko_end. Qed.
Print Assumptions C21_sko_sound_partial.
(** refl, in both modes, as a step and as an end step *)
Theorem C21_refl_sound_partial : step_sound r_refl refl_side /\ step_sound r_strict_refl strict_refl_side /\
  end_sound r_refl (fun ra => refl_side ra && (end_closed ra && no_disch ra)) /\
  end_sound r_strict_refl (fun ra => strict_refl_side ra && (end_closed ra && no_disch ra)).
Proof. exact (conj refl_step (conj strict_refl_step (conj refl_end strict_refl_end))). Qed.
Print Assumptions C21_refl_sound_partial.

(** ** Steps that meet the conditions *)
Definition xi := TVar "x" SInt.
Definition yi := TVar "y" SInt.
Definition ai := TVar "a" SInt.
Definition bi := TVar "b" SInt.
Definition gt a b := TOp OGt [a; b].
Definition num5 := TConst (CInt 5).
Definition ok_end (r : crule) (side : rargs -> bool) (ra : rargs) : bool :=
  match r ra with ROk tt => side ra && no_disch ra && ra_wt ra | _ => false end.
(** (= (forall ((x Int)) (> x a)) (forall ((y Int)) (> y a))), from y, x := y |- (= (> x a) (> y a)) *)
Example C21_bind_witness :
  ok_end r_bind bind_side
    (mkRA [tEq (TBind BForall [("x", SInt)] (gt xi ai)) (TBind BForall [("y", SInt)] (gt yi ai))] [] []
       [[AVar ("y", SInt); AAssign ("x", SInt) yi]] (Some [tEq (gt xi ai) (gt yi ai)]) []) = true.
Proof. vm_compute. reflexivity. Qed.
(** (= (let ((x a)) (> x 5)) (> b 5)), from the premise (= a b) and x := b |- (= (> x 5) (> b 5)) *)
Example C21_let_witness :
  ok_end r_let let_side
    (mkRA [tEq (TLet [("x", ai)] (gt xi num5)) (gt bi num5)] [[tEq ai bi]] []
       [[AAssign ("x", SInt) bi]] (Some [tEq (gt xi num5) (gt bi num5)]) []) = true.
Proof. vm_compute. reflexivity. Qed.
Example C21_bind_let_witness :
  ok_end r_bind_let bind_let_side
    (mkRA [tEq (TLet [("x", ai)] (gt xi num5)) (TLet [("x", bi)] (TOp OLt [num5; xi]))] [[tEq ai bi]] []
       [[AVar ("x", SInt)]] (Some [tEq (gt xi num5) (TOp OLt [num5; xi])]) []) = true.
Proof. vm_compute. reflexivity. Qed.
(** (= (exists ((x Int) (y Int)) (and (= x (+ y a)) (> x y))) (exists ((y Int)) (and (= (+ y a) (+ y a)) (> (+ y a) y)))) *)
Definition pl a b := TOp OAdd [a; b].
Definition op_l := TOp OAnd [tEq xi (pl yi ai); gt xi yi].
Definition op_r := TOp OAnd [tEq (pl yi ai) (pl yi ai); gt (pl yi ai) yi].
Example C21_onepoint_witness :
  ok_end r_onepoint onepoint_side
    (mkRA [tEq (TBind BExists [("x", SInt); ("y", SInt)] op_l) (TBind BExists [("y", SInt)] op_r)] [] []
       [[AVar ("y", SInt); AAssign ("x", SInt) (pl yi ai)]] (Some [tEq op_l op_r]) []) = true.
Proof. vm_compute. reflexivity. Qed.
(** two points, the second of which uses the first variable: (forall ((x Int) (y Int)) (=> (= x 5) (=> (= y (+ x a)) (> y x)))) *)
Definition op2_l := TOp OImplies [tEq xi num5; TOp OImplies [tEq yi (pl xi ai); gt yi xi]].
Definition op2_r := TOp OImplies [tEq num5 num5; TOp OImplies [tEq (pl num5 ai) (pl num5 ai); gt (pl num5 ai) num5]].
Example C21_onepoint_witness2 :
  ok_end r_onepoint onepoint_side
    (mkRA [tEq (TBind BForall [("x", SInt); ("y", SInt)] op2_l) op2_r] [] []
       [[AAssign ("x", SInt) num5; AAssign ("y", SInt) (pl num5 ai)]] (Some [tEq op2_l op2_r]) []) = true.
Proof. vm_compute. reflexivity. Qed.
(** (= (exists ((x Int)) (> x a)) (> (choice ((x Int)) (> x a)) a)) *)
Definition ch1 := TBind BChoice [("x", SInt)] (gt xi ai).
Example C21_sko_ex_witness :
  ok_end (r_sko BExists) sko_side
    (mkRA [tEq (TBind BExists [("x", SInt)] (gt xi ai)) (gt ch1 ai)] [] []
       [[AAssign ("x", SInt) ch1]] (Some [tEq (gt xi ai) (gt ch1 ai)]) []) = true.
Proof. vm_compute. reflexivity. Qed.
(** two variables: (= (forall ((x Int) (y Int)) (> x y)) (> e1 e2)) *)
Definition e1 := TBind BChoice [("x", SInt)] (tNot (TBind BForall [("y", SInt)] (gt xi yi))).
Definition e2 := TBind BChoice [("y", SInt)] (tNot (gt e1 yi)).
Example C21_sko_forall_witness :
  ok_end (r_sko BForall) sko_side
    (mkRA [tEq (TBind BForall [("x", SInt); ("y", SInt)] (gt xi yi)) (gt e1 e2)] [] []
       [[AAssign ("x", SInt) e1; AAssign ("y", SInt) e2]] (Some [tEq (gt xi yi) (gt e1 e2)]) []) = true.
Proof. vm_compute. reflexivity. Qed.
(** y, x := y |- (= (> x a) (> y a)) *)
Example C21_refl_witness :
  let ra := mkRA [tEq (gt xi ai) (gt yi ai)] [] [] [[AVar ("y", SInt); AAssign ("x", SInt) yi]] None [] in
  r_refl ra = ROk tt /\ refl_side ra = true /\ r_strict_refl ra = ROk tt /\ strict_refl_side ra = true /\ ra_wt ra = true.
Proof. vm_compute. repeat split. Qed.
