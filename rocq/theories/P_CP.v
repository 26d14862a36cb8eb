(** C23: the cutting planes rules. *)
From Coq Require Import List String Ascii ZArith QArith Bool Lia.
From Verif Require Import Base Term Field Sem Sorting Rules Refute Num R_LA R_CP CPSound CPRefute CheckerSem Checker CheckerSound CheckerRefute Table.
Import ListNotations.
Local Open Scope string_scope.
Local Open Scope Z_scope.

(** [show] is the printer of terms, whose output the rules use as keys of their maps.  [entails ps c]: under every interpretation
    and assignment, if the clauses [ps] hold then so does [c]. *)

(** ** cp_addition *)
(** In general false: a coefficient 0 in the conclusion is not compared. *)
Theorem C23_cp_addition_refuted : forall show, rule_refuted (r_cp_addition show).
Proof. exact cp_addition_refuted. Qed.
Print Assumptions C23_cp_addition_refuted.
(** True, for all integers and reals, if different literals are printed differently, no sum has the same literal twice, and no
    coefficient of the conclusion is 0. *)
Theorem C23_cp_addition_partial : forall show c ps args, r_cp_addition show c ps args = ROk tt ->
  names_ok show (cp_terms c ps) -> (forall t, In t (cp_terms c ps) -> distinct_lits t) ->
  (forall t, In t c -> ~ In 0 (pb_coeffs t)) -> entails ps c.
Proof. exact cp_addition_sound. Qed.
Print Assumptions C23_cp_addition_partial.

(** ** cp_multiplication *)
(** In general false: the factor may be negative. *)
Theorem C23_cp_multiplication_refuted : forall show, rule_refuted (r_cp_multiplication show).
Proof. exact cp_multiplication_refuted. Qed.
Print Assumptions C23_cp_multiplication_refuted.
Theorem C23_cp_multiplication_partial : forall show c ps args, r_cp_multiplication show c ps args = ROk tt ->
  names_ok show (cp_terms c ps) -> (forall t, In t (cp_terms c ps) -> distinct_lits t) ->
  (forall a s, In a args -> as_integer a = Some s -> 0 <= s) -> entails ps c.
Proof. exact cp_multiplication_sound. Qed.
Print Assumptions C23_cp_multiplication_partial.

(** ** cp_division and cp_saturation *)
(** Both are false in general, even when all literals are 0 or 1: only the first literal of the premise is looked at. *)
Theorem C23_cp_division_refuted : forall show, refuted01 (r_cp_division show).
Proof. exact cp_division_refuted01. Qed.
Print Assumptions C23_cp_division_refuted.
Theorem C23_cp_saturation_refuted : forall show, refuted01 (r_cp_saturation show).
Proof. exact cp_saturation_refuted01. Qed.
Print Assumptions C23_cp_saturation_refuted.
(** Saturation is also false for a premise of one literal, when the constant is negative. *)
Theorem C23_cp_saturation_sign_refuted : forall show, show xi <> show yi ->
  exists p c, r_cp_saturation show [c] [[p]] [] = ROk tt /\ bool_term p = true /\ bool_term c = true /\
  forall I : interp, exists E : env I, env_ok E /\ zero_one E [c; p] /\ holds E p = true /\ holds E c = false.
Proof. exact cp_saturation_refuted_sign. Qed.
Print Assumptions C23_cp_saturation_sign_refuted.
(** For a premise of one literal and literals that are 0 or 1, division is sound for every constant and coefficients,
    negative ones included, although the division of the code does not round those up. *)
Theorem C23_cp_division_partial : forall show c ps args, r_cp_division show c ps args = ROk tt ->
  names_ok show (cp_terms c ps) -> (forall t, In t (cp_terms c ps) -> distinct_lits t) -> (forall p, In p ps -> List.length p = 1%nat) ->
  forall (I : interp) (E : env I), zero_one E (cp_terms c ps) -> (forall p, In p ps -> clause_holds E p) -> clause_holds E c.
Proof. exact cp_division_sound. Qed.
Print Assumptions C23_cp_division_partial.
Theorem C23_cp_saturation_partial : forall show c ps args, r_cp_saturation show c ps args = ROk tt ->
  names_ok show (cp_terms c ps) -> (forall t, In t (cp_terms c ps) -> distinct_lits t) -> (forall p, In p ps -> List.length p = 1%nat) ->
  (forall p t, In p ps -> In t p -> forall l k, pb_ineq t = ROk (l, k) -> 0 <= k /\ forall e, In e l -> 0 <= snd e) ->
  forall (I : interp) (E : env I), zero_one E (cp_terms c ps) -> (forall p, In p ps -> clause_holds E p) -> clause_holds E c.
Proof. exact cp_saturation_sound. Qed.
Print Assumptions C23_cp_saturation_partial.
(** What the literals, coefficients and constant of an inequality mean: the value of the sum is the sum of the products, with
    1 - x for a negated literal. *)
Theorem C23_pb_meaning : forall t l k, pb_ineq t = ROk (l, k) -> forall (I : interp) (E : env I),
  holds E t = true <-> ole (inj k) (fold_right (fun (e : lit * Z) acc => oadd (omul (inj (snd e)) (let x := nval E (snd (fst e)) in if fst (fst e) then osub o1 x else x)) acc) o0 l).
Proof. intros t l k H I E. exact (pb_ineq_val E t l k H). Qed.
Print Assumptions C23_pb_meaning.

(** ** cp_literal *)
Theorem C23_cp_literal_refuted : rule_refuted r_cp_literal.
Proof. exact cp_literal_refuted. Qed.
Print Assumptions C23_cp_literal_refuted.
(** Sound for a literal that is not negative. *)
Theorem C23_cp_literal_partial : forall c ps args, r_cp_literal c ps args = ROk tt ->
  forall (I : interp) (E : env I), (forall a, In a args -> ole o0 (nval E a)) -> clause_holds E c.
Proof. exact cp_literal_sound. Qed.
Print Assumptions C23_cp_literal_partial.

(** ** cp_normalize *)
(** False in general: a unary minus is dropped ... *)
Theorem C23_cp_normalize_refuted : rule_refuted r_cp_normalize.
Proof. exact cp_normalize_refuted_minus. Qed.
Print Assumptions C23_cp_normalize_refuted.
(** ... and (- 1 (- 1 x)) is taken for (- 1 x), also when x is 0 or 1. *)
Theorem C23_cp_normalize_negation_refuted : exists c, r_cp_normalize c [] [] = ROk tt /\ clause_wt c = true /\
  (forall a b, c = [tEq a b] -> sub_ok a = true /\ sub_ok b = true) /\
  forall I : interp, exists E : env I, env_ok E /\ zero_one E [ge1 1 xi 1] /\ ~ clause_holds E c.
Proof. exact cp_normalize_refuted_dneg. Qed.
Print Assumptions C23_cp_normalize_negation_refuted.
(** Sound for all integers and reals without those, if both sides are numeric, and integer for the strict relations ([cp_norm_ok]). *)
Theorem C23_cp_normalize_partial : forall c ps args, r_cp_normalize c ps args = ROk tt -> cp_norm_ok c ps args = true ->
  clause_wt c = true -> forallb clause_wt ps = true -> entails ps c.
Proof. exact cp_normalize_sound. Qed.
Print Assumptions C23_cp_normalize_partial.
(** So the checker accepts, in both modes, a proof of false from satisfiable assertions. *)
Theorem C23_end_to_end_refuted : forall other cfg, cfg = cfg_default \/ cfg = cfg_elaborated ->
  exists prems proof,
    check (rule_table other) cfg prems proof = ROk false /\
    forallb bool_term prems = true /\ forallb shape_ok proof = true /\ forallb cmd_wt proof = true /\
    forall I : interp, exists E : env I, env_ok E /\ forall p, In p prems -> holds E p = true.
Proof. exact soundness_refuted_cp. Qed.
Print Assumptions C23_end_to_end_refuted.

(** ** Concrete cases that meet the hypotheses *)
Definition sh (t : term) : string := match t with TVar x _ => x | _ => "?" end.
Definition nx := TOp OSub [tInt 1; xi].
(** 3 x + 2 y >= 3  and  2 (1 - x) + 1 y >= 1  give  1 x + 3 y >= 2 *)
Definition s2 a ta b tb k := TOp OGe [TOp OAdd [TOp OMult [tInt a; ta]; TOp OMult [tInt b; tb]]; tInt k].
Lemma names_witness ts : (forall a, In a (map snd (flat_map pb_lits ts)) -> a = xi \/ a = yi) -> names_ok sh ts.
Proof.
  intros H. split.
  - intros a b Ha Hb. destruct (H a Ha) as [-> | ->], (H b Hb) as [-> | ->]; cbn; congruence.
  - intros a Ha. destruct (H a Ha) as [-> | ->]; reflexivity.
Qed.
Ltac nw := apply names_witness; intros a Ha; vm_compute in Ha;
  repeat match type of Ha with _ \/ _ => destruct Ha as [<-|Ha]; [auto|] end; destruct Ha.
Ltac dw := intros t Ht; vm_compute in Ht; repeat match type of Ht with _ \/ _ => destruct Ht as [<-|Ht]; [vm_compute; repeat constructor; cbn; intuition congruence|] end; destruct Ht.
Example C23_addition_witness :
  let c := [s2 1 xi 3 yi 2] in let ps := [[s2 3 xi 2 yi 3]; [s2 2 nx 1 yi 1]] in
  r_cp_addition sh c ps [] = ROk tt /\ names_ok sh (cp_terms c ps) /\ (forall t, In t (cp_terms c ps) -> distinct_lits t) /\
  (forall t, In t c -> ~ In 0 (pb_coeffs t)).
Proof. split; [vm_compute; reflexivity|]. split; [nw|]. split; [dw|]. intros t [<-|[]] H. vm_compute in H. intuition congruence. Qed.
Example C23_multiplication_witness :
  let c := [s2 6 xi 4 yi 6] in let ps := [[s2 3 xi 2 yi 3]] in
  r_cp_multiplication sh c ps [tInt 2] = ROk tt /\ names_ok sh (cp_terms c ps) /\ (forall t, In t (cp_terms c ps) -> distinct_lits t).
Proof. split; [vm_compute; reflexivity|]. split; [nw|dw]. Qed.
Example C23_division_witness :
  let c := [s2 2 xi (-1) nx 2] in let ps := [[s2 3 xi (-3) nx 3]] in
  r_cp_division sh c ps [tInt 2] = ROk tt /\
  names_ok sh (cp_terms c ps) /\ (forall t, In t (cp_terms c ps) -> distinct_lits t).
Proof. split; [vm_compute; reflexivity|]. split; [nw|dw]. Qed.
Example C23_saturation_witness :
  let c := [s2 3 xi 2 nx 3] in let ps := [[s2 7 xi 2 nx 3]] in
  r_cp_saturation sh c ps [] = ROk tt /\ names_ok sh (cp_terms c ps) /\ (forall t, In t (cp_terms c ps) -> distinct_lits t) /\
  (forall p t, In p ps -> In t p -> forall l k, pb_ineq t = ROk (l, k) -> 0 <= k /\ forall e, In e l -> 0 <= snd e).
Proof.
  split; [vm_compute; reflexivity|]. split; [nw|]. split; [dw|]. intros p t [<-|[]] [<-|[]] l k H. vm_compute in H. injection H as <- <-.
  split; [lia|]. intros e [<-|[<-|[]]]; cbn; lia.
Qed.
(** x - 2 y < 3 - x is 2 (1 - x) + 2 y >= 0 *)
Example C23_normalize_witness :
  let c := [tEq (TOp OLt [TOp OAdd [xi; TOp OMult [tInt (-2); yi]]; TOp OSub [tInt 3; xi]])
                (TOp OGe [TOp OAdd [TOp OMult [tInt 1; nx]; TOp OMult [tInt 2; yi]; TOp OMult [tInt 1; nx]]; tInt 0])] in
  r_cp_normalize c [] [] = ROk tt /\ cp_norm_ok c [] [] = true /\ clause_wt c = true.
Proof. vm_compute. auto. Qed.
