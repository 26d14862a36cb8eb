(** C48-C52: how the verdict of the checker depends on its mode, its options, the list of assertions and the names of
    the commands; the order in which the commands of a proof are visited. *)
From Coq Require Import List Ascii String ZArith QArith Bool Arith Lia.
From Verif Require Import Base Term Rules Polyeq Checker CheckerSound CheckerRefute NoPanicPoly Table R_Rare FullTable Parser CheckMono ParserRename.
Import ListNotations.
Local Open Scope string_scope.
Local Open Scope nat_scope.
Local Open Scope list_scope.

(** C48: what is accepted in elaborated mode is accepted in normal mode, with the same verdict. [show] prints terms, [rules]
    are the RARE rules given. Missing: steps by refl whose conclusion contains a division that the comparison of terms
    cannot handle (e.g. by the literal zero), see [tame]. *)
Theorem C48_strict_partial : forall show rules i a prems proof b,
  forallb (cmd_all all_true refl_tame) proof = true ->
  check (full_table show rules) (mkCfg true i a) prems proof = ROk b ->
  check (full_table show rules) (mkCfg false i a) prems proof = ROk b.
Proof. intros show rules. exact (strict_mono (full_other show rules true)). Qed.
Print Assumptions C48_strict_partial.
(** An assumption, a subproof with refl under a substitution, and a resolution with pivots. *)
Definition p1 := TVar "p" SBool.
Definition xb := TVar "x" SBool.
Definition strict_proof : list command :=
  [ CAssume "h1" p1; CAssume "h2" (tNot p1);
    CSub [ CStep (mkStep "t1.t1" [tEq xb p1] "refl" [] [] []); CStep (mkStep "t1" [tEq (TBind BForall [("x", SBool)] xb) (TBind BForall [("x", SBool)] p1)] "bind" [] [] []) ] [AAssign ("x", SBool) p1] 0;
    CStep (mkStep "t2" [] "resolution" [(0, 0); (0, 1)] [p1; tTrue] []) ].
Definition strict_proof' : list command :=
  [ CAssume "h1" p1; CAssume "h2" (tNot p1);
    CStep (mkStep "t1" [tEq p1 p1] "refl" [] [] []);
    CStep (mkStep "t2" [] "resolution" [(0, 0); (0, 1)] [p1; tTrue] []) ].
Example C48_example : forall show rules, forallb (cmd_all all_true refl_tame) strict_proof' = true /\
  check (full_table show rules) (mkCfg true false []) [p1; tNot p1] strict_proof' = ROk false.
Proof. intros. split; vm_compute; reflexivity. Qed.
(** The converse fails: normal mode infers pivots. *)
Example C48_converse : forall show rules, exists prems proof,
  check (full_table show rules) (mkCfg false false []) prems proof = ROk false /\ check (full_table show rules) (mkCfg true false []) prems proof = RErr.
Proof. intros. exists [p1; tNot p1], [CAssume "h1" p1; CAssume "h2" (tNot p1); CStep (mkStep "t2" [] "resolution" [(0, 0); (0, 1)] [] [])]. split; vm_compute; reflexivity. Qed.

(** C49: ignoring unknown rules and allowing more rules never turns an accepted proof into a rejected one, and never hides a hole. *)
Theorem C49_lenient : forall table e prems i1 i2 a1 a2 proof b,
  (i1 = true -> i2 = true) -> (forall r, In r a1 -> In r a2) ->
  check table (mkCfg e i1 a1) prems proof = ROk b ->
  exists b', check table (mkCfg e i2 a2) prems proof = ROk b' /\ (b = true -> b' = true).
Proof. exact options_mono. Qed.
Print Assumptions C49_lenient.
(** And a proof reported valid without holes under some options is valid without holes under none. *)
Theorem C49_unused : forall table e prems i a proof,
  check table (mkCfg e i a) prems proof = ROk false -> check table (mkCfg e false []) prems proof = ROk false.
Proof. exact options_unused. Qed.
Print Assumptions C49_unused.
Definition odd_proof : list command := [CStep (mkStep "t1" [] "my_rule" [] [] [])].
Example C49_example : forall show rules,
  check (full_table show rules) (mkCfg false false ["hole"]) [p1; tNot p1] strict_proof' = ROk false /\
  check (full_table show rules) (mkCfg false true []) [] odd_proof = ROk true /\
  check (full_table show rules) (mkCfg false false []) [] odd_proof = RErr.
Proof. intros. repeat split; vm_compute; reflexivity. Qed.

(** C50: adding, repeating or reordering assertions does not change the verdict on an accepted proof, for assertions and
    assumptions whose comparison cannot panic. *)
Theorem C50_assertions_partial : forall table cfg prems1 prems2 proof b,
  (forall p, In p prems1 -> In p prems2) -> forallb tame prems2 = true -> forallb (cmd_all tame all_true) proof = true ->
  check table cfg prems1 proof = ROk b -> check table cfg prems2 proof = ROk b.
Proof. exact premises_mono. Qed.
Print Assumptions C50_assertions_partial.
Example C50_example : forall show rules, forallb tame [tTrue; tNot p1; p1; p1] = true /\ forallb (cmd_all tame all_true) strict_proof' = true /\
  check (full_table show rules) (mkCfg true false []) [p1; tNot p1] strict_proof' = ROk false.
Proof. intros. repeat split; vm_compute; reflexivity. Qed.
(** In general the order matters: with the assertion (= (/ 6.0 0.0) y) before it, the comparison of the assumption (= 3.0 y) with
    the assertion (= y 3.0) is not reached: the checker panics on the first. *)
Definition y_ := TVar "y" SReal.
Definition three := tEq (TConst (CReal 3)) y_.
Definition bad_div := tEq (TOp ORealDiv [TConst (CReal 6); TConst (CReal 0)]) y_.
Definition three_proof : list command := [CAssume "h1" three; CAssume "h2" (tNot three); CStep (mkStep "t1" [] "resolution" [(0, 0); (0, 1)] [] [])].
Theorem C50_order_refuted : forall show rules, exists prems1 prems2 proof,
  (forall p, In p prems1 <-> In p prems2) /\ List.length prems1 = List.length prems2 /\
  check (full_table show rules) (mkCfg false false []) prems1 proof = ROk false /\
  check (full_table show rules) (mkCfg false false []) prems2 proof = RPanic.
Proof.
  intros. exists [tEq y_ (TConst (CReal 3)); tNot three; bad_div], [bad_div; tEq y_ (TConst (CReal 3)); tNot three], three_proof.
  split; [cbn [In]; tauto|]. split; [reflexivity|]. split; vm_compute; reflexivity.
Qed.
Print Assumptions C50_order_refuted.

(** C51: the verdict does not depend on the names of the commands nor on the numbers of the contexts. *)
Theorem C51_names : forall show rules f g cfg prems proof,
  check (full_table show rules) cfg prems (map (ren f g) proof) = check (full_table show rules) cfg prems proof.
Proof.
  intros show rules f g cfg prems proof. apply ren_check. apply blind_table. intros e n. unfold full_other.
  repeat match goal with |- context [String.eqb n ?s] => destruct (String.eqb n s) end; apply blind_plain.
Qed.
Print Assumptions C51_names.
(** Replacing the names throughout a proof text gives the same proof up to the names, if different names stay different, no
    non-empty name becomes empty, and names of the form a.b are replaced part by part. *)
Theorem C51_text : forall f, (forall a b, f a = f b -> a = b) -> f "" = "" -> (forall a b, f (absolute a b) = absolute (f a) (f b)) ->
  forall rs, parse_proof (map (ren_raw f) rs) = do p <- parse_proof rs ; ROk (map (ren f (fun k => k)) p).
Proof. exact ren_parse. Qed.
Print Assumptions C51_text.
(** both together, for the verdict on a text *)
Definition verdict show rules cfg prems (rs : list raw) : outcome bool := do p <- parse_proof rs ; check (full_table show rules) cfg prems p.
Theorem C51_verdict : forall show rules f cfg prems rs, (forall a b, f a = f b -> a = b) -> f "" = "" -> (forall a b, f (absolute a b) = absolute (f a) (f b)) ->
  verdict show rules cfg prems (map (ren_raw f) rs) = verdict show rules cfg prems rs.
Proof. intros show rules f cfg prems rs H1 H2 H3. unfold verdict. rewrite (C51_text f H1 H2 H3). destruct (parse_proof rs); cbn [obind]; auto. apply C51_names. Qed.
Print Assumptions C51_verdict.
(** such renamings: character by character, keeping the dot *)
Example C51_example : forall g, (forall a b, g a = g b -> a = b) -> g "."%char = "."%char ->
  (forall a b, on_chars g a = on_chars g b -> a = b) /\ on_chars g "" = "" /\ (forall a b, on_chars g (absolute a b) = absolute (on_chars g a) (on_chars g b)).
Proof. intros g H1 H2. split; [exact (on_chars_inj g H1)|]. split; [reflexivity|exact (on_chars_abs g H2)]. Qed.
(** Without the last condition the text can change its meaning: names in :discharge may be given relative to the step. *)
Definition rel_text : list raw :=
  [ RwAnchor "t1" []; RwAssume "t1.h" p1; RwStep "t1.t1" [tEq p1 p1] "refl" [] [] []; RwStep "t1" [tNot p1; tEq p1 p1] "subproof" [] [] ["h"] ].
Definition swap_h (s : string) : string := if String.eqb s "t1.h" then "z" else if String.eqb s "z" then "t1.h" else s.
Theorem C51_relative_refuted : exists f rs p, (forall a b, f a = f b -> a = b) /\ f "" = "" /\ parse_proof rs = ROk p /\ parse_proof (map (ren_raw f) rs) = RErr.
Proof.
  exists swap_h, rel_text. eexists. split; [|split; [reflexivity|split; vm_compute; reflexivity]].
  assert (I : forall a, swap_h (swap_h a) = a).
  { intros a. unfold swap_h. destruct (String.eqb a "t1.h") eqn:E1; [apply String.eqb_eq in E1; subst; reflexivity|]. destruct (String.eqb a "z") eqn:E2; [apply String.eqb_eq in E2; subst; reflexivity|]. rewrite E1, E2. reflexivity. }
  intros a b H. rewrite <- (I a), <- (I b), H. reflexivity.
Qed.
Print Assumptions C51_relative_refuted.

(** C52: going through a proof yields every command exactly once in the order of the text (a subproof before its commands), with the right
    nesting depth, and says of exactly the last command of each subproof that it closes it. *)
Theorem C52_order : forall proof l, visits [(0, proof)] l <-> l = textual_list 0 proof.
Proof. intros proof l. split; [intros H; exact (visits_fun _ _ H _ (visits_textual proof))|intros ->; apply visits_textual]. Qed.
Print Assumptions C52_order.
(** the textual order, seen from the printed text: the commands yielded other than subproofs have the ids of the text's commands *)
Example C52_example : textual_list 0 strict_proof = [(CAssume "h1" p1, 0, false); (CAssume "h2" (tNot p1), 0, false); (nth 2 strict_proof (CAssume "" p1), 1, false);
  (CStep (mkStep "t1.t1" [tEq xb p1] "refl" [] [] []), 1, false);
  (CStep (mkStep "t1" [tEq (TBind BForall [("x", SBool)] xb) (TBind BForall [("x", SBool)] p1)] "bind" [] [] []), 1, true);
  (CStep (mkStep "t2" [] "resolution" [(0, 0); (0, 1)] [p1; tTrue] []), 0, false)].
Proof. reflexivity. Qed.
