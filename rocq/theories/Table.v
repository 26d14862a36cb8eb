(** The rule table of the checker ([get_rule_shared], checker/shared.rs:167-395) with the modelled rules,
    and the side conditions under which each of them has been proved sound. *)
From Coq Require Import List String ZArith Bool Arith Lia.
From Verif Require Import Base Term Field Sem Sorting Rules R_Taut R_Claus R_Resolution Num R_Eq R_Extras R_LA
  R_Simp R_SimpArith R_AC
  Polyeq Std PolyeqSound Checker CheckerSound CheckerSem R_Binder BinderSound OnepointSound R_Quant QuantSound R_Bfun BfunSound R_CP CPSound R_Drup DrupSound DrupOrder R_Poly PolySound PolyOrder R_Eval EvalSound R_Bv BvSound R_PB PBSound R_Str StrSound StrSound2.
Import ListNotations.
Open Scope string_scope.

(** A rule, with the condition on its arguments under which an accepted step (or end step of a
    subproof, when the flag is set) is sound. *)
Record entry : Type := mkE { e_run : crule; e_side : bool -> rargs -> bool }.
Definition entry_sound (name : string) (e : entry) : Prop :=
  step_sound (e_run e) (e_side e false) /\
  end_sound (e_run e) (fun ra => e_side e true ra && (String.eqb name "subproof" || no_disch ra)).

(** rules that are sound unconditionally; as end step their conclusion must not mention the anchor's variables *)
Definition at_end (is_end : bool) (ra : rargs) : bool := if is_end then end_closed ra && no_disch ra else true.
Definition e_plain (r : rule) : entry := mkE (plain r) at_end.
Definition e_partial (r : rule) (ok : clause -> list clause -> list term -> bool) : entry :=
  mkE (plain r) (fun is_end ra => ok (ra_concl ra) (ra_prems ra) (ra_args ra) && at_end is_end ra).
Lemma e_plain_sound name r : rule_sound r -> entry_sound name (e_plain r).
Proof.
  intros H. split; [apply plain_step; auto|]. intros ra a cx prev H1 H2 H3. apply andb_true_iff in H2. destruct H2 as [H2 _].
  apply (plain_end r H); auto.
Qed.
Lemma e_partial_sound name r ok : rule_sound_if r ok -> entry_sound name (e_partial r ok).
Proof.
  intros H. set (r' := fun c ps args => if ok c ps args then r c ps args else RErr).
  assert (Hr : rule_sound r').
  { intros c ps args. unfold r'. destruct (ok c ps args) eqn:E; [|discriminate]. intros. eapply H; eauto. }
  split.
  - intros ra H1 H2 H3. cbn in H2. apply andb_true_iff in H2. destruct H2 as [H2 _].
    apply (plain_step r' Hr (fun _ => true)); auto. unfold plain, r'. rewrite H2. exact H1.
  - intros ra a cx prev H1 H2 H3. cbn in H2. rewrite !andb_true_iff in H2. destruct H2 as [[H2 H4] _].
    apply (plain_end r' Hr); auto; [unfold plain, r'; rewrite H2; exact H1|]. apply andb_true_iff. exact H4.
Qed.

Definition resolution_ok (c : clause) (ps : list clause) (args : list term) : bool :=
  match args with [] => forallb no_compl ps && negb (greedy_reuse c ps) | _ => true end.
(** rules independent of contexts.  drup and drat keep the clauses in a map whose keys are hashes of terms; the table uses the
    terms themselves, which makes no difference unless two clauses of a step have the same hash ([drup_hash]).  poly_simp sorts factors by address; the table compares them as
    multisets, which makes no difference ([poly_sorted]). *)
Definition plain_rules : list (string * rule) :=
  taut_rules ++ taut_prem_rules ++ claus_rules ++ eq_rules ++ structural_rules ++ la_rules
  ++ bool_simp_rules ++ bv_rules
  ++ [("strict_resolution", r_strict_resolution); ("minus_simplify", r_minus_simplify);
      ("unary_minus_simplify", r_minus_simplify); ("ac_simp", r_ac_simp);
      ("qnt_join", r_qnt_join); ("miniscope_distribute", r_miniscope_distribute);
      ("drup", r_drup term_eqb idh false); ("pbblast_pbbvar", r_pb_var);
      ("re_unfold_neg_concat_fixed_prefix", r_neg_fixed_prefix); ("re_unfold_neg_concat_fixed_suffix", r_neg_fixed_suffix)].
Definition partial_rules : list (string * (rule * (clause -> list clause -> list term -> bool))) :=
  [("la_generic", (r_la_generic, fun c _ args => la_ok c args));
   ("la_tautology", (r_la_tautology, fun c _ _ => forallb divs_exact c));
   ("sum_simplify", (r_sum_simplify, fun c _ _ => forallb divs_exact c));
   ("prod_simplify", (r_prod_simplify, fun c _ _ => forallb divs_exact c));
   ("comp_simplify", (r_comp_simplify, fun c _ _ => forallb divs_exact c));
   ("div_simplify", (r_div_simplify, fun c _ _ => div_safe c));
   ("aci_simp", (r_aci_simp, fun c _ _ => aci_ok c));
   ("forall_inst", (r_forall_inst, forall_inst_ok)); ("qnt_rm_unused", (r_qnt_rm_unused, qnt_rm_ok)); ("qnt_cnf", (r_qnt_cnf, qnt_cnf_ok));
   ("miniscope_split", (r_miniscope_split, split_ok)); ("miniscope_ite", (r_miniscope_ite, miniscope_ite_ok));
   ("bfun_elim", (r_bfun_elim, bfun_ok)); ("ite_intro", (r_ite_intro, ite_intro_ok)); ("cp_normalize", (r_cp_normalize, cp_norm_ok));
   ("poly_simp", (r_poly_simp mon_permb (fun l => l), poly_ok)); ("bv_poly_simp", (r_poly_simp mon_permb (fun l => l), poly_ok));
   ("poly_simp_rel", (r_poly_simp_rel, poly_ok)); ("bv_poly_simp_eq", (r_poly_simp_rel, poly_ok));
   ("evaluate", (r_evaluate, evaluate_ok)); ("drat", (r_drup term_eqb idh true, fun c _ _ => match c with [] => true | _ => false end))] ++ pb_partial ++ str_partial.
(** rules that close a subproof: they fail as plain steps *)
Definition e_close (r : crule) (side : rargs -> bool) : entry := mkE r (fun is_end ra => if is_end then side ra else true).
Definition binder_rules (elab : bool) : list (string * entry) :=
  [("refl", if elab then mkE r_strict_refl (fun is_end ra => strict_refl_side ra && at_end is_end ra)
            else mkE r_refl (fun is_end ra => refl_side ra && at_end is_end ra));
   ("bind", e_close r_bind bind_side); ("let", e_close r_let let_side); ("onepoint", e_close r_onepoint onepoint_side);
   ("sko_ex", e_close (r_sko BExists) sko_side); ("sko_forall", e_close (r_sko BForall) sko_side);
   ("bind_let", e_close r_bind_let bind_let_side)].
Definition entries (elab : bool) : list (string * entry) :=
  map (fun p => (fst p, e_plain (snd p))) plain_rules
  ++ map (fun p => (fst p, e_partial (fst (snd p)) (snd (snd p)))) partial_rules
  ++ (if elab then [("resolution", e_plain r_resolution_with_args); ("th_resolution", e_plain r_resolution_with_args)]
      else [("resolution", e_partial r_resolution resolution_ok); ("th_resolution", e_partial r_resolution resolution_ok)])
  ++ binder_rules elab
  ++ [("subproof", mkE subproof (fun is_end ra => if is_end then subproof_side ra else true))].

Lemma plain_rules_sound name r : In (name, r) plain_rules -> rule_sound r.
Proof.
  unfold plain_rules. rewrite !in_app_iff.
  intros [H|[H|[H|[H|[H|[H|[H|[H|H]]]]]]]].
  - eapply taut_rules_sound; eauto.
  - eapply taut_prem_rules_sound; eauto.
  - eapply claus_rules_sound; eauto.
  - eapply eq_rules_sound; eauto.
  - eapply structural_rules_sound; eauto.
  - eapply la_rules_sound; eauto.
  - eapply bool_simp_rules_sound; eauto.
  - eapply bv_rules_sound; eauto.
  - destruct H as [H|[H|[H|[H|[H|[H|[H|[H|[H|[H|[]]]]]]]]]]]; injection H as _ <-.
    + apply r_strict_resolution_sound.
    + apply r_minus_simplify_sound.
    + apply r_minus_simplify_sound.
    + apply r_ac_simp_sound.
    + apply qnt_join_sound.
    + apply miniscope_distribute_sound.
    + intros c ps args H _ _. eapply (drup_sound term_eqb idh term_eqb_eq); eauto. intros l _ E. injection E as ->. reflexivity.
    + apply pb_var_sound.
    + apply neg_fixed_prefix_sound.
    + apply neg_fixed_suffix_sound.
Qed.
Lemma resolution_if : rule_sound_if r_resolution resolution_ok.
Proof.
  intros c ps args H Hok _ _. apply (r_resolution_sound_partial c ps args H). intros ->. cbn in Hok.
  apply andb_true_iff in Hok. rewrite negb_true_iff in Hok. exact Hok.
Qed.
Lemma partial_rules_sound name r ok : In (name, (r, ok)) partial_rules -> rule_sound_if r ok.
Proof.
  unfold partial_rules. rewrite !in_app_iff. intros [HI|[HI|HI]]; [|eapply pb_partial_sound; eauto|eapply str_partial_sound; eauto]. revert HI. cbn [In].
  intros HI. repeat match type of HI with _ \/ _ => destruct HI as [H|HI] end; [..|destruct HI]; injection H as _ <- <-; intros c ps args H Hok Hw Hwp.
  - intros I E HE _. eapply la_generic_valid; eauto.
  - intros I E HE _. eapply la_tautology_valid; eauto.
  - eapply (sum_prod_rule_sound OAdd); eauto.
  - eapply (sum_prod_rule_sound OMult); eauto.
  - eapply r_comp_simplify_sound; eauto.
  - eapply r_div_simplify_sound; eauto.
  - eapply r_aci_simp_sound; eauto.
  - eapply forall_inst_sound; eauto.
  - eapply qnt_rm_unused_sound; eauto.
  - eapply qnt_cnf_sound; eauto.
  - eapply miniscope_split_sound; eauto.
  - eapply miniscope_ite_sound; eauto.
  - eapply bfun_elim_sound; eauto.
  - eapply ite_intro_sound; eauto.
  - eapply cp_normalize_sound; eauto.
  - apply andb_true_iff in Hok. eapply poly_simp_sound; [| |exact H|..]; auto; [intros a b E; apply mon_permb_eq; auto|]. tauto.
  - apply andb_true_iff in Hok. eapply poly_simp_sound; [| |exact H|..]; auto; [intros a b E; apply mon_permb_eq; auto|]. tauto.
  - eapply poly_simp_rel_sound; eauto. apply andb_true_iff in Hok. tauto.
  - eapply poly_simp_rel_sound; eauto. apply andb_true_iff in Hok. tauto.
  - eapply evaluate_rule_sound; eauto.
  - destruct c; [|discriminate]. eapply (drat_sound term_eqb idh term_eqb_eq); eauto. intros l _ E. injection E as ->. reflexivity.
Qed.
Lemma e_close_sound name r side : (forall ra, ra_prev ra = None -> r ra <> ROk tt) ->
  end_sound r (fun ra => side ra && no_disch ra) -> String.eqb name "subproof" = false -> entry_sound name (e_close r side).
Proof.
  intros H1 H2 Hn. split.
  - intros ra H Hs Hw Hp. destruct (H1 ra Hp H).
  - intros ra a cx prev H Hs. cbn in Hs. rewrite Hn in Hs. cbn [orb] in Hs. apply H2; auto.
Qed.
Lemma needs_prev {A} ra (f : clause -> outcome A) (x : A) : ra_prev ra = None -> obind (ok_or (ra_prev ra)) f <> ROk x.
Proof. intros ->. discriminate. Qed.
Lemma e_open_sound name r side : step_sound r side -> end_sound r (fun ra => side ra && (end_closed ra && no_disch ra)) ->
  String.eqb name "subproof" = false -> entry_sound name (mkE r (fun is_end ra => side ra && at_end is_end ra)).
Proof.
  intros H1 H2 Hn. split.
  - intros ra H Hs. cbn in Hs. rewrite andb_true_r in Hs. apply H1; auto.
  - intros ra a cx prev H Hs. cbn in Hs. apply andb_true_iff in Hs. destruct Hs as [Hs _]. apply H2; auto.
Qed.
Lemma binder_rules_sound elab name e : In (name, e) (binder_rules elab) -> entry_sound name e.
Proof.
  unfold binder_rules. intros [H|[H|[H|[H|[H|[H|[H|[]]]]]]]]; injection H as <- <-.
  - destruct elab; [apply e_open_sound; [apply strict_refl_step|apply strict_refl_end|reflexivity]|
      apply e_open_sound; [apply refl_step|apply refl_end|reflexivity]].
  - apply e_close_sound; [intros ra Hp; apply needs_prev; auto|apply bind_end|reflexivity].
  - apply e_close_sound; [intros ra Hp; apply needs_prev; auto|apply let_end|reflexivity].
  - apply e_close_sound; [intros ra Hp; apply needs_prev; auto|apply onepoint_end|reflexivity].
  - apply e_close_sound; [intros ra Hp; apply needs_prev; auto|apply sko_end|reflexivity].
  - apply e_close_sound; [intros ra Hp; apply needs_prev; auto|apply sko_end|reflexivity].
  - apply e_close_sound; [intros ra Hp; apply needs_prev; auto|apply bind_let_end|reflexivity].
Qed.
Lemma entries_sound elab name e : In (name, e) (entries elab) -> entry_sound name e.
Proof.
  unfold entries. rewrite !in_app_iff. intros [H|[H|[H|[H|[H|[]]]]]].
  - apply in_map_iff in H. destruct H as [[n r] [H1 H2]]. injection H1 as <- <-. cbn. apply e_plain_sound. eapply plain_rules_sound; eauto.
  - apply in_map_iff in H. destruct H as [[n [r ok]] [H1 H2]]. injection H1 as <- <-. cbn. apply e_partial_sound. eapply partial_rules_sound; eauto.
  - destruct elab; destruct H as [H|[H|[]]]; injection H as <- <-;
      (apply e_plain_sound; apply r_resolution_with_args_sound) || (apply e_partial_sound; apply resolution_if).
  - eapply binder_rules_sound; eauto.
  - injection H as <- <-. split; [apply subproof_step|]. intros ra a cx prev H1 H2. cbn in H2. rewrite andb_true_r in H2.
    apply subproof_end; auto.
Qed.

(** Rules of the checker that are not (yet) modelled: their behaviour is an arbitrary function [other]. *)
Definition unmodelled : list string :=
  ["cp_addition"; "cp_multiplication"; "cp_division"; "cp_saturation"; "cp_literal"; "rare_rewrite"].

Fixpoint assoc {A} (name : string) (l : list (string * A)) : option A :=
  match l with [] => None | (n, a) :: r => if String.eqb name n then Some a else assoc name r end.
Lemma assoc_In {A} name (l : list (string * A)) a : assoc name l = Some a -> In (name, a) l.
Proof.
  induction l as [|[n b] r IH]; cbn [assoc]; [discriminate|]. destruct (String.eqb name n) eqn:E.
  - intros H. injection H as ->. apply String.eqb_eq in E. subst. left. reflexivity.
  - intros H. right. auto.
Qed.
Section Table.
  Variable other : bool -> string -> crule.
  Definition rule_table (elab : bool) (name : string) : option crule :=
    match assoc name (entries elab) with
    | Some e => Some (e_run e)
    | None =>
        if memb String.eqb name unmodelled then Some (other elab name)
        else if String.eqb name "hole" || String.eqb name "lia_generic" then Some (fun _ => ROk tt)
        else None
    end.
  (** side conditions: those of the modelled rules; rules not modelled are excluded *)
  Definition rule_side (elab : bool) (is_end : bool) (name : string) (ra : rargs) : bool :=
    match assoc name (entries elab) with Some e => e_side e is_end ra | None => false end.
  Lemma rule_table_sound cfg : table_sound rule_table cfg (rule_side (elaborated cfg)).
  Proof.
    intros name r Ht Hn1 Hn2. unfold rule_table, rule_side in *.
    destruct (assoc name (entries (elaborated cfg))) as [e|] eqn:Ea.
    - injection Ht as <-. apply assoc_In in Ea. apply entries_sound in Ea. exact Ea.
    - split; intros ra; intros; discriminate.
  Qed.
End Table.
