(** The rule table with the rules that Table.v leaves open: the cutting planes rules that print terms, and RARE rules.
    Models the corresponding entries of get_rule in checker/mod.rs. *)
From Coq Require Import List String NArith ZArith QArith Bool Arith Lia.
From Verif Require Import Base Term Field Sem Sorting Rules Num Checker CheckerSound CheckerSem Table R_CP CPSound R_Rare RareSound.
Import ListNotations.
Local Open Scope string_scope.

Section Full.
  (** how terms are printed (the cp_* rules compare the texts of literals), and the RARE rules given to the checker *)
  Variable show : term -> string.
  Variable rules : rare_rules.
  Definition full_other (_ : bool) (name : string) : crule :=
    if String.eqb name "cp_addition" then plain (r_cp_addition show)
    else if String.eqb name "cp_multiplication" then plain (r_cp_multiplication show)
    else if String.eqb name "cp_division" then plain (r_cp_division show)
    else if String.eqb name "cp_saturation" then plain (r_cp_saturation show)
    else if String.eqb name "cp_literal" then plain r_cp_literal
    else plain (r_rare rules).
  Definition full_table : bool -> string -> option crule := rule_table full_other.

  (** the conditions of C23 as tests *)
  Definition lit_eqb (a b : lit) : bool := Bool.eqb (fst a) (fst b) && term_eqb (snd a) (snd b).
  Fixpoint nodupb (l : list lit) : bool := match l with [] => true | a :: r => negb (existsb (lit_eqb a) r) && nodupb r end.
  Definition names_okb (ts : list term) : bool :=
    let vars := map snd (flat_map pb_lits ts) in
    forallb (fun a => negb (is_negated (show a)) && forallb (fun b => negb (String.eqb (show a) (show b)) || term_eqb a b) vars) vars.
  Definition cp_ok (c : clause) (ps : list clause) : bool :=
    names_okb (cp_terms c ps) && forallb (fun t => nodupb (pb_lits t)) (cp_terms c ps).
  Definition cp_add_ok (c : clause) (ps : list clause) (_ : list term) : bool :=
    cp_ok c ps && forallb (fun t => negb (existsb (Z.eqb 0) (pb_coeffs t))) c.
  Definition cp_mul_ok (c : clause) (ps : list clause) (args : list term) : bool :=
    cp_ok c ps && forallb (fun a => match as_integer a with Some s => Z.leb 0 s | None => true end) args.
  Definition full_entries : list (string * entry) :=
    [("cp_addition", e_partial (r_cp_addition show) cp_add_ok); ("cp_multiplication", e_partial (r_cp_multiplication show) cp_mul_ok);
     ("rare_rewrite", e_partial (r_rare rules) (rare_ok rules))].
  (** cp_division, cp_saturation and cp_literal are sound for 0-1 variables only and stay excluded *)
  Definition full_side (elab is_end : bool) (name : string) (ra : rargs) : bool :=
    match assoc name (entries elab) with
    | Some e => e_side e is_end ra
    | None => match assoc name full_entries with Some e => e_side e is_end ra | None => false end
    end.

  Lemma lit_eqb_eq a b : lit_eqb a b = true <-> a = b.
  Proof.
    destruct a as [x a], b as [y b]. unfold lit_eqb. cbn [fst snd]. rewrite andb_true_iff, eqb_true_iff, term_eqb_eq. split; [intros [-> ->]; auto|intros H; injection H; auto].
  Qed.
  Lemma nodupb_ok l : nodupb l = true -> NoDup l.
  Proof.
    induction l as [|a r IH]; cbn [nodupb]; intros H; constructor; apply andb_true_iff in H; destruct H as [H1 H2]; auto.
    intros Hi. apply negb_true_iff in H1. rewrite <- not_true_iff_false in H1. apply H1. apply existsb_exists. exists a. split; [auto|apply lit_eqb_eq; auto].
  Qed.
  Lemma cp_ok_spec c ps : cp_ok c ps = true -> names_ok show (cp_terms c ps) /\ forall t, In t (cp_terms c ps) -> distinct_lits t.
  Proof.
    unfold cp_ok, names_okb. intros H. apply andb_true_iff in H. destruct H as [H1 H2]. rewrite forallb_forall in H1, H2. split.
    - split.
      + intros a b Ha Hb Hs. specialize (H1 a Ha). apply andb_true_iff in H1. destruct H1 as [_ H1]. rewrite forallb_forall in H1. specialize (H1 b Hb).
        apply orb_true_iff in H1. destruct H1 as [H1|H1]; [|apply term_eqb_eq; auto]. rewrite Hs, String.eqb_refl in H1. discriminate.
      + intros a Ha. specialize (H1 a Ha). apply andb_true_iff in H1. destruct H1 as [H1 _]. apply negb_true_iff; auto.
    - intros t Ht. apply nodupb_ok. auto.
  Qed.
  Lemma cp_addition_if : rule_sound_if (r_cp_addition show) cp_add_ok.
  Proof.
    intros c ps args H Hok _ _. apply andb_true_iff in Hok. destruct Hok as [H1 H2]. apply cp_ok_spec in H1. destruct H1 as [H1 H3].
    apply (cp_addition_sound show c ps args); auto. intros t Ht Hz. rewrite forallb_forall in H2. specialize (H2 t Ht). apply negb_true_iff in H2.
    rewrite <- not_true_iff_false in H2. apply H2. apply existsb_exists. exists 0%Z. auto.
  Qed.
  Lemma cp_multiplication_if : rule_sound_if (r_cp_multiplication show) cp_mul_ok.
  Proof.
    intros c ps args H Hok _ _. apply andb_true_iff in Hok. destruct Hok as [H1 H2]. apply cp_ok_spec in H1. destruct H1 as [H1 H3].
    apply (cp_multiplication_sound show c ps args); auto. intros a s Ha Hs. rewrite forallb_forall in H2. specialize (H2 a Ha). rewrite Hs in H2. apply Z.leb_le; auto.
  Qed.
  (** the entries run what the table runs *)
  Lemma full_entries_run name e : assoc name full_entries = Some e -> forall elab, full_other elab name = e_run e.
  Proof.
    intros H elab. apply assoc_In in H. destruct H as [H|[H|[H|[]]]]; injection H as <- <-; reflexivity.
  Qed.
  Hypothesis Hrules : forall name r, rare_find rules name = Some r -> rare_valid r.
  Lemma full_table_sound cfg : table_sound full_table cfg (full_side (elaborated cfg)).
  Proof.
    intros name r Ht Hn1 Hn2. unfold full_table, rule_table, full_side in *.
    destruct (assoc name (entries (elaborated cfg))) as [e|] eqn:Ea.
    - injection Ht as <-. apply assoc_In in Ea. apply entries_sound in Ea. exact Ea.
    - destruct (assoc name full_entries) as [e|] eqn:Ef; [|split; intros ra; intros; discriminate].
      assert (Hr : r = e_run e).
      { destruct (memb String.eqb name unmodelled) eqn:Em.
        - injection Ht as <-. apply full_entries_run; auto.
        - exfalso. apply assoc_In in Ef. destruct Ef as [H|[H|[H|[]]]]; injection H as <- _; vm_compute in Em; discriminate. }
      subst r. apply assoc_In in Ef. destruct Ef as [H|[H|[H|[]]]]; injection H as <- <-; apply e_partial_sound.
      + apply cp_addition_if.
      + apply cp_multiplication_if.
      + apply rare_sound. exact Hrules.
  Qed.
End Full.
