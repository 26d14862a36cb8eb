(** Structural clause rules of checker/rules/extras.rs.  Not here: symmetry rules (R_Eq.v), bind_let
    (R_Subproof.v), la_mult_pos/la_mult_neg/mod_simplify (R_LA.v), evaluate (Evaluate.v). *)
From Coq Require Import List String ZArith Bool Arith Lia Permutation.
From Verif Require Import Term Field Sem Sorting Base Rules R_Taut R_Eq Utils R_Claus R_Resolution.
Import ListNotations.
Open Scope string_scope.
Local Open Scope nat_scope.

(** reordering, extras.rs:13-26 *)
Definition r_reordering : rule := fun c ps _ =>
  len_is ps 1 ;; do p <- idx ps 0 ; len_is c (List.length p) ;;
  match ms_sym_diff term_eqb (ms_of term_eqb c) (ms_of term_eqb p) with
  | MsNone => ROk tt
  | MsMissing _ | MsExtra _ => RErr
  end.
(** shuffle, extras.rs:28-48 *)
Definition r_shuffle : rule := fun c _ _ =>
  len_is c 1 ;; do x <- idx c 0 ; do lr <- m_op2 OEquals x ;
  do args <- match fst lr, snd lr with
             | TOp lo l, TOp ro r =>
                 rassert (op_eqb lo ro) ;;
                 match lo with
                 | OAdd | OMult | OAnd | OOr => ROk (l, r)
                 | _ => RErr
                 end
             | _, _ => RErr
             end ;
  rassert (ms_eqb term_eqb (ms_of term_eqb (fst args)) (ms_of term_eqb (snd args))).
(** weakening, extras.rs:79-87 *)
Definition r_weakening : rule := fun c ps _ =>
  len_is ps 1 ;; do p <- idx ps 0 ; len_ge c (List.length p) ;;
  ofor (fun tu => teq (fst tu) (snd tu)) (combine p c).
(** and_intro, extras.rs:89-111 *)
Definition clause_term (p : clause) : term := match p with [t] => t | _ => TOp OOr p end.
Definition r_and_intro : rule := fun c ps _ =>
  len_is c 1 ;; do x <- idx c 0 ; do l <- m_ops OAnd x ;
  len_is ps (List.length l) ;;
  ofor (fun ap => teq (fst ap) (clause_term (snd ap))) (combine l ps).

(** ** Soundness *)
Lemma r_reordering_sound : rule_sound r_reordering.
Proof.
  intros c ps args H _ _ I E _ HP. unfold r_reordering in H.
  apply obind_ok in H. destruct H as [? [H1 H]]. apply len_is_ok, len1 in H1. destruct H1 as [p ->].
  cbn [idx nth_error unwrap obind] in H. apply obind_ok in H. destruct H as [? [_ H]].
  destruct (ms_sym_diff _ _ _) eqn:Ed; try discriminate.
  apply (ms_sym_diff_spec term_eqb term_eqb_eq) in Ed.
  apply (clause_holds_incl E p); [|apply HP; left; reflexivity].
  intros a. apply Permutation_in. symmetry. exact Ed.
Qed.
Lemma fold_perm {A} (f : A -> A -> A) (Hf : forall x y z, f (f x y) z = f (f x z) y) l r a :
  Permutation l r -> fold_left f l a = fold_left f r a.
Proof.
  intros H. revert a. induction H; intros a; simpl; auto.
  - rewrite Hf. reflexivity.
  - rewrite IHPermutation1. auto.
Qed.
Lemma forallb_perm {A} (f : A -> bool) l r : Permutation l r -> forallb f l = forallb f r.
Proof.
  induction 1; simpl; try congruence. rewrite !andb_assoc. f_equal. apply andb_comm.
Qed.
Lemma existsb_perm {A} (f : A -> bool) l r : Permutation l r -> existsb f l = existsb f r.
Proof.
  induction 1; simpl; try congruence. rewrite !orb_assoc. f_equal. apply orb_comm.
Qed.
Section FieldSwap.
  Context (F : ofield).
  Add Field Fsw : (o_th F).
  Lemma oadd_swap (x y z : F) : oadd (oadd x y) z = oadd (oadd x z) y.
  Proof. ring. Qed.
  Lemma omul_swap (x y z : F) : omul (omul x y) z = omul (omul x z) y.
  Proof. ring. Qed.
End FieldSwap.
Lemma r_shuffle_sound : rule_sound r_shuffle.
Proof.
  intros c ps args H _ _ I E _ HP. unfold r_shuffle in H.
  apply obind_ok in H. destruct H as [? [H1 H]]. apply len_is_ok, len1 in H1. destruct H1 as [y ->].
  cbn [idx nth_error unwrap obind] in H. apply obind_ok in H. destruct H as [[l r] [Hx H]].
  apply m_op2_ok in Hx. cbn [fst snd] in *. subst y.
  apply obind_ok in H. destruct H as [[la ra] [Ha H]]. apply rassert_ok in H. cbn [fst snd] in H.
  apply (ms_eqb_spec term_eqb term_eqb_eq) in H.
  apply clause_holds_one, holds_eq_iff. destruct l as [| | |lo l| | | |]; try discriminate Ha.
  destruct r as [| | |ro r| | | |]; try discriminate Ha.
  apply obind_ok in Ha. destruct Ha as [? [Ho Ha]]. apply rassert_ok in Ho. apply op_eqb_eq in Ho. subst ro.
  assert (HM : Permutation (map (fun a => eval a E) la) (map (fun a => eval a E) ra)) by (apply Permutation_map; exact H).
  destruct lo; try discriminate Ha; injection Ha as -> ->; cbn [eval eval_op].
  - f_equal. apply forallb_perm, HM.
  - f_equal. apply existsb_perm, HM.
  - f_equal. apply fold_perm; [apply oadd_swap|]. apply Permutation_map, HM.
  - f_equal. apply fold_perm; [apply omul_swap|]. apply Permutation_map, HM.
Qed.
Lemma r_weakening_sound : rule_sound r_weakening.
Proof.
  intros c ps args H _ _ I E _ HP. unfold r_weakening in H.
  apply obind_ok in H. destruct H as [? [H1 H]]. apply len_is_ok, len1 in H1. destruct H1 as [p ->].
  cbn [idx nth_error unwrap obind] in H. apply obind_ok in H. destruct H as [? [HL H]]. apply len_ge_ok in HL.
  apply (clause_holds_incl E p); [|apply HP; left; reflexivity].
  clear HP. revert c HL H. induction p as [|t p IH]; intros [|u c] HL H a Ha; try contradiction; simpl in HL; try lia.
  simpl in H. apply obind_ok in H. destruct H as [? [Ht H]]. apply teq_ok in Ht. subst u.
  destruct Ha as [<-|Ha]; [left; reflexivity|right]. eapply IH; eauto. lia.
Qed.
Lemma clause_term_holds {I} (E : env I) p : clause_holds E p -> holds E (clause_term p) = true.
Proof.
  intros H. destruct p as [|t [|u p]].
  - destruct (clause_holds_nil E H).
  - apply clause_holds_one in H. exact H.
  - unfold clause_term. rewrite holds_or. apply clause_holds_b, H.
Qed.
Lemma r_and_intro_sound : rule_sound r_and_intro.
Proof.
  intros c ps args H _ _ I E _ HP. unfold r_and_intro in H.
  apply obind_ok in H. destruct H as [? [H1 H]]. apply len_is_ok, len1 in H1. destruct H1 as [y ->].
  cbn [idx nth_error unwrap obind] in H. apply obind_ok in H. destruct H as [l [Hx H]]. apply m_ops_ok in Hx. subst y.
  apply obind_ok in H. destruct H as [? [HL H]]. apply len_is_ok in HL.
  apply clause_holds_one. rewrite holds_and. revert ps HL H HP.
  induction l as [|t l IH]; intros [|p ps] HL H HP; try discriminate; [reflexivity|]. injection HL as HL. simpl in H.
  apply obind_ok in H. destruct H as [? [Ht H]]. apply teq_ok in Ht. subst t.
  simpl. rewrite clause_term_holds by (apply HP; left; reflexivity). simpl. eapply IH; eauto.
  intros q Hq. apply HP. right; exact Hq.
Qed.

Definition extra_rules : list (string * rule) :=
  [("reordering", r_reordering); ("shuffle", r_shuffle); ("weakening", r_weakening); ("and_intro", r_and_intro)].
Lemma extra_rules_sound name r : In (name, r) extra_rules -> rule_sound r.
Proof.
  intros H.
  repeat (destruct H as [H|H]; [injection H as _ <-|]); [..|contradiction].
  - apply r_reordering_sound.
  - apply r_shuffle_sound.
  - apply r_weakening_sound.
  - apply r_and_intro_sound.
Qed.
(** The clause-structural rules of the other rule files (checker/rules/resolution.rs, clausification.rs) *)
Definition structural_rules : list (string * rule) :=
  extra_rules ++ claus_def_rules ++ [("tautology", r_tautology); ("contraction", r_contraction)].
Lemma structural_rules_sound name r : In (name, r) structural_rules -> rule_sound r.
Proof.
  intros H. apply in_app_or in H. destruct H as [H|H]; [eapply extra_rules_sound; eauto|].
  apply in_app_or in H. destruct H as [H|H]; [eapply claus_def_rules_sound; eauto|].
  destruct H as [H|[H|[]]]; injection H as _ <-; [apply r_tautology_sound|apply r_contraction_sound].
Qed.
