(** Helpers shared by the rule checkers (checker/rules/mod.rs, ast/macros.rs, ast/term.rs) and the
    notion of soundness every rule is proved against. *)
From Coq Require Import List String ZArith QArith Bool Arith NArith Lia.
From Verif Require Import Term Field Sem Sorting Base.
Import ListNotations.

(** ** Specification: semantic consequence between clauses *)
Definition clause_wt (c : clause) : bool := forallb bool_term c.
Definition entails (prems : list clause) (c : clause) : Prop :=
  forall (I : interp) (E : env I), env_ok E ->
    (forall p, In p prems -> clause_holds E p) -> clause_holds E c.

(** A rule checker receives conclusion, premise clauses and arguments (checker/rules/mod.rs:13-30). *)
Definition rule : Type := clause -> list clause -> list term -> outcome unit.
(** Soundness of a rule: whenever the checker accepts a step whose clauses are well-sorted (as every
    parsed clause is), the conclusion is a semantic consequence of the premises. *)
Definition rule_sound (r : rule) : Prop :=
  forall c ps args, r c ps args = ROk tt ->
    clause_wt c = true -> forallb clause_wt ps = true -> entails ps c.

(** rules that are sound under a condition *)
Definition rule_sound_if (r : rule) (ok : clause -> list clause -> list term -> bool) : Prop :=
  forall c ps args, r c ps args = ROk tt -> ok c ps args = true ->
    clause_wt c = true -> forallb clause_wt ps = true -> entails ps c.
(** ** match_term!/match_term_err! (ast/macros.rs:4-190): patterns of exact arity *)
Definition as_op (o : op) (t : term) : option (list term) :=
  match t with TOp o' l => if op_eqb o o' then Some l else None | _ => None end.
Definition op0 (o : op) (t : term) : bool :=
  match as_op o t with Some [] => true | _ => false end.
Definition op1 (o : op) (t : term) : option term :=
  match as_op o t with Some [a] => Some a | _ => None end.
Definition op2 (o : op) (t : term) : option (term * term) :=
  match as_op o t with Some [a; b] => Some (a, b) | _ => None end.
Definition op3 (o : op) (t : term) : option (term * term * term) :=
  match as_op o t with Some [a; b; c] => Some (a, b, c) | _ => None end.
(** match_term!((forall/exists ... inner) = t) *)
Definition as_bind (b : binder) (t : term) : option (list sorted_var * term) :=
  match t with
  | TBind b' vs body =>
      match b, b' with
      | BForall, BForall | BExists, BExists | BChoice, BChoice | BLambda, BLambda => Some (vs, body)
      | _, _ => None
      end
  | _ => None
  end.
Lemma as_bind_some b t vs body : as_bind b t = Some (vs, body) -> t = TBind b vs body.
Proof. destruct t; try discriminate. simpl. destruct b, b0; try discriminate; congruence. Qed.
Definition binds_eqb (a b : list sorted_var) : bool := list_eqb svar_eqb a b.
Lemma binds_eqb_eq a b : binds_eqb a b = true <-> a = b.
Proof. apply list_eqb_eq. apply svar_eqb_eq. Qed.
Definition m_bind b t := ok_or (as_bind b t).
Definition m_ops o t := ok_or (as_op o t).
Definition m_op1 o t := ok_or (op1 o t).
Definition m_op2 o t := ok_or (op2 o t).
Definition m_op3 o t := ok_or (op3 o t).

Lemma op_eqb_refl o : op_eqb o o = true.
Proof. apply op_eqb_eq; reflexivity. Qed.
Lemma as_op_some o t l : as_op o t = Some l -> t = TOp o l.
Proof.
  destruct t; simpl; try discriminate. destruct (op_eqb o o0) eqn:E; [|discriminate].
  apply op_eqb_eq in E. intros H; injection H as <-. subst; reflexivity.
Qed.
Lemma as_op_TOp o l : as_op o (TOp o l) = Some l.
Proof. simpl. rewrite op_eqb_refl. reflexivity. Qed.
Lemma op1_some o t a : op1 o t = Some a -> t = TOp o [a].
Proof.
  unfold op1. destruct (as_op o t) as [l|] eqn:E; [|discriminate]. apply as_op_some in E. subst.
  destruct l as [|x [|y r]]; try discriminate. intros H; injection H as <-. reflexivity.
Qed.
Lemma op2_some o t a b : op2 o t = Some (a, b) -> t = TOp o [a; b].
Proof.
  unfold op2. destruct (as_op o t) as [l|] eqn:E; [|discriminate]. apply as_op_some in E. subst.
  destruct l as [|x [|y [|z r]]]; try discriminate. intros H; injection H as <- <-. reflexivity.
Qed.
Lemma op3_some o t a b c : op3 o t = Some (a, b, c) -> t = TOp o [a; b; c].
Proof.
  unfold op3. destruct (as_op o t) as [l|] eqn:E; [|discriminate]. apply as_op_some in E. subst.
  destruct l as [|x [|y [|z [|w r]]]]; try discriminate. intros H; injection H as <- <- <-. reflexivity.
Qed.
Lemma op0_true o t : op0 o t = true -> t = TOp o [].
Proof.
  unfold op0. destruct (as_op o t) as [l|] eqn:E; [|discriminate]. apply as_op_some in E. subst.
  destruct l; [reflexivity|discriminate].
Qed.

(** Term::remove_negation / remove_negation_err, ast/term.rs:1003-1039 *)
Definition remove_negation (t : term) : option term := op1 ONot t.
Definition rm_neg t := ok_or (remove_negation t).
(** Term::as_usize_err, ast/term.rs:1054-1061 (usize is 64-bit) *)
Definition as_usize (t : term) : outcome nat :=
  match t with
  | TConst (CInt z) => if Z.leb 0 z then (if Z.ltb z (2 ^ 64) then ROk (Z.to_nat z) else RPanic) else RErr
  | _ => RErr
  end.
(** assert_eq, checker/rules/mod.rs:105-114 *)
Definition teq (a b : term) : outcome unit := rassert (term_eqb a b).
(** assert_num_premises / assert_clause_len / assert_num_args, mod.rs:73-95 *)
Definition len_is {A} (l : list A) (n : nat) : outcome unit := rassert (Nat.eqb (List.length l) n).
Definition len_ge {A} (l : list A) (n : nat) : outcome unit := rassert (Nat.leb n (List.length l)).
(** get_premise_term, mod.rs:51-60 *)
Definition premise_term (p : clause) : outcome term := match p with [t] => ROk t | _ => RErr end.
(** slice indexing; out of bounds panics *)
Definition idx {A} (l : list A) (n : nat) : outcome A := unwrap (nth_error l n).

Lemma teq_ok a b u : teq a b = ROk u -> a = b.
Proof. intros H. apply rassert_ok in H. apply term_eqb_eq; auto. Qed.
Lemma m_ops_ok o t l : m_ops o t = ROk l -> t = TOp o l.
Proof. intros H. apply as_op_some, ok_or_ok, H. Qed.
Lemma m_op1_ok o t a : m_op1 o t = ROk a -> t = TOp o [a].
Proof. intros H. apply op1_some, ok_or_ok, H. Qed.
Lemma m_op2_ok o t p : m_op2 o t = ROk p -> t = TOp o [fst p; snd p].
Proof. intros H. destruct p. apply op2_some, ok_or_ok, H. Qed.
Lemma m_op3_ok o t p : m_op3 o t = ROk p -> t = TOp o [fst (fst p); snd (fst p); snd p].
Proof. intros H. destruct p as [[a b] c]. apply op3_some, ok_or_ok, H. Qed.
Lemma m_bind_ok b t p : m_bind b t = ROk p -> t = TBind b (fst p) (snd p).
Proof. intros H. destruct p. apply as_bind_some, ok_or_ok, H. Qed.
Lemma rm_neg_ok t a : rm_neg t = ROk a -> t = tNot a.
Proof. intros H. apply op1_some, ok_or_ok, H. Qed.
Lemma premise_term_ok p t : premise_term p = ROk t -> p = [t].
Proof. destruct p as [|x [|y r]]; simpl; congruence. Qed.
Lemma len_is_ok {A} (l : list A) n u : len_is l n = ROk u -> List.length l = n.
Proof. intros H. apply rassert_ok in H. apply Nat.eqb_eq; auto. Qed.
Lemma len_ge_ok {A} (l : list A) n u : len_ge l n = ROk u -> (n <= List.length l)%nat.
Proof. intros H. apply rassert_ok in H. apply Nat.leb_le; auto. Qed.
Lemma idx_ok {A} (l : list A) n a : idx l n = ROk a -> nth_error l n = Some a.
Proof. apply unwrap_ok. Qed.

Lemma len0 {A} (l : list A) : List.length l = 0%nat -> l = [].
Proof. destruct l; [reflexivity|discriminate]. Qed.
Lemma len1 {A} (l : list A) : List.length l = 1%nat -> exists a, l = [a].
Proof. destruct l as [|a [|b r]]; try discriminate. eauto. Qed.
Lemma len2 {A} (l : list A) : List.length l = 2%nat -> exists a b, l = [a; b].
Proof. destruct l as [|a [|b [|c r]]]; try discriminate. eauto. Qed.
Lemma len3 {A} (l : list A) : List.length l = 3%nat -> exists a b c, l = [a; b; c].
Proof. destruct l as [|a [|b [|c [|d r]]]]; try discriminate. eauto. Qed.
Lemma len4 {A} (l : list A) : List.length l = 4%nat -> exists a b c d, l = [a; b; c; d].
Proof. destruct l as [|a [|b [|c [|d [|e r]]]]]; try discriminate. eauto 6. Qed.

(** Invert a hypothesis [rule ... = ROk tt] into the shape constraints it checked. *)
Ltac rinv1 :=
  match goal with
  | H : obind _ _ = ROk _ |- _ => apply obind_ok in H; destruct H as [? [? H]]
  | H : ROk _ = ROk _ |- _ => injection H as H; try subst
  | H : RErr = ROk _ |- _ => discriminate H
  | H : RPanic = ROk _ |- _ => discriminate H
  | H : teq _ _ = ROk _ |- _ => apply teq_ok in H; try subst
  | H : m_ops _ _ = ROk _ |- _ => apply m_ops_ok in H; try subst
  | H : m_op1 _ _ = ROk _ |- _ => apply m_op1_ok in H; try subst
  | H : m_op2 _ _ = ROk ?p |- _ => apply m_op2_ok in H; destruct p; cbn [fst snd] in *; try subst
  | H : m_op3 _ _ = ROk ?p |- _ => apply m_op3_ok in H; destruct p as [[? ?] ?]; cbn [fst snd] in *; try subst
  | H : m_bind _ _ = ROk ?p |- _ => apply m_bind_ok in H; destruct p; cbn [fst snd] in *; try subst
  | H : rm_neg _ = ROk _ |- _ => apply rm_neg_ok in H; try subst
  | H : premise_term _ = ROk _ |- _ => apply premise_term_ok in H; try subst
  | H : idx (_ :: _) _ = ROk _ |- _ => cbn in H
  | H : len_is ?l 0 = ROk _ |- _ => apply len_is_ok, len0 in H; try subst
  | H : len_is ?l 1 = ROk _ |- _ => apply len_is_ok, len1 in H; destruct H as [? ?]; try subst
  | H : len_is ?l 2 = ROk _ |- _ => apply len_is_ok, len2 in H; destruct H as [? [? ?]]; try subst
  | H : len_is ?l 3 = ROk _ |- _ => apply len_is_ok, len3 in H; destruct H as [? [? [? ?]]]; try subst
  | H : len_is ?l 4 = ROk _ |- _ => apply len_is_ok, len4 in H; destruct H as [? [? [? [? ?]]]]; try subst
  | H : rassert _ = ROk _ |- _ => apply rassert_ok in H
  end.
Ltac rinv := repeat (rinv1; cbn [fst snd] in * ).

(** ** Boolean reasoning about clauses *)
Section ClauseB.
  Context {I : interp}.
  Implicit Types E : env I.
  Lemma clause_holds_b E c : clause_holds E c <-> existsb (holds E) c = true.
  Proof. unfold clause_holds. rewrite existsb_exists. reflexivity. Qed.
  Lemma holds_eq_bool E a b : bool_term a = true -> bool_term b = true -> env_ok E ->
    holds E (tEq a b) = Bool.eqb (holds E a) (holds E b).
  Proof.
    intros Ha Hb HE. rewrite holds_eq, (eval_bool a), (eval_bool b) by auto. reflexivity.
  Qed.
  Lemma holds_eq_same E a b : holds E (tEq a b) = true -> holds E a = holds E b.
  Proof. rewrite holds_eq_iff. unfold holds. intros ->. reflexivity. Qed.
  Lemma eval_true_holds E a : holds E a = true <-> eval a E = VB true.
  Proof. unfold holds. destruct (eval a E); simpl; split; congruence. Qed.
End ClauseB.

(** Sorting information from well-sortedness of the whole clause *)
Lemma bool_term_op o l : op_sort o (map sort_of l) = SBool -> o <> OBvConst ->
  bool_term (TOp o l) = forallb wt l && op_wt o (map sort_of l).
Proof.
  intros Hs Hn. unfold bool_term.
  assert (Hs' : sort_of (TOp o l) = SBool).
  { destruct o; try exact Hs. congruence. }
  rewrite Hs'. rewrite sort_eqb_refl, andb_true_r. reflexivity.
Qed.
Lemma bool_term_not a : bool_term (tNot a) = bool_term a.
Proof.
  unfold tNot. rewrite bool_term_op by (reflexivity || discriminate). unfold bool_term. simpl.
  rewrite andb_true_r. f_equal. unfold sorts_are. simpl. rewrite andb_true_r. reflexivity.
Qed.
Lemma bool_args o l : (o = OAnd \/ o = OOr \/ o = OXor \/ o = OImplies) ->
  bool_term (TOp o l) = true -> forall a, In a l -> bool_term a = true.
Proof.
  intros Ho H a Ha. rewrite bool_term_op in H
    by (destruct Ho as [->|[->|[->| ->]]]; (reflexivity || discriminate)).
  apply andb_true_iff in H. destruct H as [Hw Hs]. unfold bool_term.
  rewrite forallb_forall in Hw. rewrite (Hw a Ha). simpl.
  assert (Hf : forallb (sort_eqb SBool) (map sort_of l) = true).
  { destruct Ho as [->|[->|[->| ->]]]; apply andb_true_iff in Hs; destruct Hs; auto. }
  rewrite forallb_forall in Hf. specialize (Hf (sort_of a) (in_map sort_of l a Ha)).
  apply sort_eqb_eq in Hf. rewrite <- Hf. apply sort_eqb_refl.
Qed.
Lemma bool_term_wt t : bool_term t = true -> wt t = true.
Proof. unfold bool_term. intros H. apply andb_true_iff in H. tauto. Qed.
Lemma bool_term_sort t : bool_term t = true -> sort_of t = SBool.
Proof. unfold bool_term. intros H. apply andb_true_iff in H. apply sort_eqb_eq; tauto. Qed.
Lemma eq_args_wt a b : wt (tEq a b) = true -> wt a = true /\ wt b = true /\ sort_of a = sort_of b.
Proof.
  simpl. rewrite !andb_true_r. intros H. apply andb_true_iff in H. destruct H as [H1 H2].
  apply andb_true_iff in H1. apply sort_eqb_eq in H2. tauto.
Qed.
(** equality between Booleans: if one side is a Boolean term so is the other *)
Lemma bool_eq_l a b : bool_term (tEq a b) = true -> sort_of a = SBool -> bool_term a = true /\ bool_term b = true.
Proof.
  intros H Hs. apply bool_term_wt, eq_args_wt in H. destruct H as [Ha [Hb He]].
  unfold bool_term. rewrite Ha, Hb, <- He, Hs. auto.
Qed.
Lemma bool_eq_r a b : bool_term (tEq a b) = true -> sort_of b = SBool -> bool_term a = true /\ bool_term b = true.
Proof.
  intros H Hs. apply bool_eq_l; auto. apply bool_term_wt, eq_args_wt in H. destruct H as [Ha [Hb He]]. congruence.
Qed.
Lemma ite_args_wt c a b : wt (TOp OIte [c; a; b]) = true ->
  bool_term c = true /\ wt a = true /\ wt b = true /\ sort_of a = sort_of b.
Proof.
  cbn [wt forallb map op_wt]. rewrite !andb_true_r. intros H. apply andb_true_iff in H. destruct H as [H1 H2].
  apply andb_true_iff in H1. destruct H1 as [Hc H1]. apply andb_true_iff in H1.
  apply andb_true_iff in H2. destruct H2 as [H2 H3]. apply sort_eqb_eq in H2, H3.
  unfold bool_term. rewrite Hc, <- H2. tauto.
Qed.

(** Evaluation of clauses whose literals have known propositional structure *)
Lemma holds_not' {I} (E : env I) t : holds E (TOp ONot [t]) = negb (holds E t).
Proof. reflexivity. Qed.
Lemma holds_eq' {I} (E : env I) a b : holds E (TOp OEquals [a; b]) = veqb (eval a E) (eval b E).
Proof. apply (holds_eq E a b). Qed.
Lemma holds_and2 {I} (E : env I) a b : holds E (TOp OAnd [a; b]) = holds E a && holds E b.
Proof. rewrite holds_and. simpl. rewrite andb_true_r. reflexivity. Qed.
Lemma holds_or2 {I} (E : env I) a b : holds E (TOp OOr [a; b]) = holds E a || holds E b.
Proof. rewrite holds_or. simpl. rewrite orb_false_r. reflexivity. Qed.
Lemma veqb_holds {I} (E : env I) a b : veqb (eval a E) (eval b E) = true -> holds E a = holds E b.
Proof. intros H. apply veqb_eq in H. unfold holds. rewrite H. reflexivity. Qed.
Lemma veqb_bool {I} (E : env I) a b : bool_term a = true -> bool_term b = true -> env_ok E ->
  veqb (eval a E) (eval b E) = Bool.eqb (holds E a) (holds E b).
Proof. intros. rewrite (eval_bool a), (eval_bool b) by auto. reflexivity. Qed.
Lemma veqb_both_true {I} (E : env I) a b : holds E a = true -> holds E b = true ->
  veqb (eval a E) (eval b E) = true.
Proof. rewrite !eval_true_holds. intros -> ->. reflexivity. Qed.

#[global] Hint Rewrite @holds_not' @holds_eq' @holds_and @holds_or @holds_implies @holds_xor
  @holds_ite @holds_true @holds_false orb_false_r andb_true_r : hdb.
Ltac hsimp :=
  unfold tNot, tEq in *;
  repeat (progress (cbn [existsb forallb]; autorewrite with hdb)).
Ltac hsimp_in H :=
  unfold tNot, tEq in *;
  repeat (progress (cbn [existsb forallb] in H; autorewrite with hdb in H)).
(** facts about equalities between literals *)
Ltac heqs :=
  repeat match goal with
  | |- context [veqb (eval ?a ?E) (eval ?b ?E)] =>
      match goal with
      | H : veqb (eval a E) (eval b E) = _ |- _ => fail 1
      | _ => let Q := fresh "Q" in destruct (veqb (eval a E) (eval b E)) eqn:Q;
             [pose proof (veqb_holds E a b Q)|]
      end
  end.
Ltac hcases :=
  repeat match goal with
  | |- context [holds ?E ?a] => destruct (holds E a) eqn:?
  | H : context [holds ?E ?a] |- _ =>
      lazymatch type of H with
      | holds E a = _ => fail
      | _ => destruct (holds E a) eqn:?
      end
  end.
Ltac hsolve := hcases; simpl in *; try reflexivity; try discriminate; try congruence.
