(** The recursion of [Polyeq] is bounded by the sizes of the two terms: the fuel of [peq] is never exhausted. *)
From Coq Require Import List String ZArith QArith Bool Arith Lia.
From Verif Require Import Term Sem Base Utils Num Polyeq.
Import ListNotations.
Local Open Scope nat_scope.

Definition nerr (m : cmp) : Prop := forall st, m st <> RErr.
Lemma nerr_ret b : nerr (cret b).
Proof. intros st H. discriminate. Qed.
Lemma nerr_panic : nerr cpanic.
Proof. intros st H. discriminate. Qed.
Lemma nerr_and x y : nerr x -> nerr y -> nerr (cand x y).
Proof.
  intros Hx Hy st. unfold cand. specialize (Hx st). destruct (x st) as [[[|] s]| |]; simpl; try congruence; try apply Hy.
Qed.
Lemma nerr_or x y : nerr x -> nerr y -> nerr (cor x y).
Proof.
  intros Hx Hy st. unfold cor. specialize (Hx st). destruct (x st) as [[[|] s]| |]; simpl; try congruence; try apply Hy.
Qed.
Lemma nerr_if (b : bool) x y : nerr x -> nerr y -> nerr (if b then x else y).
Proof. destruct b; auto. Qed.
Lemma nerr_sort a b : nerr (sort_cmp a b).
Proof. intros st H. discriminate. Qed.
#[export] Hint Resolve nerr_ret nerr_panic nerr_and nerr_or nerr_if nerr_sort : nerr.
Lemma db_push_nerr d : db_push d <> RErr.
Proof. unfold db_push. destruct (db_cnt d); discriminate. Qed.
Lemma db_pop_nerr d : db_pop d <> RErr.
Proof. unfold db_pop. destruct (db_a d) as [|? [|? ?]]; try discriminate. destruct (db_b d) as [|? [|? ?]]; discriminate. Qed.
Lemma cache_insert_nerr st a b : cache_insert st a b <> RErr.
Proof. unfold cache_insert. destruct (ps_cache st); discriminate. Qed.
Lemma cache_pop_nerr st : cache_pop st <> RErr.
Proof. unfold cache_pop. destruct (ps_cache st) as [|? [|? ?]]; discriminate. Qed.
Lemma db_ins_nerr x y st : db_ins x y st <> RErr.
Proof.
  unfold db_ins. destruct (ps_db st) as [d|]; [|discriminate]. unfold db_insert.
  destruct (db_a d), (db_b d), (db_cnt d); discriminate.
Qed.
Lemma push_all_nerr st : push_all st <> RErr.
Proof.
  unfold push_all. destruct (ps_db st) as [d|]; [|discriminate]. pose proof (db_push_nerr d).
  destruct (db_push d); simpl; congruence.
Qed.
Lemma pop_all_nerr st : pop_all st <> RErr.
Proof.
  unfold pop_all. destruct (ps_db st) as [d|]; [|discriminate]. pose proof (db_pop_nerr d). pose proof (cache_pop_nerr st).
  destruct (db_pop d); simpl; try congruence. destruct (cache_pop st); simpl; congruence.
Qed.

Section Rec.
  Context (c : pcfg) (rec : term -> term -> cmp).
  Lemma eq_rc_nerr a b : nerr (rec a b) -> nerr (eq_rc rec a b).
  Proof.
    intros H st. unfold eq_rc. destruct (negb (renamed st) && term_eqb a b); [discriminate|].
    destruct (cache_mem st a b); [discriminate|]. specialize (H st). destruct (rec a b st) as [[[|] s]| |]; simpl; try congruence.
    pose proof (cache_insert_nerr s a b). destruct (cache_insert s a b); simpl; congruence.
  Qed.
  Definition sum (l : list term) := list_sum (map tsize l).
  Lemma tsize_pos t : 1 <= tsize t.
  Proof. destruct t; simpl; lia. Qed.
  Context (N : nat) (HN : forall a b, tsize a + tsize b < N -> nerr (rec a b)).
  Lemma eq_zip_nerr la : forall lb, sum la + sum lb < N -> nerr (eq_zip rec la lb).
  Proof.
    induction la as [|a ra IH]; intros [|b rb] H; simpl; auto with nerr.
    unfold sum in *; simpl in *. apply nerr_and; [apply eq_rc_nerr, HN; lia|apply IH; lia].
  Qed.
  Lemma eq_list_nerr la lb : sum la + sum lb < N -> nerr (eq_list rec la lb).
  Proof. intros H. unfold eq_list. apply nerr_if; auto with nerr. apply eq_zip_nerr; auto. Qed.
  Lemma eq_sorts_nerr la : forall lb, nerr (eq_sorts la lb).
  Proof.
    induction la as [|[x s] ra IH]; intros [|[y s'] rb]; simpl; auto with nerr.
    apply nerr_and; auto. intros st. destruct (String.eqb x y); discriminate.
  Qed.
  Lemma db_sorts_nerr la : forall lb, nerr (db_sorts la lb).
  Proof.
    induction la as [|[x s] ra IH]; intros [|[y s'] rb]; simpl; auto with nerr.
    apply nerr_and; auto. intros st. unfold sort_cmp. simpl.
    destruct (sort_eqb s s' && (negb (renamed st) || no_svar s)); [|discriminate].
    pose proof (db_ins_nerr x y st). destruct (db_ins x y st); simpl; congruence.
  Qed.
  Definition bsum (l : list (string * term)) := list_sum (map (fun p => tsize (snd p)) l).
  Lemma eq_binds_nerr la : forall lb, bsum la + bsum lb < N -> nerr (eq_binds rec la lb).
  Proof.
    induction la as [|[x s] ra IH]; intros [|[y s'] rb] H; simpl; auto with nerr.
    unfold bsum in *; simpl in *. apply nerr_and; [|apply IH; lia]. intros st.
    destruct (String.eqb x y); [|discriminate]. apply eq_rc_nerr, HN; lia.
  Qed.
  Lemma db_binds_nerr la : forall lb, bsum la + bsum lb < N -> nerr (db_binds rec la lb).
  Proof.
    induction la as [|[x s] ra IH]; intros [|[y s'] rb] H; simpl; auto with nerr.
    unfold bsum in *; simpl in *. apply nerr_and; [|apply IH; lia]. intros st.
    assert (Hr : nerr (eq_rc rec s s')) by (apply eq_rc_nerr, HN; lia). specialize (Hr st).
    destruct (eq_rc rec s s' st) as [[[|] st']| |]; simpl; try congruence.
    pose proof (db_ins_nerr x y st'). destruct (db_ins x y st'); simpl; congruence.
  Qed.
  Lemma in_scope_nerr x y : nerr x -> nerr y -> nerr (in_scope x y).
  Proof.
    intros Hx Hy st. unfold in_scope. pose proof (push_all_nerr st). destruct (push_all st) as [s| |]; simpl; try congruence.
    pose proof (nerr_and x y Hx Hy s). destruct (cand x y s) as [[r s2]| |]; simpl; try congruence.
    pose proof (pop_all_nerr s2). destruct (pop_all s2); simpl; congruence.
  Qed.
  Lemma cmp_binder_nerr la lb a b : tsize a + tsize b < N -> nerr (cmp_binder rec la lb a b).
  Proof.
    intros H st. unfold cmp_binder. assert (Hr : nerr (eq_rc rec a b)) by (apply eq_rc_nerr, HN; lia).
    destruct (ps_db st).
    - apply in_scope_nerr; auto. apply db_sorts_nerr.
    - apply nerr_and; auto. intros s. destruct (Nat.eqb _ _); [apply eq_sorts_nerr|discriminate].
  Qed.
  Lemma cmp_let_nerr la lb a b : bsum la + tsize a + (bsum lb + tsize b) < N -> nerr (cmp_let rec la lb a b).
  Proof.
    intros H st. unfold cmp_let. assert (Hr : nerr (eq_rc rec a b)) by (apply eq_rc_nerr, HN; lia).
    destruct (ps_db st).
    - apply in_scope_nerr; auto. apply db_binds_nerr; lia.
    - apply nerr_and; auto. intros s. destruct (Nat.eqb _ _); [apply eq_binds_nerr; lia|discriminate].
  Qed.
  Lemma cmp_chain_zip_nerr o args : forall ch, 2 * sum args + sum ch < N + N -> sum args + sum ch < N -> nerr (cmp_chain_zip rec o args ch).
  Proof.
    induction args as [|a [|b ra] IH]; intros [|t rc] H0 H; simpl; auto with nerr.
    destruct t as [| | |o' l| | | |]; auto with nerr. destruct l as [|x [|y [|? ?]]]; auto with nerr.
    apply nerr_if; auto with nerr. unfold sum in *; simpl in *.
    apply nerr_and; [apply nerr_and; apply eq_rc_nerr, HN; lia|]. apply IH; lia.
  Qed.
  Lemma cmp_chainable_nerr o args ch : sum args + sum ch < N -> nerr (cmp_chainable rec o args ch).
  Proof. intros H. unfold cmp_chainable. apply nerr_if; auto with nerr. apply cmp_chain_zip_nerr; lia. Qed.
  Lemma flatten_single_sum o l : sum (flatten_single o l) <= sum l.
  Proof.
    unfold flatten_single. destruct l as [|t [|? ?]]; auto; destruct t as [| | |o' args| | | |]; auto.
    destruct (op_eqb o' o); auto. unfold sum; simpl. lia.
  Qed.
  Lemma sum_app a b : sum (a ++ b) = sum a + sum b.
  Proof. unfold sum. rewrite map_app, list_sum_app. reflexivity. Qed.
  Lemma split_args_sum b l h t : split_args b l = Some (h, t) -> sum l = tsize h + sum t.
  Proof.
    unfold split_args. destruct l as [|x [|y r]]; try discriminate. destruct b; intros H; injection H as <- <-; [reflexivity|].
    rewrite (app_removelast_last x (l := x :: y :: r)) at 1 by discriminate. rewrite sum_app. unfold sum at 2. cbn [map list_sum fold_right].
    change (last (x :: y :: r) x) with (last (y :: r) x). simpl; lia.
  Qed.
  Lemma cmp_assoc_nerr o : forall n l r, sum l + sum r < N -> sum l + sum r < n -> nerr (cmp_assoc rec n o l r).
  Proof.
    induction n as [|n IH]; intros l r H1 H2; [lia|]. cbn [cmp_assoc].
    destruct l as [|a [|a' l]].
    - destruct r as [|b [|b' r]]; auto with nerr. 
    - destruct r as [|b [|b' r]]; auto with nerr. apply eq_rc_nerr, HN. unfold sum in *; simpl in *; lia.
    - destruct r as [|b [|b' r]]; auto with nerr; [destruct (split_args _ _) as [[? ?]|]; simpl; auto with nerr|].
      destruct (split_args (is_right o) (a :: a' :: l)) as [[hl tl]|] eqn:E1; auto with nerr.
      destruct (split_args (is_right o) (b :: b' :: r)) as [[hr tr]|] eqn:E2; auto with nerr.
      apply split_args_sum in E1, E2. pose proof (tsize_pos hl). pose proof (tsize_pos hr).
      pose proof (flatten_single_sum o tl). pose proof (flatten_single_sum o tr).
      apply nerr_and; [apply eq_rc_nerr, HN; lia|]. apply IH; lia.
  Qed.
  Lemma cmp_op_nerr n oa la ob lb : sum la + sum lb < N -> sum la + sum lb < n -> nerr (cmp_op c rec n oa la ob lb).
  Proof.
    intros H Hn. unfold cmp_op.
    assert (HG : nerr (if op_eqb oa ob then eq_list rec la lb else cret false))
      by (apply nerr_if; auto with nerr; apply eq_list_nerr; auto).
    match goal with |- context [if p_nary c then ?x else ?y] => set (nary := if p_nary c then x else y) end.
    assert (HNa : nerr nary).
    { unfold nary. repeat match goal with |- nerr (if _ then _ else _) => apply nerr_if end; auto with nerr; try (apply cmp_chainable_nerr; lia); try (apply cmp_assoc_nerr; auto; fail); apply eq_list_nerr; auto. }
    clearbody nary. destruct la as [|a1 [|a2 [|? ?]]]; auto. destruct lb as [|b1 [|b2 [|? ?]]]; auto.
    apply nerr_if; auto. unfold sum in *; simpl in *.
    apply nerr_or; apply nerr_and; apply eq_rc_nerr, HN; lia.
  Qed.
  Lemma ratio_nerr a b q : nerr (ratio_is a b q).
  Proof. unfold ratio_is. auto with nerr. Qed.
  Lemma single_nerr a b : tsize a + tsize b < S N -> nerr (single c rec a b).
  Proof.
    intros H. unfold single. destruct a as [| | |o [|x [|? ?]]| | | |]; auto with nerr.
    repeat match goal with |- nerr (if _ then _ else _) => apply nerr_if end; auto with nerr. apply HN. simpl in H. lia.
  Qed.
  Hint Resolve ratio_nerr : nerr.
  Lemma real_div_nerr r l : nerr (real_div r l).
  Proof. unfold real_div. destruct (idx2 l) as [[[[]| | | | | | |] [[]| | | | | | |]]|]; auto with nerr. Qed.
  Lemma div_real_nerr r l : nerr (div_real l r).
  Proof.
    unfold div_real.
    repeat match goal with |- nerr (match ?x with _ => _ end) => destruct x end; auto with nerr.
  Qed.
  Lemma real_neg_nerr r l : nerr (real_neg r l).
  Proof.
    unfold real_neg.
    repeat match goal with |- nerr (match ?x with _ => _ end) => destruct x end; auto with nerr.
  Qed.
  Lemma int_neg_nerr r l : nerr (int_neg r l).
  Proof.
    unfold int_neg.
    repeat match goal with |- nerr (match ?x with _ => _ end) => destruct x end; auto with nerr.
  Qed.
  Hint Resolve real_div_nerr div_real_nerr real_neg_nerr int_neg_nerr : nerr.
  Lemma eq_term_nerr n a b : tsize a + tsize b < S N -> tsize a + tsize b < S n -> nerr (eq_term c rec n a b).
  Proof.
    intros H Hn. pose proof (single_nerr a b H) as S1.
    assert (S2 : nerr (single c rec b a)) by (apply single_nerr; lia).
    unfold eq_term. destruct a, b; auto with nerr;
      try (apply nerr_or; [exact S1|apply nerr_or; [exact S2|]]); auto with nerr;
      try (match goal with |- context [match ?k with CInt _ => _ | _ => _ end] => destruct k end; auto with nerr).
    - intros st. destruct (ps_db st); [|discriminate]. destruct (db_compare _ _ _); discriminate.
    - simpl in H. apply nerr_and; [apply eq_rc_nerr, HN; lia|]. apply eq_list_nerr. unfold sum; lia.
    - simpl in H, Hn. apply cmp_op_nerr; unfold sum; lia.
    - simpl in H. apply nerr_if; auto with nerr. apply cmp_binder_nerr; lia.
    - simpl in H. apply cmp_let_nerr. unfold bsum; lia.
    - simpl in H. apply nerr_if; auto with nerr. apply eq_list_nerr. unfold sum; lia.
  Qed.
End Rec.

Lemma eq_term_fuel_nerr c n : forall a b, tsize a + tsize b < n -> nerr (eq_term_fuel c n a b).
Proof.
  induction n as [|n IH]; intros a b H; [lia|]. apply (eq_term_nerr c _ n); auto.
Qed.
Lemma peq_terminates c a b : peq c a b <> RErr.
Proof.
  unfold peq. assert (H : nerr (eq_rc (eq_term_fuel c (peq_fuel a b)) a b)).
  { apply eq_rc_nerr. apply eq_term_fuel_nerr. unfold peq_fuel; lia. }
  specialize (H (st_new c)). destruct (eq_rc _ a b (st_new c)); simpl; congruence.
Qed.
