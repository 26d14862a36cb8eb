(** The string rules, except concat_cprop_prefix and concat_cprop_suffix, never panic on well-sorted terms that can be compared. *)
From Coq Require Import List String ZArith NArith QArith Bool Arith Lia.
From Verif Require Import Base Term Field Sem Sorting Rules Utils Num R_Eq R_Str StrSound2 Polyeq PolyeqSound NoPanic NoPanicBv NoPanicPoly NoPanicRules.
Import ListNotations.
Local Open Scope nat_scope.

Definition psafe (r : rule) : Prop := forall c ps args, clause_wt c = true -> forallb tame c = true -> forallb clause_wt ps = true -> forallb (forallb tame) ps = true ->
  forallb tame args = true -> r c ps args <> RPanic.

(** ** Parts of terms that can be compared *)
Lemma tame_m2 o t p : m_op2 o t = ROk p -> tame t = true -> tame (fst p) = true /\ tame (snd p) = true.
Proof. intros H Ht. apply m_op2_ok in H. subst t. cbn [tame forallb] in Ht. rewrite !andb_true_iff in Ht. tauto. Qed.
Lemma tame_m1 o t x : m_op1 o t = ROk x -> tame t = true -> tame x = true.
Proof. intros H Ht. unfold m_op1 in H. apply ok_or_ok in H. unfold op1 in H. destruct (as_op o t) as [[|a [|? ?]]|] eqn:E; try discriminate. injection H as <-. apply as_op_some in E. subst t. cbn [tame forallb] in Ht. rewrite !andb_true_iff in Ht. tauto. Qed.
Lemma tame_rm t e : rm_neg t = ROk e -> tame t = true -> tame e = true.
Proof. intros H Ht. apply rm_neg_ok in H. subst t. unfold tNot in Ht. cbn [tame forallb] in Ht. rewrite !andb_true_iff in Ht. tauto. Qed.
Lemma prem1 (Q : term -> bool) p ps h : forallb (forallb Q) (p :: ps) = true -> premise_term p = ROk h -> Q h = true.
Proof. intros H Hp. apply premise_term_ok in Hp. subst p. cbn [forallb] in H. rewrite !andb_true_iff in H. tauto. Qed.
Lemma fcons {A} (f : A -> bool) a l : forallb f (a :: l) = true -> f a = true /\ forallb f l = true.
Proof. apply andb_true_iff. Qed.
Lemma tame_flat t : tame t = true -> forallb tame (flat t) = true.
Proof.
  induction t as [c|x s|f l IHf H|o l H|s|b vs t IHt|bs t H IHt|o oa l Hoa H] using term_ind'; intros Ht; cbn [flat]; try (cbn [forallb]; rewrite Ht; reflexivity).
  - destruct c; try reflexivity. apply forallb_forall. intros x Hx. apply in_map_iff in Hx. destruct Hx as [y [<- _]]. reflexivity.
  - destruct (op_eqb o OStrConcat); [|cbn [forallb]; rewrite Ht; reflexivity]. cbn [tame] in Ht. apply andb_true_iff in Ht. destruct Ht as [_ Ht].
    apply forallb_forall. intros x Hx. apply in_flat_map in Hx. destruct Hx as [a [Ha Hx]]. rewrite Forall_forall in H. rewrite forallb_forall in Ht. specialize (H a Ha (Ht a Ha)).
    rewrite forallb_forall in H. auto.
Qed.
Lemma tame_rev rv l : forallb tame l = true -> forallb tame (rev_if rv l) = true.
Proof. intros H. destruct rv; [|exact H]. cbn [rev_if]. apply forallb_forall. intros x Hx. apply in_rev in Hx. rewrite forallb_forall in H. auto. Qed.
Lemma np_prefix_loop p : forall t, forallb tame p = true -> forallb tame t = true -> List.length p <= List.length t -> prefix_loop p t <> RPanic.
Proof.
  induction p as [|a p IH]; intros t Hp Ht Hl; [discriminate|]. destruct t as [|b t]; [cbn in Hl; lia|]. cbn [prefix_loop]. cbn [forallb] in Hp, Ht. rewrite !andb_true_iff in Hp, Ht.
  apply np_bind; [apply np_assert_polyeq; tauto|]. intros _ _. apply IH; try tauto. cbn in Hl. lia.
Qed.
Lemma np_is_prefix t p rv : tame t = true -> tame p = true -> is_prefix_or_suffix t p rv <> RPanic.
Proof.
  intros Ht Hp. unfold is_prefix_or_suffix. destruct (Nat.ltb _ _) eqn:E; [discriminate|]. apply Nat.ltb_ge in E. apply np_bind; [|discriminate].
  apply np_prefix_loop; auto using tame_rev, tame_flat.
Qed.
Lemma np_strip_loop s : forall t, forallb tame s = true -> forallb tame t = true -> strip_loop s t <> RPanic.
Proof.
  induction s as [|a s IH]; intros t Hs Ht; cbn [strip_loop]; [discriminate|]. destruct t as [|b t]; [discriminate|]. cbn [forallb] in Hs, Ht. rewrite !andb_true_iff in Hs, Ht.
  apply np_bind; [apply np_polyeq; tauto|]. intros [|] _; [apply IH; tauto|discriminate].
Qed.
Lemma np_strip s t rv : tame s = true -> tame t = true -> strip s t rv <> RPanic.
Proof.
  intros Hs Ht. unfold strip. pose proof (tame_rev rv _ (tame_flat s Hs)) as H1. pose proof (tame_rev rv _ (tame_flat t Ht)) as H2.
  destruct (rev_if rv (flat s)) as [|a l1]; [discriminate|]. destruct (rev_if rv (flat t)) as [|b l2]; [discriminate|]. apply np_bind; [|discriminate]. apply np_strip_loop; auto.
Qed.
Lemma np_len_one t : len_one t <> RPanic.
Proof. unfold len_one. destruct t as [c| | | | | | |]; try discriminate. destruct c; try discriminate. apply np_rassert. Qed.
Lemma np_nonempty l : nonempty l <> RPanic.
Proof. destruct l; discriminate. Qed.
Lemma np_not_len0 t : m_not_len0 t <> RPanic.
Proof. unfold m_not_len0. np. Qed.
Lemma np_len_pair o t : m_len_pair o t <> RPanic.
Proof. unfold m_len_pair. np. Qed.
Lemma np_not_empty t : m_not_empty t <> RPanic.
Proof. unfold m_not_empty. np. Qed.
Lemma np_len_pos t : m_len_pos t <> RPanic.
Proof. unfold m_len_pos. np. Qed.
Lemma tame_not_len0 t x : m_not_len0 t = ROk x -> tame t = true -> tame x = true.
Proof.
  unfold m_not_len0. intros H Ht. apply obind_ok in H. destruct H as [e [H1 H]]. apply obind_ok in H. destruct H as [lz [H2 H]]. apply obind_ok in H. destruct H as [y [H3 H]].
  apply obind_ok in H. destruct H as [? [_ H]]. injection H as <-. apply (tame_rm _ _ H1) in Ht. apply (tame_m2 _ _ _ H2) in Ht. eapply tame_m1; [exact H3|tauto].
Qed.
Lemma tame_len_pair o t p : m_len_pair o t = ROk p -> tame t = true -> tame (fst p) = true /\ tame (snd p) = true.
Proof.
  unfold m_len_pair. intros H Ht. apply obind_ok in H. destruct H as [xy [H1 H]]. apply obind_ok in H. destruct H as [x [H2 H]]. apply obind_ok in H. destruct H as [y [H3 H]]. injection H as <-.
  apply (tame_m2 _ _ _ H1) in Ht. cbn [fst snd]. split; eapply tame_m1; eauto; tauto.
Qed.
Lemma tame_not_empty t x : m_not_empty t = ROk x -> tame t = true -> tame x = true.
Proof.
  unfold m_not_empty. intros H Ht. apply obind_ok in H. destruct H as [e [H1 H]]. apply obind_ok in H. destruct H as [xe [H2 H]]. apply obind_ok in H. destruct H as [? [_ H]]. injection H as <-.
  apply (tame_rm _ _ H1) in Ht. apply (tame_m2 _ _ _ H2) in Ht. tauto.
Qed.
Lemma tame_len_pos t x : m_len_pos t = ROk x -> tame t = true -> tame x = true.
Proof.
  unfold m_len_pos. intros H Ht. apply obind_ok in H. destruct H as [lz [H2 H]]. apply obind_ok in H. destruct H as [y [H3 H]].
  apply obind_ok in H. destruct H as [? [_ H]]. injection H as <-. apply (tame_m2 _ _ _ H2) in Ht. eapply tame_m1; [exact H3|tauto].
Qed.

(** the premises, the arguments and the conclusion as lists of known length *)
Ltac start := intros c ps args Hwc Htc Hwp Htp Hta.
Ltac step1 :=
  match goal with
  | |- obind (is_prefix_or_suffix _ _ _) _ <> RPanic => apply np_bind; [apply np_is_prefix|intros ? ?]
  | |- obind (strip _ _ _) _ <> RPanic => apply np_bind; [apply np_strip|intros ? ?]
  | |- obind (len_one _) _ <> RPanic => apply np_bind; [apply np_len_one|intros ? ?]
  | |- len_one _ <> RPanic => apply np_len_one
  | |- obind (nonempty _) _ <> RPanic => apply np_bind; [apply np_nonempty|intros ? ?]
  | |- obind (m_not_len0 _) _ <> RPanic => apply np_bind; [apply np_not_len0|let H := fresh "Hr" in intros ? H]
  | |- obind (m_len_pair _ _) _ <> RPanic => apply np_bind; [apply np_len_pair|let H := fresh "Hr" in intros ? H]
  | |- obind (m_not_empty _) _ <> RPanic => apply np_bind; [apply np_not_empty|let H := fresh "Hr" in intros ? H]
  | |- obind (m_len_pos _) _ <> RPanic => apply np_bind; [apply np_len_pos|let H := fresh "Hr" in intros ? H]
  | |- assert_polyeq _ _ <> RPanic => apply np_assert_polyeq
  | _ => npstep
  end.
Ltac steps := repeat (step1; cbn [fst snd]; cbv beta).
Ltac tames :=
  repeat match goal with
  | H : forallb tame (_ :: _) = true |- _ => apply fcons in H; destruct H
  | H : forallb (forallb tame) (?p :: _) = true, P : premise_term ?p = ROk ?h |- _ =>
      pose proof (prem1 tame _ _ _ H P); clear P; apply fcons in H; destruct H as [_ H]
  | H : m_op2 _ ?t = ROk _, T : tame ?t = true |- _ => pose proof (tame_m2 _ _ _ H T) as [? ?]; clear H
  | H : m_op1 _ ?t = ROk _, T : tame ?t = true |- _ => pose proof (tame_m1 _ _ _ H T); clear H
  | H : rm_neg ?t = ROk _, T : tame ?t = true |- _ => pose proof (tame_rm _ _ H T); clear H
  | H : m_not_len0 ?t = ROk _, T : tame ?t = true |- _ => pose proof (tame_not_len0 _ _ H T); clear H
  | H : m_len_pair _ ?t = ROk _, T : tame ?t = true |- _ => pose proof (tame_len_pair _ _ _ H T) as [? ?]; clear H
  | H : m_not_empty ?t = ROk _, T : tame ?t = true |- _ => pose proof (tame_not_empty _ _ H T); clear H
  | H : m_len_pos ?t = ROk _, T : tame ?t = true |- _ => pose proof (tame_len_pos _ _ H T); clear H
  end.
Lemma concat_eq_safe : psafe r_concat_eq.
Proof. start. unfold r_concat_eq. steps; tames; auto. Qed.
Lemma concat_unify_safe : psafe r_concat_unify.
Proof. start. unfold r_concat_unify. steps; tames; auto. Qed.
Lemma concat_conflict_safe : psafe r_concat_conflict.
Proof. start. unfold r_concat_conflict. steps; tames; auto. Qed.
Lemma csplit_prefix_safe : psafe r_csplit_prefix.
Proof. start. unfold r_csplit_prefix. steps; tames; auto. Qed.
Lemma csplit_suffix_safe : psafe r_csplit_suffix.
Proof. start. unfold r_csplit_suffix. steps; tames; auto. Qed.
Lemma np_split_shape g : split_shape g <> RPanic.
Proof. unfold split_shape. steps. Qed.
Lemma np_lprop_shape g : lprop_shape g <> RPanic.
Proof. unfold lprop_shape. steps. Qed.
Lemma split_safe rv : psafe (r_split rv).
Proof. start. unfold r_split. steps; try apply np_split_shape; tames; auto. Qed.
Lemma lprop_safe rv : psafe (r_lprop rv).
Proof. start. unfold r_lprop. steps; try apply np_lprop_shape; tames; auto. Qed.
Lemma tame_decomposed t n rv : tame t = true -> tame n = true -> tame (decomposed t n rv) = true.
Proof.
  intros Ht Hn. unfold decomposed, sk_prefix, sk_suffix_rem, tCat, tEq, tLen, tMinus, tInt. destruct rv; cbn [tame forallb]; rewrite ?Ht, ?Hn; reflexivity.
Qed.
Lemma decompose_safe : psafe r_decompose.
Proof. start. unfold r_decompose. steps; tames; auto; apply tame_decomposed; auto. Qed.
Lemma length_pos_safe : psafe r_length_pos.
Proof. start. unfold r_length_pos. steps; tames; auto. Qed.
Lemma length_non_empty_safe : psafe r_length_non_empty.
Proof. start. unfold r_length_non_empty. steps; tames; auto. Qed.
Lemma re_inter_safe : psafe r_re_inter.
Proof. start. unfold r_re_inter. steps; tames; auto. Qed.

(** ** Regular expressions *)
Lemma in_re_wt h s r : bool_term h = true -> m_op2 OStrInRe h = ROk (s, r) -> wt r = true.
Proof.
  intros Hw H. apply m_op2_ok in H. subst h. unfold bool_term in Hw. apply andb_true_iff in Hw. destruct Hw as [Hw _]. apply op_wt_of in Hw. destruct Hw as [Hw _].
  cbn [forallb] in Hw. rewrite !andb_true_iff in Hw. tauto.
Qed.
Lemma neg_wt h e : bool_term h = true -> rm_neg h = ROk e -> bool_term e = true.
Proof.
  intros Hw H. apply rm_neg_ok in H. subst h. unfold bool_term, tNot in Hw. apply andb_true_iff in Hw. destruct Hw as [Hw _]. apply op_wt_of in Hw. destruct Hw as [Hw Ho].
  cbn [forallb map] in Hw, Ho. rewrite !andb_true_r in Hw. unfold bool_term. rewrite Hw. cbn in Ho. rewrite andb_true_r in Ho. exact Ho.
Qed.
Lemma wt_to_re t l : wt t = true -> as_op OStrToRe t = Some l -> l <> [].
Proof. intros Hw E. apply as_op_some in E. subst t. apply op_wt_of in Hw. destruct Hw as [_ Hw]. intros ->. discriminate. Qed.
Lemma wt_re o t l : In o [OReStar; OReConcat] -> wt t = true -> as_op o t = Some l -> l <> [] /\ forallb wt l = true.
Proof.
  intros Ho Hw E. apply as_op_some in E. subst t. apply op_wt_of in Hw. destruct Hw as [Hl Hw]. split; [|exact Hl]. intros ->. destruct Ho as [<-|[<-|[]]]; discriminate.
Qed.
Lemma np_unfold_pos t rs : forall n, forallb wt rs = true -> unfold_pos t rs n <> RPanic.
Proof.
  induction rs as [|r1 r2 IH]; intros n Hw; cbn [unfold_pos]; [discriminate|]. cbn [forallb] in Hw. apply andb_true_iff in Hw. destruct Hw as [Hw1 Hw2].
  apply np_bind; [apply IH, Hw2|]. intros [[c m] [pk pr]] _. destruct (as_op OStrToRe r1) as [[|s l]|] eqn:E; try discriminate. destruct (wt_to_re _ _ Hw1 E). reflexivity.
Qed.
Lemma star_mems t r1 l x : unfold_pos t [r1; TOp OReStar l; r1] 0 = ROk x -> exists a, snd (fst x) = TOp OAnd a.
Proof.
  cbn [unfold_pos obind as_op]. replace (op_eqb OReStar OStrToRe) with false by reflexivity. destruct (as_op OStrToRe r1) as [[|s k]|]; cbn [obind]; try discriminate;
  intros H; injection H as <-; cbn [fst snd]; eauto.
Qed.
Lemma bool_prem p ps h : forallb clause_wt (p :: ps) = true -> premise_term p = ROk h -> bool_term h = true.
Proof. apply (prem1 bool_term). Qed.
Lemma kleene_safe : psafe r_kleene_pos.
Proof.
  start. unfold r_kleene_pos. npstep. npstep. npstep. apply np_bind; [apply np_premise|]. intros h Hp. pose proof (bool_prem _ _ _ Hwp Hp) as Hh. apply np_bind; [np|]. intros [s r] Hs.
  pose proof (in_re_wt _ _ _ Hh Hs) as Hr. apply np_bind; [unfold kleene_shape; steps|]. intros _ _. cbn [fst snd].
  apply np_bind; [np|]. intros ra Hra. unfold m_ops in Hra. apply ok_or_ok in Hra. destruct (wt_re OReStar _ _ (or_introl eq_refl) Hr Hra) as [Hne Hwl]. destruct ra as [|r1 ra]; [congruence|].
  cbn [forallb] in Hwl. apply andb_true_iff in Hwl. destruct Hwl as [Hr1 _]. apply np_bind; [apply np_unfold_pos; cbn [forallb]; rewrite Hr1, Hr; reflexivity|].
  intros [[k m] z] Hx. apply as_op_some in Hra. subst r. apply star_mems in Hx. destruct Hx as [l Hm]. cbn [fst snd] in Hm. subst m.
  destruct (extract k) as [|k0 [|k1 [|k2 [|? ?]]]]; try discriminate. apply np_bind; [|intros; np]. discriminate.
Qed.
Lemma re_concat_pos_safe : psafe r_re_concat_pos.
Proof.
  start. unfold r_re_concat_pos. npstep. npstep. npstep. apply np_bind; [apply np_premise|]. intros h Hp. pose proof (bool_prem _ _ _ Hwp Hp) as Hh. apply np_bind; [np|]. intros [s r] Hs.
  pose proof (in_re_wt _ _ _ Hh Hs) as Hr. apply np_bind; [apply np_rassert|]. intros _ _. cbn [fst snd].
  apply np_bind; [np|]. intros ra Hra. unfold m_ops in Hra. apply ok_or_ok in Hra. destruct (wt_re OReConcat _ _ (or_intror (or_introl eq_refl)) Hr Hra) as [_ Hwl].
  apply np_bind; [apply np_unfold_pos, Hwl|]. intros [[k m] z] _. np.
Qed.
Lemma unfold_neg_safe : psafe r_unfold_neg.
Proof.
  start. unfold r_unfold_neg. npstep. npstep. npstep. apply np_bind; [apply np_premise|]. intros h Hp. pose proof (bool_prem _ _ _ Hwp Hp) as Hh. apply np_bind; [np|]. intros e He.
  pose proof (neg_wt _ _ Hh He) as Hb. apply np_bind; [np|]. intros [s r] Hs. pose proof (in_re_wt _ _ _ Hb Hs) as Hr. cbn [fst snd].
  destruct (as_op OReStar r) as [[|r1 l]|] eqn:E; [|np|].
  - destruct (wt_re OReStar _ _ (or_introl eq_refl) Hr E) as [Hne _]. congruence.
  - apply np_bind; [np|]. intros rs Hrs. unfold m_ops in Hrs. apply ok_or_ok in Hrs. destruct (wt_re OReConcat _ _ (or_intror (or_introl eq_refl)) Hr Hrs) as [Hne _]. destruct rs; [congruence|]. np.
Qed.
Lemma np_fold_len l : Forall (fun x : outcome nat => x <> RPanic) l -> forall acc, acc <> RPanic -> fold_left (fun acc x => do n <- acc ; do k <- x ; ROk (n + k)) l acc <> RPanic.
Proof.
  induction l as [|x l IH]; intros Hl acc Ha; [exact Ha|]. inversion Hl; subst. cbn [fold_left]. apply IH; auto. apply np_bind; [exact Ha|]. intros n _. apply np_bind; [assumption|]. discriminate.
Qed.
Lemma np_same_len l : Forall (fun x : outcome nat => x <> RPanic) l -> same_len l <> RPanic.
Proof.
  intros Hl. unfold same_len. destruct l as [|a r]; [discriminate|]. inversion Hl as [|? ? Ha Hr]; subst. apply np_bind; [exact Ha|]. intros n _.
  assert (G : forall acc : outcome nat, acc <> RPanic -> fold_left (fun (acc : outcome nat) x => do m <- acc ; do k <- x ; if Nat.eqb k n then ROk m else RErr) r acc <> RPanic); [|apply G; discriminate].
  clear - Hr. induction Hr as [|x r Hx _ IH]; intros acc Ha; [exact Ha|]. cbn [fold_left]. apply IH. apply np_bind; [exact Ha|]. intros m _. apply np_bind; [exact Hx|]. intros k _. destruct (Nat.eqb k n); discriminate.
Qed.
Lemma np_fixed_len r : wt r = true -> fixed_len r <> RPanic.
Proof.
  induction r as [c|x s|f l IHf H|o l H|s|b vs t IHt|bs t H IHt|o oa l Hoa H] using term_ind'; intros Hw; try discriminate. pose proof Hw as Hw'. apply op_wt_of in Hw'. destruct Hw' as [Hl Ho].
  rewrite Forall_forall in H. rewrite forallb_forall in Hl. cbn [fixed_len].
  destruct (op_eqb o OReConcat). { apply np_fold_len; [|discriminate]. apply Forall_forall. intros x Hx. apply in_map_iff in Hx. destruct Hx as [a [<- Ha]]. auto. }
  destruct (op_eqb o OReAllChar); [discriminate|]. destruct (op_eqb o OReRange); [discriminate|].
  destruct (op_eqb o OStrToRe) eqn:E. { apply op_eqb_eq in E. subst o. destruct l as [|a l]; [discriminate|]. destruct a as [k| | | | | | |]; try discriminate. destruct k; discriminate. }
  destruct (op_eqb o OReUnion). { apply np_same_len. apply Forall_forall. intros x Hx. apply in_flat_map in Hx. destruct Hx as [a [Ha Hx]]. destruct (op_is OReNone a); [destruct Hx|]. destruct Hx as [<-|[]]. auto. }
  destruct (op_eqb o OReInter); [|discriminate]. apply np_same_len. apply Forall_forall. intros x Hx. apply in_flat_map in Hx. destruct Hx as [a [Ha Hx]]. destruct (op_is OReAll a); [destruct Hx|]. destruct Hx as [<-|[]]. auto.
Qed.
Lemma neg_fixed_prefix_safe : rule_safe r_neg_fixed_prefix.
Proof.
  intros c ps args Hwc Hwp Hsm. unfold r_neg_fixed_prefix. npstep. npstep. npstep. apply np_bind; [np|]. intros _ _. apply np_bind; [apply np_premise|]. intros h Hp.
  pose proof (bool_prem _ _ _ Hwp Hp) as Hh. apply np_bind; [np|]. intros e He. pose proof (neg_wt _ _ Hh He) as Hb. apply np_bind; [np|]. intros [s r] Hs. pose proof (in_re_wt _ _ _ Hb Hs) as Hr. cbn [fst snd].
  apply np_bind; [np|]. intros rs Hrs. unfold m_ops in Hrs. apply ok_or_ok in Hrs. destruct (wt_re OReConcat _ _ (or_intror (or_introl eq_refl)) Hr Hrs) as [Hne Hwl]. destruct rs as [|r1 r2]; [congruence|].
  apply fcons in Hwl. destruct Hwl as [Hr1 _]. apply np_bind; [apply np_fixed_len, Hr1|]. intros. np.
Qed.
Lemma neg_fixed_suffix_safe : rule_safe r_neg_fixed_suffix.
Proof.
  intros c ps args Hwc Hwp Hsm. unfold r_neg_fixed_suffix. npstep. npstep. npstep. apply np_bind; [np|]. intros _ _. apply np_bind; [apply np_premise|]. intros h Hp.
  pose proof (bool_prem _ _ _ Hwp Hp) as Hh. apply np_bind; [np|]. intros e He. pose proof (neg_wt _ _ Hh He) as Hb. apply np_bind; [np|]. intros [s r] Hs. pose proof (in_re_wt _ _ _ Hb Hs) as Hr. cbn [fst snd].
  apply np_bind; [np|]. intros rs Hrs. unfold m_ops in Hrs. apply ok_or_ok in Hrs. destruct (wt_re OReConcat _ _ (or_intror (or_introl eq_refl)) Hr Hrs) as [Hne Hwl].
  destruct (rev rs) as [|r1 r2] eqn:E. { apply (f_equal (@rev _)) in E. rewrite rev_involutive in E. cbn in E. congruence. }
  assert (Hr1 : wt r1 = true). { rewrite forallb_forall in Hwl. apply Hwl. apply in_rev. rewrite E. left; reflexivity. }
  apply np_bind; [apply np_fixed_len, Hr1|]. intros. np.
Qed.

(** all but concat_cprop_prefix and concat_cprop_suffix *)
Definition cprop_names : list string := ["concat_cprop_prefix"; "concat_cprop_suffix"]%string.
Lemma str_safe n r ok : In (n, (r, ok)) str_partial -> memb String.eqb n cprop_names = false -> psafe r.
Proof.
  intros H Hn. unfold str_partial in H. cbn [In] in H. repeat match type of H with _ \/ _ => destruct H as [H|H] end; [..|destruct H]; injection H as <- <- _; try discriminate Hn;
  auto using concat_eq_safe, concat_unify_safe, concat_conflict_safe, csplit_prefix_safe, csplit_suffix_safe, split_safe, lprop_safe, decompose_safe, length_pos_safe, length_non_empty_safe,
    re_inter_safe, kleene_safe, re_concat_pos_safe, unfold_neg_safe.
Qed.
