(** The bit-blasting rules never panic on terms of positive width (bitblast_equal: between bit vectors). *)
From Coq Require Import List String ZArith NArith Bool Arith Lia.
From Verif Require Import Base Term Sem Sorting Rules PolyeqSound R_Bv NoPanic.
Import ListNotations.
Local Open Scope nat_scope.

Definition pos_sort (s : sort) : bool := match s with SBV 0 => false | _ => true end.
(** no argument of the left-hand side of the conclusion is a bit vector of width zero *)
Definition pos_args (t : term) : bool := match t with TOp _ l | TPOp _ _ l => forallb (fun a => pos_sort (sort_of a)) l | _ => true end.
Definition pos_clause (c : clause) : bool := forallb (fun t => match t with TOp _ l => forallb pos_args l | _ => true end) c.

Lemma wt_op_sort' o l : wt (TOp o l) = true -> sort_of (TOp o l) = op_sort o (map sort_of l).
Proof. intros H. apply op_wt_of in H. apply sort_of_op. intros ->. destruct H. discriminate. Qed.
Lemma np_bits t n : wt t = true -> sort_of t = SBV n -> bits_of t n <> RPanic.
Proof.
  intros Hw Hs. unfold bits_of, build_term_vec. destruct (as_op OBvBbTerm t) as [l|] eqn:E.
  - apply as_op_some in E. subst t. rewrite wt_op_sort' in Hs by exact Hw. cbn [op_sort] in Hs. rewrite map_length in Hs. injection Hs as <-.
    rewrite Nat.leb_refl. discriminate.
  - rewrite map_length, seq_length, Nat.leb_refl. discriminate.
Qed.
Lemma np_bv_size t n : sort_of t = SBV n -> bv_size t <> RPanic.
Proof. intros H. unfold bv_size. rewrite H. discriminate. Qed.
Lemma bv_size_ok t n : bv_size t = ROk n -> sort_of t = SBV n.
Proof. unfold bv_size. destruct (sort_of t); try discriminate. intros H. injection H as ->. reflexivity. Qed.
Lemma is_bv s : is_bv_sort s = true -> exists n, s = SBV n.
Proof. destruct s; try discriminate. eauto. Qed.

(** the conclusion of a rule: an equality of two terms of the same sort *)
Lemma concl_eq t lr : m_op2 OEquals t = ROk lr -> clause_wt [t] = true -> pos_clause [t] = true ->
  wt (fst lr) = true /\ wt (snd lr) = true /\ pos_args (fst lr) = true /\ sort_of (fst lr) = sort_of (snd lr).
Proof.
  intros H Hw Hp. apply m_op2_ok in H. subst t. unfold clause_wt, pos_clause in *. cbn [forallb] in Hw, Hp. rewrite !andb_true_r in Hw, Hp.
  unfold bool_term in Hw. apply andb_true_iff in Hw. destruct Hw as [Hw _]. apply op_wt_of in Hw. destruct Hw as [Hw Ho]. cbn [forallb] in Hw.
  rewrite andb_true_r in Hw. apply andb_true_iff in Hw, Hp. cbn [map] in Ho.
  repeat split; try tauto. apply sort_eqb_eq. cbn in Ho. rewrite andb_true_r in Ho. exact Ho.
Qed.
Lemma mul_rows_len x y size : 0 < size -> List.length (nth (size - 1) (mul_rows x y size) []) = size.
Proof.
  intros Hs. unfold mul_rows.
  assert (G : forall js rows, Forall (fun r => List.length r = size) rows ->
    let rs := fold_left (fun rows j => (rows ++ [mul_res (get (mul_shift x y size 0) 0) rows (nth (j - 1) rows []) (mul_shift x y size j)
        (mul_carry (nth (j - 1) rows []) (mul_shift x y size j) size j) size j])%list) js rows in
    Forall (fun r => List.length r = size) rs /\ List.length rs = List.length rows + List.length js).
  { induction js as [|j js IH]; intros rows Hf; cbn [fold_left List.length]; [split; [auto|lia]|].
    destruct (IH (rows ++ [mul_res (get (mul_shift x y size 0) 0) rows (nth (j - 1) rows []) (mul_shift x y size j)
        (mul_carry (nth (j - 1) rows []) (mul_shift x y size j) size j) size j])%list) as [H1 H2].
    - apply Forall_app. split; [auto|]. constructor; [|constructor]. unfold mul_res. rewrite map_length, seq_length. auto.
    - split; [exact H1|]. rewrite H2, app_length. cbn [List.length]. lia. }
  destruct (G (seq 1 (size - 1)) [map (get (mul_shift x y size 0)) (seq 0 size)]) as [H1 H2].
  { constructor; [rewrite map_length, seq_length; auto|constructor]. }
  rewrite Forall_forall in H1. apply H1. apply nth_In. rewrite H2, seq_length. cbn [List.length]. lia.
Qed.
Definition vec_ok (n : nat) (t : term) : Prop := bits_of t n <> RPanic.
Lemma vec_bb n l : List.length l = n -> vec_ok n (tBb l).
Proof. intros <-. unfold vec_ok, bits_of, build_term_vec, tBb. cbn [as_op]. unfold as_op. rewrite (proj2 (op_eqb_eq _ _) eq_refl), Nat.leb_refl. discriminate. Qed.
Lemma np_ofold n (f : term -> term -> outcome term) :
  (forall x y, vec_ok n x -> vec_ok n y -> f x y <> RPanic) -> (forall x y z, f x y = ROk z -> vec_ok n z) ->
  forall l a, vec_ok n a -> Forall (vec_ok n) l -> ofold f a l <> RPanic.
Proof.
  intros H1 H2. induction l as [|b l IH]; intros a Ha Hl; cbn [ofold]; [discriminate|]. inversion Hl; subst.
  apply np_bind; [auto|]. intros z Hz. apply IH; auto. eapply H2; eauto.
Qed.
Lemma bv_all_eq ss : forallb is_bv_sort ss = true -> all_eq ss = true -> exists n, forall s, In s ss -> s = SBV n.
Proof.
  induction ss as [|a [|b r] IH]; intros H1 H2.
  - exists 0. intros s [].
  - cbn [forallb] in H1. rewrite andb_true_r in H1. apply is_bv in H1. destruct H1 as [n ->]. exists n. intros s [<-|[]]. auto.
  - cbn [forallb] in H1. apply andb_true_iff in H1. destruct H1 as [Ha H1]. cbn [all_eq] in H2. apply andb_true_iff in H2. destruct H2 as [He H2].
    destruct (IH H1 H2) as [n Hn]. exists n. apply sort_eqb_eq in He. intros s [<-|Hs]; [rewrite He; apply Hn; left; auto|apply Hn; auto].
Qed.
Lemma nary_safe o f : In o [OBvAdd; OBvMul; OBvAnd; OBvOr; OBvXor] ->
  (forall n x y, 0 < n -> vec_ok n x -> vec_ok n y -> f n x y <> RPanic) -> (forall n x y z, 0 < n -> f n x y = ROk z -> vec_ok n z) ->
  forall c ps args, clause_wt c = true -> pos_clause c = true -> r_bb_nary o f c ps args <> RPanic.
Proof.
  intros Ho H1 H2 c ps args Hw Hp. unfold r_bb_nary. apply np_bind; [apply np_len_is|]. intros u0 Hlen0; apply len_is_ok in Hlen0. len_split Hlen0. cbn [idx nth_error unwrap obind]. apply np_bind; [apply np_m_op2|].
  intros lr Hlr. apply concl_eq in Hlr; auto. destruct Hlr as [Hl [_ [Hpos _]]]. apply np_bind; [apply np_m_ops|]. intros l Hm. apply m_ops_ok in Hm.
  rewrite Hm in Hl, Hpos. apply op_wt_of in Hl. destruct Hl as [Hl Ho']. cbn [pos_args] in Hpos.
  assert (Hb : min_len 2 (map sort_of l) = true /\ forallb is_bv_sort (map sort_of l) = true /\ all_eq (map sort_of l) = true).
  { repeat (destruct Ho as [<-|Ho]; [cbn [op_wt] in Ho'; apply andb_true_iff in Ho'; destruct Ho' as [Ho' ?]; apply andb_true_iff in Ho'; tauto|]). destruct Ho. }
  destruct Hb as [Hlen [Hb He]]. destruct (bv_all_eq _ Hb He) as [n Hn].
  assert (Hsz : forall a, In a l -> sort_of a = SBV n) by (intros a Ha; apply Hn, in_map; auto).
  rewrite forallb_forall in Hl, Hpos.
  destruct l as [|a0 l]; [discriminate|]. cbn [idx nth_error unwrap obind].
  apply np_bind; [eapply np_bv_size, Hsz; left; auto|]. intros size Hs. apply bv_size_ok in Hs. rewrite (Hsz a0 (or_introl eq_refl)) in Hs. injection Hs as <-.
  assert (H0 : 0 < n).
  { specialize (Hpos a0 (or_introl eq_refl)). rewrite (Hsz a0 (or_introl eq_refl)) in Hpos. destruct n; [discriminate|lia]. }
  assert (Hv : forall a, In a (a0 :: l) -> vec_ok n a) by (intros a Ha; apply np_bits; auto).
  apply np_bind.
  { apply np_ofor. intros a Ha. apply np_bind; [eapply np_bv_size, Hsz; auto|intros; apply np_rassert]. }
  intros _ _. apply np_bind; [|intros; apply np_teq].
  apply (np_ofold n); [intros; apply H1; auto|intros x y z; apply H2; auto|apply Hv; left; auto|].
  apply Forall_forall. intros a Ha. apply Hv. right. exact Ha.
Qed.
Lemma bitwise_safe g : (forall n x y, 0 < n -> vec_ok n x -> vec_ok n y -> bb_bitwise g n x y <> RPanic) /\ (forall n x y z, 0 < n -> bb_bitwise g n x y = ROk z -> vec_ok n z).
Proof.
  split.
  - intros n x y _ Hx Hy. unfold bb_bitwise. apply np_bind; [exact Hx|]. intros X _. apply np_bind; [exact Hy|discriminate].
  - intros n x y z _ H. unfold bb_bitwise in H. apply obind_ok in H. destruct H as [X [_ H]]. apply obind_ok in H. destruct H as [Y [_ H]]. injection H as <-.
    apply vec_bb. rewrite map_length, seq_length. auto.
Qed.
Lemma bin_safe o f : In o [OBvXNor; OBvULt; OBvSLt; OBvComp] -> (forall n x y, 0 < n -> f n x y <> RPanic) ->
  forall c ps args, clause_wt c = true -> pos_clause c = true -> r_bb_bin o f c ps args <> RPanic.
Proof.
  intros Ho H1 c ps args Hw Hp. unfold r_bb_bin. apply np_bind; [apply np_len_is|]. intros u0 Hlen0; apply len_is_ok in Hlen0. len_split Hlen0. cbn [idx nth_error unwrap obind]. apply np_bind; [apply np_m_op2|].
  intros lr Hlr. apply concl_eq in Hlr; auto. destruct Hlr as [Hl [_ [Hpos _]]]. apply np_bind; [apply np_m_op2|]. intros [x y] Hm. apply m_op2_ok in Hm. cbn [fst snd] in *.
  rewrite Hm in Hl, Hpos. apply op_wt_of in Hl. destruct Hl as [Hl Ho']. cbn [pos_args map forallb] in *. rewrite andb_true_r in Hl, Hpos. apply andb_true_iff in Hl, Hpos.
  assert (Hb : is_bv_sort (sort_of x) = true /\ sort_eqb (sort_of x) (sort_of y) = true).
  { repeat (destruct Ho as [<-|Ho]; [cbn [op_wt] in Ho'; apply andb_true_iff in Ho'; exact Ho'|]). destruct Ho. }
  destruct Hb as [Hb He]. apply is_bv in Hb. destruct Hb as [n Hn]. apply sort_eqb_eq in He. rewrite Hn in He.
  apply np_bind; [eapply np_bv_size; eauto|]. intros size Hs. apply bv_size_ok in Hs. rewrite Hn in Hs. injection Hs as <-.
  assert (H0 : 0 < n) by (destruct Hpos as [Hpos _]; rewrite Hn in Hpos; destruct n; [discriminate|lia]).
  apply np_bind; [apply np_bits; tauto|]. intros X _. apply np_bind; [apply np_bits; [tauto|auto]|]. intros Y _.
  apply np_bind; [apply H1; auto|intros; apply np_teq].
Qed.
Lemma un_safe o f : In o [OBvNot; OBvNeg] -> forall c ps args, clause_wt c = true -> pos_clause c = true -> r_bb_un o f c ps args <> RPanic.
Proof.
  intros Ho c ps args Hw Hp. unfold r_bb_un. apply np_bind; [apply np_len_is|]. intros u0 Hlen0; apply len_is_ok in Hlen0. len_split Hlen0. cbn [idx nth_error unwrap obind]. apply np_bind; [apply np_m_op2|].
  intros lr Hlr. apply concl_eq in Hlr; auto. destruct Hlr as [Hl [_ [Hpos _]]]. apply np_bind; [apply np_m_op1|]. intros x Hm. apply m_op1_ok in Hm.
  rewrite Hm in Hl. apply op_wt_of in Hl. destruct Hl as [Hl Ho']. cbn [map forallb] in *. rewrite andb_true_r in Hl.
  assert (Hb : is_bv_sort (sort_of x) = true) by (repeat (destruct Ho as [<-|Ho]; [exact Ho'|]); destruct Ho). apply is_bv in Hb. destruct Hb as [n Hn].
  apply np_bind; [eapply np_bv_size; eauto|]. intros size Hs. apply bv_size_ok in Hs. rewrite Hn in Hs. injection Hs as <-.
  apply np_bind; [apply np_bits; auto|]. intros; apply np_teq.
Qed.
Lemma np_conj n x y : 0 < n -> conj_eqs n x y <> RPanic.
Proof.
  intros H. unfold conj_eqs, bit_eqs. destruct n; [lia|]. cbn [seq map]. destruct (map _ (seq 1 n)); discriminate.
Qed.
Lemma extract_safe c ps args : clause_wt c = true -> pos_clause c = true -> r_bb_extract c ps args <> RPanic.
Proof.
  intros Hw Hp. unfold r_bb_extract. apply np_bind; [apply np_len_is|]. intros u0 Hlen0; apply len_is_ok in Hlen0. len_split Hlen0. cbn [idx nth_error unwrap obind]. apply np_bind; [apply np_m_op2|].
  intros lr Hlr. apply concl_eq in Hlr; auto. destruct Hlr as [Hl [Hr [_ Hs]]]. apply np_bind; [apply np_m_ops|]. intros bits Hm. apply m_ops_ok in Hm.
  destruct (fst lr) as [| | | | | | |p oargs l]; try discriminate. destruct p; try discriminate.
  destruct oargs as [|i0 [|tj [|? ?]]]; try discriminate. destruct l as [|x [|? ?]]; try discriminate.
  cbn [wt forallb map] in Hl. apply andb_true_iff in Hl. destruct Hl as [Hx Hl]. cbn [pop_wt map] in Hl.
  destruct (as_const_nat i0) as [i|] eqn:Ei; [|discriminate]. destruct (as_const_nat tj) as [j|] eqn:Ej; [|discriminate].
  destruct (sort_of x) as [| | | | | | | | |m| |] eqn:Esx; try discriminate. apply andb_true_iff in Hl. destruct Hl as [Him Hji].
  apply Nat.ltb_lt in Him. apply Nat.leb_le in Hji. cbn [unwrap obind].
  assert (Hb : List.length bits = i - j + 1).
  { rewrite Hm in Hr, Hs. rewrite (wt_op_sort' _ _ Hr) in Hs. cbn [op_sort sort_of pop_sort map] in Hs. rewrite Ei, Ej in Hs.
    rewrite (proj2 (Nat.leb_le _ _) Hji), map_length in Hs. injection Hs as Hs. lia. }
  assert (G : forall e l k, (forall q, k <= q < k + List.length l -> e q <> RPanic) -> extract_loop e k l <> RPanic).
  { intros e l. induction l as [|a l IH]; intros k He; cbn [extract_loop]; [discriminate|]. cbn [List.length] in He.
    apply np_bind; [apply He; lia|]. intros b _. apply np_bind; [apply np_teq|]. intros _ _. apply IH. intros q Hq. apply He. lia. }
  destruct (as_op OBvBbTerm x) as [l|] eqn:Ex; apply G; intros q Hq; [|discriminate].
  apply as_op_some in Ex. subst x. rewrite andb_true_r in Hx. rewrite (wt_op_sort' _ _ Hx) in Esx. cbn [op_sort] in Esx. rewrite map_length in Esx. injection Esx as Esx.
  apply idx_lt. lia.
Qed.
Lemma concat_safe c ps args : clause_wt c = true -> pos_clause c = true -> r_bb_concat c ps args <> RPanic.
Proof.
  intros Hw Hp. unfold r_bb_concat. apply np_bind; [apply np_len_is|]. intros u0 Hlen0; apply len_is_ok in Hlen0. len_split Hlen0. cbn [idx nth_error unwrap obind]. apply np_bind; [apply np_m_op2|].
  intros lr Hlr. apply concl_eq in Hlr; auto. destruct Hlr as [Hl [Hr [_ Hs]]]. apply np_bind; [apply np_m_ops|]. intros l Hm. apply m_ops_ok in Hm.
  apply np_bind; [apply np_m_ops|]. intros res _. apply np_bind; [apply np_rassert|]. intros _ _.
  rewrite Hm in Hl. apply op_wt_of in Hl. destruct Hl as [_ Ho]. cbn [op_wt] in Ho. apply andb_true_iff in Ho. destruct Ho as [_ Ho].
  assert (G : forall a, In a (rev l) -> exists n, sort_of a = SBV n).
  { intros a Ha. apply is_bv. rewrite forallb_forall in Ho. apply Ho, in_map, in_rev, Ha. }
  apply np_bind; [|intros; apply np_bind; [apply np_rassert|intros; apply np_teq]].
  induction (rev l) as [|a r IH]; cbn [concat_bits]; [discriminate|]. destruct (G a (or_introl eq_refl)) as [n Hn].
  apply np_bind; [eapply np_bv_size; eauto|]. intros w _. apply np_bind; [apply IH; intros; apply G; right; auto|discriminate].
Qed.
Lemma sign_extend_safe c ps args : clause_wt c = true -> pos_clause c = true -> r_bb_sign_extend c ps args <> RPanic.
Proof.
  intros Hw Hp. unfold r_bb_sign_extend. apply np_bind; [apply np_len_is|]. intros u0 Hlen0; apply len_is_ok in Hlen0. len_split Hlen0. cbn [idx nth_error unwrap obind]. apply np_bind; [apply np_m_op2|].
  intros lr Hlr. apply concl_eq in Hlr; auto. destruct Hlr as [Hl [Hr [Hpos Hs]]].
  destruct (fst lr) as [| | | | | | |p oargs l]; try discriminate. destruct p; try discriminate.
  destruct oargs as [|i0 [|? ?]]; try discriminate. destruct l as [|x [|? ?]]; try discriminate.
  cbn [wt forallb map] in Hl. apply andb_true_iff in Hl. destruct Hl as [Hx Hl]. rewrite andb_true_r in Hx. cbn [pop_wt map] in Hl.
  destruct (as_const_nat i0) as [i|] eqn:Ei; [|discriminate]. cbn [pos_args forallb] in Hpos.
  destruct (sort_of x) as [| | | | | | | | |m| |] eqn:Esx; try discriminate. cbn [unwrap obind].
  destruct (Nat.eqb i 0); [apply np_teq|]. apply np_bind; [eapply np_bv_size; eauto|]. intros size Hz. apply bv_size_ok in Hz. rewrite Esx in Hz. injection Hz as <-.
  apply np_bind; [apply np_bits; auto|]. intros xs _. destruct m; [discriminate|]. cbn [Nat.eqb]. apply np_teq.
Qed.
Lemma np_const_bits l : const_bits l <> RPanic.
Proof.
  induction l as [|a l IH]; cbn [const_bits]; [discriminate|]. apply np_bind; [np|]. intros b _. apply np_bind; [exact IH|discriminate].
Qed.
(** equality of bit vectors *)
Definition bv_equation (c : clause) : bool :=
  match c with [TOp OEquals [TOp OEquals [x; _]; _]] => is_bv_sort (sort_of x) | _ => true end.
Lemma equal_safe c ps args : clause_wt c = true -> pos_clause c = true -> bv_equation c = true -> r_bb_equal c ps args <> RPanic.
Proof.
  intros Hw Hp Hbv. unfold r_bb_equal, r_bb_bin. apply np_bind; [apply np_len_is|]. intros u0 Hlen0; apply len_is_ok in Hlen0. len_split Hlen0. cbn [idx nth_error unwrap obind]. apply np_bind; [apply np_m_op2|].
  intros lr Hlr. pose proof (m_op2_ok _ _ _ Hlr) as Et. apply concl_eq in Hlr; auto. destruct Hlr as [Hl [_ [Hpos _]]].
  apply np_bind; [apply np_m_op2|]. intros [x y] Hm. apply m_op2_ok in Hm. cbn [fst snd] in *.
  rewrite Et, Hm in Hbv. cbn [bv_equation] in Hbv.
  rewrite Hm in Hl, Hpos. apply op_wt_of in Hl. destruct Hl as [Hl Ho']. cbn [pos_args map forallb] in *. rewrite andb_true_r in Hl, Hpos. apply andb_true_iff in Hl, Hpos.
  apply is_bv in Hbv. destruct Hbv as [n Hn]. cbn in Ho'. rewrite andb_true_r in Ho'. apply sort_eqb_eq in Ho'. rewrite Hn in Ho'.
  apply np_bind; [eapply np_bv_size; eauto|]. intros size Hs. apply bv_size_ok in Hs. rewrite Hn in Hs. injection Hs as <-.
  assert (H0 : 0 < n) by (destruct Hpos as [Hpos _]; rewrite Hn in Hpos; destruct n; [discriminate|lia]).
  apply np_bind; [apply np_bits; tauto|]. intros X _. apply np_bind; [apply np_bits; [tauto|auto]|]. intros Y _.
  apply np_bind; [apply np_conj; auto|intros; apply np_teq].
Qed.
Theorem bv_safe name r : In (name, r) bv_rules -> forall c ps args,
  clause_wt c = true -> pos_clause c = true -> (name = "bitblast_equal"%string -> bv_equation c = true) -> r c ps args <> RPanic.
Proof.
  intros H c ps args Hw Hp He. unfold bv_rules in H. cbn [In] in H.
  repeat match type of H with _ \/ _ => destruct H as [H|H] end; [..|destruct H]; injection H as Hname <-.
  - unfold r_bb_const. np; apply np_const_bits.
  - unfold r_bb_var. np.
  - apply nary_safe; auto; [cbn; tauto|apply (bitwise_safe tAnd2)..].
  - apply nary_safe; auto; [cbn; tauto|apply (bitwise_safe tOr2)..].
  - apply nary_safe; auto; [cbn; tauto|apply (bitwise_safe tXor2)..].
  - apply bin_safe; auto; [cbn; tauto|discriminate].
  - apply un_safe; auto. cbn; tauto.
  - apply bin_safe; auto; [cbn; tauto|]. intros n x y Hn. apply np_bind; [apply np_conj; auto|discriminate].
  - apply bin_safe; auto; [cbn; tauto|]. intros [|n] x y Hn; [lia|discriminate].
  - apply bin_safe; auto; [cbn; tauto|]. intros [|[|n]] x y Hn; [lia|discriminate..].
  - apply nary_safe; auto; [cbn; tauto| |].
    + intros n x y _ Hx Hy. apply np_bind; [exact Hx|]. intros X _. apply np_bind; [exact Hy|discriminate].
    + intros n x y z _ Hz. unfold ripple_carry_adder in Hz. apply obind_ok in Hz. destruct Hz as [X [_ Hz]]. apply obind_ok in Hz. destruct Hz as [Y [_ Hz]].
      injection Hz as <-. apply vec_bb. unfold sums. rewrite map_length, seq_length. auto.
  - apply nary_safe; auto; [cbn; tauto| |].
    + intros [|n] x y Hn Hx Hy; [lia|]. apply np_bind; [exact Hx|]. intros X _. apply np_bind; [exact Hy|discriminate].
    + intros n x y z Hn Hz. unfold shift_add_multiplier in Hz. apply obind_ok in Hz. destruct Hz as [X [_ Hz]]. apply obind_ok in Hz. destruct Hz as [Y [_ Hz]].
      destruct (Nat.eqb n 0); [discriminate|]. injection Hz as <-. apply vec_bb, mul_rows_len, Hn.
  - apply un_safe; auto. cbn; tauto.
  - apply equal_safe; auto.
  - apply extract_safe; auto.
  - apply concat_safe; auto.
  - apply sign_extend_safe; auto.
Qed.
