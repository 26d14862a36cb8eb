(** Soundness of the pseudo-Boolean bit-blasting rules (pb_blasting.rs) under the conditions of R_PB.v. *)
From Coq Require Import List String ZArith Bool Arith Lia.
From Verif Require Import Base Field Term Sem Rules Sorting Num PolyeqSound R_AC R_Simp R_LA PolySound EvalSound R_CP CPSound R_Bv BvSound R_PB.
Import ListNotations.
Local Open Scope nat_scope.

Lemma wt_bind_body b vs t : wt (TBind b vs t) = true -> wt t = true.
Proof. intros H. change (wt t && min_len 1 vs && match b with BLambda => true | BChoice => Nat.eqb (List.length vs) 1 && sort_eqb (sort_of t) SBool | _ => sort_eqb (sort_of t) SBool end = true) in H. rewrite !andb_true_iff in H. tauto. Qed.
Lemma wt_choice_one v vs t : wt (TBind BChoice (v :: vs) t) = true -> vs = [].
Proof.
  intros H. change (wt t && min_len 1 (v :: vs) && (Nat.eqb (List.length (v :: vs)) 1 && sort_eqb (sort_of t) SBool) = true) in H. rewrite !andb_true_iff in H.
  destruct H as [_ [H _]]. apply Nat.eqb_eq in H. destruct vs; [auto|discriminate].
Qed.
(** ** Values of sums *)
Section Sums.
  Context {I : interp}.
  Add Field pbf : (o_th (iF I)).
  Local Open Scope of_scope.
  Notation sumv E l := (fold_right (fun a acc => nval E a + acc) 0 l).
  Definition zbit (E : env I) (t : term) (i : nat) : bool := Z.testbit (bvz (eval t E)) (Z.of_nat i).
  Lemma as_int_const t z : as_integer_err t = ROk z -> t = TConst (CInt z).
  Proof.
    intros H. unfold as_integer_err in H. apply ok_or_ok in H. destruct t as [c| | | | | | |]; try discriminate. destruct c; try discriminate. cbn in H. congruence.
  Qed.
  Lemma nval_intof (E : env I) x i : nval E (int_of i x) = inj (b2z (zbit E x i)).
  Proof.
    unfold nval, int_of, zbit, b2z. cbn [eval map]. unfold eval_pop. cbn [map]. unfold as_const_nat, as_const_int.
    rewrite (proj2 (Z.leb_le 0 (Z.of_nat i))) by lia. rewrite Nat2Z.id. reflexivity.
  Qed.
  Lemma as_intof_some t p : as_intof t = Some p -> t = TPOp PBvIntOf [fst p] [snd p].
  Proof.
    destruct t as [| | | | | | |o oa l]; try discriminate. cbn. destruct o; try discriminate. destruct oa as [|i [|]]; try discriminate. destruct l as [|x [|]]; try discriminate.
    intros [= <-]. reflexivity.
  Qed.
  Lemma intof_val (E : env I) t p z i : as_intof t = Some p -> as_integer_err (fst p) = ROk z -> z = Z.of_nat i -> nval E t = inj (b2z (zbit E (snd p) i)).
  Proof. intros H H1 ->. apply as_intof_some in H. apply as_int_const in H1. rewrite H, H1. apply nval_intof. Qed.
  Lemma summand_val (E : env I) bv i e : pb_summand bv i e = ROk tt -> nval E e = inj (shl1 i * b2z (zbit E bv i)).
  Proof.
    intros H. unfold pb_summand in H. st H r Hr. destruct r as [c [ix b]]. st H k Hk. unpack. apply Z.eqb_eq in Hx, Hx0. apply teq_ok in H. subst.
    assert (Hp : forall r, (if Nat.eqb i 0 then do p <- ok_or (as_intof e) ; ROk (1%Z, p) else RErr) = ROk r -> r = (shl1 i, (ix, bv)) ->
      nval E e = inj (shl1 i * b2z (zbit E bv i))).
    { intros r. destruct (Nat.eqb i 0) eqn:E0; [|discriminate]. apply Nat.eqb_eq in E0. subst i. intros H1 H2. st H1 p Hp. apply ok_or_ok in Hp.
      injection H1 as <-. injection H2 as ->. rewrite (intof_val E e _ _ 0 Hp Hk eq_refl). cbn [snd]. f_equal. unfold shl1. cbn [Z.of_nat]. lia. }
    destruct (op2 OMult e) as [[c y]|] eqn:Ho; [|apply (Hp _ Hr eq_refl)]. destruct (as_intof y) as [p|] eqn:Hy; [|apply (Hp _ Hr eq_refl)].
    clear Hp. st Hr z Hz. injection Hr as -> ->. apply op2_some in Ho. apply as_int_const in Hz. subst e c. rewrite nval_mult2.
    rewrite (intof_val E y _ _ i Hy Hk eq_refl), inj_mul. reflexivity.
  Qed.
  Lemma for_i_sum (E : env I) (F : nat -> term -> outcome unit) (f : nat -> bool) :
    (forall i e, F i e = ROk tt -> nval E e = inj (shl1 i * b2z (f i))) ->
    forall l i, for_i F i l = ROk tt -> sumv E l = inj (shl1 i * bits_val (map f (seq i (List.length l)))).
  Proof.
    intros HF. induction l as [|a r IH]; intros i H; cbn [fold_right List.length seq map bits_val].
    - rewrite Z.mul_0_r, inj_0. reflexivity.
    - cbn [for_i] in H. st H u Hu. destruct u. rewrite (HF _ _ Hu), (IH _ H), <- inj_add. f_equal. unfold shl1. rewrite Nat2Z.inj_succ, Z.pow_succ_r by lia. unfold b2z. lia.
  Qed.
  Lemma pb_sum_val (E : env I) t l : pb_sum t l = ROk tt -> sumv E l = inj (bv (zbit E t) (List.length l)).
  Proof.
    intros H. unfold pb_sum in H. st H w Hw. unpack. rewrite (for_i_sum E _ (zbit E t) (summand_val E t) l 0 H). f_equal.
    unfold shl1, bv. cbn [Z.of_nat]. lia.
  Qed.
  (** the elements of a pbbterm *)
  Lemma pbb_bit (E : env I) l i e : nth_error l i = Some e -> zbit E (TOp OBvPBbTerm l) i = oeqb (nval E e) 1.
  Proof.
    intros H. unfold zbit. cbn [eval eval_op bvz]. rewrite testbit_bits, map_map. rewrite (nth_error_nth _ _ false (map_nth_error _ _ _ H)). reflexivity.
  Qed.
  Lemma short_summand_val (E : env I) l i e : (forall p, In p l -> exists b, nval E p = inj (b2z b)) ->
    pb_short_summand l i e = ROk tt -> nval E e = inj (shl1 i * b2z (zbit E (TOp OBvPBbTerm l) i)).
  Proof.
    intros Hb H. unfold pb_short_summand in H. st H r Hr. unpack. apply Z.eqb_eq in Hx. apply idx_ok in Hx0. apply teq_ok in H.
    rewrite (pbb_bit E _ _ _ Hx0). destruct (Hb _ (nth_error_In _ _ Hx0)) as [b Hbv]. rewrite Hbv.
    replace (oeqb (inj (b2z b)) 1) with b by (rewrite <- (inj_1 (iF I)), inj_eqb; destruct b; reflexivity).
    destruct (op2 OMult e) as [[c y]|] eqn:Ho.
    - st Hr z Hz. injection Hr as <-. cbn [fst snd] in *. apply op2_some in Ho. apply as_int_const in Hz. subst. rewrite nval_mult2, Hbv, inj_mul. reflexivity.
    - destruct (Nat.eqb i 0) eqn:E0; [|discriminate]. apply Nat.eqb_eq in E0. injection Hr as <-. cbn [fst snd] in *. subst. rewrite Hbv. f_equal. unfold shl1. cbn [Z.of_nat]. lia.
  Qed.
  Lemma short_sum_val (E : env I) l s : (forall p, In p l -> exists b, nval E p = inj (b2z b)) ->
    pb_short_sum l s = ROk tt -> sumv E s = inj (bv (zbit E (TOp OBvPBbTerm l)) (List.length s)).
  Proof.
    intros Hb H. unfold pb_short_sum in H. unpack. rewrite (for_i_sum E _ _ (fun i e => short_summand_val E l i e Hb) s 0 H). f_equal.
    unfold shl1, bv. cbn [Z.of_nat]. lia.
  Qed.

  (** ** Choice terms *)
  Lemma nval_no_z (E : env I) t v : no_z t = true -> nval (upd E "z" SInt v) t = nval E t.
  Proof.
    intros H. unfold nval. f_equal. apply eval_agree. intros x s Hx. apply upd_other. intros [= -> ->]. unfold no_z in H. rewrite Hx in H. discriminate.
  Qed.
  Lemma choice_char (E : env I) t (P : Z -> bool) : (forall k, holds (upd E "z" SInt (vint k)) t = P k) -> (exists k, P k = true) ->
    exists k, nval E (TBind BChoice [("z"%string, SInt)] t) = inj k /\ P k = true.
  Proof.
    intros Ht [k Hk]. set (f := fun v => holds (upd E "z" SInt v) t).
    assert (Hd : idom I SInt (ichoice I SInt f) = true) by apply ichoice_dom. apply dom_int in Hd. destruct Hd as [z Hz]. exists z. split.
    - unfold nval. cbn [eval]. unfold eval_bind. change (num (ichoice I SInt f) = inj z). rewrite Hz. reflexivity.
    - rewrite <- Ht. change (f (vint z) = true). rewrite <- Hz. apply (ichoice_spec I SInt f (vint k)); [apply dom_int; eauto|]. unfold f. rewrite Ht. exact Hk.
  Qed.
  Definition xor_cs (x y z two : term) : list term :=
    [tGe (TOp OAdd [x; y]) z; tGe (TOp OAdd [z; x]) y; tGe (TOp OAdd [z; y]) x; tGe two (TOp OAdd [z; x; y])].
  Definition and_cs (x y z one : term) : list term := [tGe x z; tGe y z; tGe (TOp OAdd [z; one]) (TOp OAdd [x; y])].
  Definition xor_p (a b k : Z) : bool := ((k <=? a + b) && (b <=? k + a) && (a <=? k + b) && (k + a + b <=? 2))%Z.
  Definition and_p (a b k : Z) : bool := ((k <=? a) && (k <=? b) && (a + b <=? k + 1))%Z.
  Lemma xor_cs_val (E : env I) x y z two a b k : nval E x = inj a -> nval E y = inj b -> nval E z = inj k -> is_numb 2 two = true ->
    holds E (TOp OAnd (xor_cs x y z two)) = xor_p a b k.
  Proof.
    intros Hx Hy Hz H2. rewrite holds_and. unfold xor_cs, tGe, xor_p. cbn [forallb]. rewrite !holds_ge, !nval_add. cbn [fold_right].
    rewrite Hx, Hy, Hz, (is_numb_val E _ _ H2). rewrite <- !(inj_0 (iF I)), <- !inj_add, !inj_leb, andb_true_r, !andb_assoc, !Z.add_0_r, Z.add_assoc. reflexivity.
  Qed.
  Lemma and_cs_val (E : env I) x y z one a b k : nval E x = inj a -> nval E y = inj b -> nval E z = inj k -> is_numb 1 one = true ->
    holds E (TOp OAnd (and_cs x y z one)) = and_p a b k.
  Proof.
    intros Hx Hy Hz H2. rewrite holds_and. unfold and_cs, tGe, and_p. cbn [forallb]. rewrite !holds_ge, !nval_add. cbn [fold_right].
    rewrite Hx, Hy, Hz, (is_numb_val E _ _ H2). rewrite <- !(inj_0 (iF I)), <- !inj_add, !inj_leb, andb_true_r, !andb_assoc, !Z.add_0_r. reflexivity.
  Qed.
  Lemma nval_z (E : env I) k : nval (upd E "z" SInt (vint k)) tZ = inj k.
  Proof. unfold nval, tZ. cbn [eval]. rewrite upd_same. reflexivity. Qed.
  Lemma xor_choice (E : env I) x y two a b : nval E x = inj (b2z a) -> nval E y = inj (b2z b) -> no_z x = true -> no_z y = true -> is_numb 2 two = true ->
    nval E (choice_of (xor_cs x y tZ two)) = inj (b2z (xorb a b)).
  Proof.
    intros Hx Hy Zx Zy H2. destruct (choice_char E (TOp OAnd (xor_cs x y tZ two)) (xor_p (b2z a) (b2z b))) as [k [Hk Hp]].
    - intros k. apply xor_cs_val; rewrite ?nval_no_z by auto; auto; apply nval_z.
    - exists (b2z (xorb a b)). destruct a, b; reflexivity.
    - unfold choice_of. rewrite Hk. f_equal. unfold xor_p in Hp. destruct a, b; cbn [b2z xorb] in *; lia.
  Qed.
  Lemma and_choice (E : env I) x y one a b : nval E x = inj a -> nval E y = inj b -> (a <= 1)%Z -> (b <= 1)%Z -> no_z x = true -> no_z y = true -> is_numb 1 one = true ->
    exists k, nval E (choice_of (and_cs x y tZ one)) = inj k /\ and_p a b k = true /\ (k <= 1)%Z /\ (k =? 1)%Z = (a =? 1)%Z && (b =? 1)%Z.
  Proof.
    intros Hx Hy Ha Hb Zx Zy H2. destruct (choice_char E (TOp OAnd (and_cs x y tZ one)) (and_p a b)) as [k [Hk Hp]].
    - intros k. apply and_cs_val; rewrite ?nval_no_z by auto; auto; apply nval_z.
    - exists (Z.min a b). unfold and_p. lia.
    - exists k. split; [exact Hk|]. split; [auto|]. unfold and_p in Hp. lia.
  Qed.
  Lemma is_numb_int z : is_numb z (tInt z) = true.
  Proof. unfold is_numb, tInt. cbn. apply QArith_base.Qeq_bool_iff. reflexivity. Qed.

  (** ** Terms that are bits *)
  Lemma bit_term_val n : forall t (E : env I), (tsize t < n)%nat -> env_ok E -> wt t = true -> bit_term t = true -> exists b, nval E t = inj (b2z b).
  Proof.
    induction n as [|n IH]; intros t E Hn HE Hw H; [lia|]. destruct t as [c|x s|f args|o args|s|b vs t|bs t|o oargs args]; try discriminate.
    - destruct c as [z|q|s|v w]; try discriminate. cbn [bit_term] in H. apply orb_true_iff in H. rewrite !Z.eqb_eq in H. destruct H as [->| ->]; [exists false|exists true]; reflexivity.
    - destruct b; try discriminate. destruct t as [| | |o l| | | |]; try discriminate. destruct o; try discriminate. destruct l as [|g l]; try discriminate.
      destruct g as [| | |o gl| | | |]; try discriminate. destruct o; try discriminate. destruct gl as [|s [|zz [|]]]; try discriminate; try (destruct s as [| | |o ?| | | |]; try discriminate; destruct o; try discriminate; destruct args as [|? [|? [|]]]; discriminate).
      destruct s as [| | |o sl| | | |]; try discriminate. destruct o; try discriminate. destruct sl as [|x [|y [|]]]; try discriminate.
      cbn [bit_term] in H. rewrite !andb_true_iff in H. destruct H as [[H [Bx By]] [Zx Zy]]. apply term_eqb_eq in H. rewrite H in *. clear H l zz vs.
      assert (Wb : wt (TOp OAnd (xor_body x y tZ)) = true).
      { apply (wt_bind_body _ _ _ Hw). }
      apply wt_op_args in Wb. destruct Wb as [Wb _]. unfold xor_body in Wb. cbn [forallb] in Wb. apply andb_true_iff in Wb. destruct Wb as [Wb _].
      apply wt_op_args in Wb. destruct Wb as [Wb _]. cbn [forallb] in Wb. apply andb_true_iff in Wb. destruct Wb as [Wb _].
      apply wt_op_args in Wb. destruct Wb as [Wb _]. cbn [forallb] in Wb. rewrite !andb_true_iff in Wb. destruct Wb as [Wx [Wy _]].
      unfold choice_of, xor_body, tGe in Hn. cbn [tsize map list_sum fold_right] in Hn.
      destruct (IH x E ltac:(lia) HE Wx Bx) as [a Ha]. destruct (IH y E ltac:(lia) HE Wy By) as [b Hb].
      exists (xorb a b). apply (xor_choice E x y (tInt 2)); auto using is_numb_int.
    - destruct o; try discriminate. destruct oargs as [|i [|]]; try discriminate. destruct args as [|x [|]]; try discriminate.
      cbn [wt] in Hw. unfold pop_wt in Hw. cbn [map] in Hw. rewrite !andb_true_iff in Hw. destruct Hw as [_ Hw].
      destruct (as_const_nat i) as [k|] eqn:Hi; [|discriminate]. exists (zbit E x k). unfold nval. cbn [eval map]. unfold eval_pop. cbn [map]. rewrite Hi. reflexivity.
  Qed.
  Lemma bit_val (E : env I) t : env_ok E -> wt t = true -> bit_term t = true -> exists b, nval E t = inj (b2z b).
  Proof. intros. apply (bit_term_val (S (tsize t))); auto. Qed.
  Lemma low_term_val n : forall t (E : env I), (tsize t < n)%nat -> env_ok E -> wt t = true -> low_term t = true -> exists k, nval E t = inj k /\ (k <= 1)%Z.
  Proof.
    induction n as [|n IH]; intros t E Hn HE Hw H; [lia|].
    assert (Hl : bit_term t = true -> exists k, nval E t = inj k /\ (k <= 1)%Z).
    { intros Hb. destruct (bit_val E t HE Hw Hb) as [b ->]. exists (b2z b). split; auto. destruct b; cbn; lia. }
    destruct (bit_term t) eqn:Hbt; [auto|]. clear Hl.
    destruct t as [c|x s|f args|o args|s|b vs t|bs t|o oargs args]; cbn [low_term] in H; rewrite Hbt in H; try discriminate.
    cbn [orb] in H. destruct b; try discriminate. destruct t as [| | |o l| | | |]; try discriminate. destruct o; try discriminate. destruct l as [|g l]; try discriminate.
    destruct g as [| | |o gl| | | |]; try discriminate. destruct o; try discriminate. destruct gl as [|x [|zz [|]]]; try discriminate.
    destruct l as [|g l]; try discriminate.
    destruct g as [| | |o gl| | | |]; try discriminate. destruct o; try discriminate. destruct gl as [|y [|zz' [|]]]; try discriminate.
    rewrite !andb_true_iff in H. destruct H as [[H [Bx By]] [Zx Zy]]. apply term_eqb_eq in H. rewrite H in *. clear H Hbt.
    assert (Wb : wt (TOp OAnd (and_body x y tZ)) = true).
    { apply (wt_bind_body _ _ _ Hw). }
    apply wt_op_args in Wb. destruct Wb as [Wb _]. unfold and_body in Wb. cbn [forallb] in Wb. rewrite !andb_true_iff in Wb. destruct Wb as [Wx [Wy _]].
    apply wt_op_args in Wx, Wy. destruct Wx as [Wx _], Wy as [Wy _]. cbn [forallb] in Wx, Wy. rewrite !andb_true_iff in Wx, Wy. destruct Wx as [Wx _], Wy as [Wy _].
    unfold choice_of, and_body, tGe in Hn. cbn [tsize map list_sum fold_right] in Hn.
    destruct (IH x E ltac:(lia) HE Wx Bx) as [a [Ha La]]. destruct (IH y E ltac:(lia) HE Wy By) as [b [Hb Lb]].
    destruct (and_choice E x y (tInt 1) a b Ha Hb La Lb Zx Zy (is_numb_int 1)) as [k [Hk [_ [Hk1 _]]]]. exists k. auto.
  Qed.
  Lemma low_val (E : env I) t : env_ok E -> wt t = true -> low_term t = true -> exists k, nval E t = inj k /\ (k <= 1)%Z.
  Proof. intros. apply (low_term_val (S (tsize t))); auto. Qed.
End Sums.

(** ** The rules on two sums *)
Section Rel.
  Context {I : interp} (E : env I) (HE : env_ok E).
  Local Open Scope of_scope.
  Notation sumv l := (fold_right (fun a acc => nval E a + acc) 0 l).
  Lemma given_bits l : wt (TOp OBvPBbTerm l) = true -> bits_given (TOp OBvPBbTerm l) = true -> forall p, In p l -> exists b, nval E p = inj (b2z b).
  Proof.
    intros Hw Hg p Hp. unfold bits_given in Hg. rewrite as_op_TOp in Hg. rewrite forallb_forall in Hg. apply wt_op_args in Hw. destruct Hw as [Hw _]. rewrite forallb_forall in Hw. apply bit_val; auto.
  Qed.
  Lemma constraint_val l r ls rs : wt l = true -> wt r = true -> bits_given l = true -> bits_given r = true -> pb_constraint l r ls rs = ROk tt ->
    (exists w, sort_of l = SBV w) /\ sumv ls = inj (bv (zbit E l) (List.length ls)) /\ sumv rs = inj (bv (zbit E r) (List.length rs)).
  Proof.
    intros Wl Wr Gl Gr H. unfold pb_constraint in H. destruct (as_op OBvPBbTerm l) as [pl|] eqn:Hl.
    - apply as_op_some in Hl. subst l. st H pr Hr. apply m_ops_ok in Hr. subst r. st H u Hu. destruct u. split; [|split].
      + eexists. rewrite wt_op_sort by auto. reflexivity.
      + apply short_sum_val; auto. apply given_bits; auto.
      + apply short_sum_val; auto. apply given_bits; auto.
    - st H u Hu. destruct u. split; [|split; apply pb_sum_val; auto]. unfold pb_sum in Hu. st Hu w Hw. unfold get_bit_width in Hw. destruct (sort_of l); try discriminate. eauto.
  Qed.
  Lemma bv_all t w : wt t = true -> sort_of t = SBV w -> bv (zbit E t) w = bvz (eval t E).
  Proof. intros Hw Hs. destruct (bv_val E HE t w Hw Hs) as [_ [Hr _]]. unfold zbit. rewrite bv_testbit. apply Z.mod_small. auto. Qed.
  Lemma width_bv t w : sort_of t = SBV w -> width t = w.
  Proof. unfold width. intros ->. auto. Qed.
  Lemma full_val s f n l : full_sum n s = true -> l = split_summation s -> sumv l = inj (bv f (List.length l)) -> nval E s = inj (bv f n).
  Proof. intros H -> Hs. unfold full_sum in H. apply Nat.eqb_eq in H. rewrite split_val, Hs, H. reflexivity. Qed.
  Lemma nval_sub2 a b : nval E (tSub a b) = nval E a - nval E b.
  Proof. reflexivity. Qed.
  (** the sign bit *)
  Lemma sign_val n g t : wt t = true -> bits_given t = true -> sort_of t = SBV n -> pb_sign n g t = ROk tt ->
    (0 < n)%nat /\ nval E g = inj (shl1 (n - 1)%nat * b2z (zbit E t (n - 1)%nat)).
  Proof.
    intros Hw Hg Hs H. unfold pb_sign in H. destruct (as_op OBvPBbTerm t) as [l|] eqn:Hl.
    - apply as_op_some in Hl. subst t. st H b Hb. apply ok_or_ok in Hb. st H cb Hcb. apply m_op2_ok in Hcb. st H k Hk. apply as_int_const in Hk. st H u Hu.
      destruct (Nat.eqb n 0) eqn:En; [discriminate|]. apply Nat.eqb_neq in En. unpack. apply Z.eqb_eq in Hx. apply teq_ok in H. split; [lia|].
      assert (Hn : List.length l = n) by (rewrite wt_op_sort in Hs by auto; cbn [op_sort] in Hs; rewrite map_length in Hs; congruence). rewrite Hn in Hb.
      destruct (given_bits l Hw Hg b (nth_error_In _ _ Hb)) as [v Hv]. rewrite (pbb_bit E _ _ _ Hb), Hcb, nval_mult2, H, Hv, Hk, Hx, inj_mul. f_equal. f_equal. f_equal.
      rewrite <- (inj_1 (iF I)), inj_eqb. destruct v; reflexivity.
    - st H cb Hcb. apply m_op2_ok in Hcb. st H ib Hib. apply ok_or_ok in Hib. st H k Hk. apply as_int_const in Hk. st H i Hi. st H u Hu.
      destruct (Nat.eqb n 0) eqn:En; [discriminate|]. apply Nat.eqb_neq in En. unpack. apply Z.eqb_eq in Hx, Hx0. apply teq_ok in H. split; [lia|].
      rewrite Hcb, nval_mult2, Hk, Hx, (intof_val E _ _ _ (n - 1) Hib Hi Hx0), H, inj_mul. reflexivity.
  Qed.
  Lemma bvsigned_bv f n : bvsigned (S n) (bv f (S n)) = (bv f n - shl1 n * b2z (f n))%Z.
  Proof.
    unfold bvsigned. replace (Z.of_nat (S n) - 1)%Z with (Z.of_nat n) by lia. rewrite testbit_bv by lia. rewrite bv_S. unfold shl1, b2z. rewrite pow2S. destruct (f n); lia.
  Qed.
  Lemma eval_cmp o f x y w : bvcmp o = Some f -> wt x = true -> sort_of x = SBV w -> eval (TOp o [x; y]) E = VB (f w (bvz (eval x E)) (bvz (eval y E))).
  Proof.
    intros Ho Hw Hs. destruct (bv_val E HE x w Hw Hs) as [Hv _].
    destruct o; try discriminate Ho; injection Ho as <-; cbn [eval map eval_op bvcmp bin2]; rewrite ?Hv; reflexivity.
  Qed.
  Lemma eval_ge a b : eval (tGe a b) E = VB (oleb (nval E b) (nval E a)).
  Proof. rewrite <- holds_ge. reflexivity. Qed.
  Lemma eval_eqnum a b z : is_numb z b = true -> eval a E = VN (nval E a) -> eval (tEq a b) E = VB (oeqb (nval E a) (inj z)).
  Proof.
    intros Hz Ha. rewrite <- (is_numb_val E b z Hz). unfold is_numb in Hz. destruct (as_number b) as [q|] eqn:Hb; [|discriminate].
    pose proof (as_number_eval E b q Hb) as He. unfold tEq. cbn [eval map eval_op chain]. rewrite andb_true_r. unfold nval. rewrite Ha, He. reflexivity.
  Qed.
End Rel.
Lemma pb_pattern_ok o rel k c x y s1 s2 : pb_pattern o rel k c = ROk ((x, y), (s1, s2)) ->
  exists lit rest, c = TOp OEquals [TOp o [x; y]; TOp rel [TOp OSub [s1; s2]; lit]] :: rest /\ is_numb k lit = true.
Proof.
  intros H. unfold pb_pattern in H. st H t Ht. apply idx_ok in Ht. destruct c as [|t' rest]; [discriminate|]. injection Ht as ->.
  st H lr Hlr. apply m_op2_ok in Hlr. st H xy Hxy. apply m_op2_ok in Hxy. st H dk Hdk. apply m_op2_ok in Hdk. st H s Hs. apply m_op2_ok in Hs. unpack. injection H as -> ->.
  cbn [fst snd] in *. exists (snd dk), rest. split; auto. congruence.
Qed.
Lemma clause_wt_hd t rest : clause_wt (t :: rest) = true -> bool_term t = true.
Proof. intros H. apply (proj1 (andb_true_iff _ _) H). Qed.
Lemma hd_sound {I} (E : env I) a b rest : eval a E = eval b E -> clause_holds E (TOp OEquals [a; b] :: rest).
Proof. intros H. exists (TOp OEquals [a; b]). split; [left; auto|]. apply eqv_iff. auto. Qed.
Lemma pb_args_wt o x y r rest : clause_wt (TOp OEquals [TOp o [x; y]; r] :: rest) = true ->
  (o = OEquals \/ exists f, bvcmp o = Some f) -> wt x = true /\ wt y = true /\ sort_of x = sort_of y.
Proof.
  intros H Ho. apply clause_wt_hd, bool_term_wt, eq_args_wt in H. destruct H as [H _]. destruct Ho as [->|[f Hf]]; [apply eq_args_wt; auto|].
  apply wt_op_args in H. destruct H as [H1 H2]. cbn [forallb] in H1. rewrite !andb_true_iff in H1. destruct H1 as [Hx [Hy _]]. split; [auto|split; auto].
  cbn [map] in H2. destruct o; try discriminate Hf; unfold op_wt in H2; apply andb_true_iff in H2; destruct H2 as [_ H2]; apply sort_eqb_eq; exact H2.
Qed.


Lemma unsigned_vals {I} (E : env I) l r ls rs : env_ok E -> wt l = true -> wt r = true -> sort_of l = sort_of r -> bits_given l = true -> bits_given r = true ->
  full_sum (width l) ls = true -> full_sum (width l) rs = true -> pb_constraint l r (split_summation ls) (split_summation rs) = ROk tt ->
  exists w, sort_of l = SBV w /\ nval E ls = inj (bvz (eval l E)) /\ nval E rs = inj (bvz (eval r E)).
Proof.
  intros HE Wl Wr Hs Gl Gr Fl Fr H. destruct (constraint_val E HE l r _ _ Wl Wr Gl Gr H) as [[w Hw] [H1 H2]]. exists w. split; auto.
  rewrite (width_bv _ _ Hw) in Fl, Fr. rewrite (full_val E ls _ w _ Fl eq_refl H1), (full_val E rs _ w _ Fr eq_refl H2).
  rewrite (bv_all E HE l w), (bv_all E HE r w); auto. congruence.
Qed.
Lemma bits_sub {I} (a b : Z) : osub (inj a : iF I) (inj b) = inj (a - b).
Proof. symmetry. apply inj_sub. Qed.
Lemma unsigned_end {I} (E : env I) o f (p : bool) x y w B rest : env_ok E -> bvcmp o = Some f -> wt x = true -> sort_of x = SBV w ->
  eval B E = VB (f w (bvz (eval x E)) (bvz (eval y E))) -> clause_holds E (TOp OEquals [TOp o [x; y]; B] :: rest).
Proof. intros HE Hf Hw Hs HB. apply hd_sound. rewrite (eval_cmp E HE o f x y w), HB; auto. Qed.
Ltac pb_start H Hok Hw :=
  let q := fresh "q" in let Hq := fresh "Hq" in
  st H q Hq; destruct q as [[x y] [s1 s2]]; apply pb_pattern_ok in Hq; destruct Hq as [lit [rest [-> Hl]]];
  destruct (pb_args_wt _ _ _ _ _ Hw) as [Wx [Wy Hs]]; [first [left; reflexivity | right; eexists; reflexivity]|];
  cbn [pb_unsigned_ok] in Hok; rewrite !andb_true_iff in Hok; destruct Hok as [[[F1 F2] Gx] Gy].
Definition unsigned_ok : clause -> list clause -> list term -> bool := fun c _ _ => pb_unsigned_ok c.
Lemma pb_eq_sound : rule_sound_if r_pb_eq unsigned_ok.
Proof.
  intros c ps args H Hok Hw _ I E HE _. unfold r_pb_eq in H. unfold unsigned_ok in Hok. pb_start H Hok Hw.
  destruct (unsigned_vals E x y s1 s2 HE Wx Wy Hs Gx Gy F1 F2 H) as [w [Hx [V1 V2]]].
  destruct (bv_val E HE x w Wx Hx) as [_ [_ Ex]]. destruct (bv_val E HE y w Wy ltac:(congruence)) as [_ [_ Ey]].
  apply hd_sound. change (eval (tEq x y) E = eval (tEq (TOp OSub [s1; s2]) lit) E). rewrite (eval_eqnum E _ lit 0 Hl) by reflexivity.
  change (nval E (TOp OSub [s1; s2])) with (osub (nval E s1) (nval E s2)). rewrite V1, V2, bits_sub, inj_eqb.
  unfold tEq. cbn [eval map eval_op chain]. rewrite andb_true_r. rewrite Ex, Ey at 1. unfold veqb, veqb_. rewrite Nat.eqb_refl. cbn [andb]. f_equal. lia.
Qed.
Lemma ge_val {I} (E : env I) a b lit k z1 z2 : is_numb k lit = true -> nval E a = inj z1 -> nval E b = inj z2 ->
  eval (TOp OGe [TOp OSub [a; b]; lit]) E = VB (k <=? z1 - z2)%Z.
Proof.
  intros Hl V1 V2. fold (tGe (TOp OSub [a; b]) lit). rewrite eval_ge, (is_numb_val E _ _ Hl). change (nval E (TOp OSub [a; b])) with (osub (nval E a) (nval E b)).
  rewrite V1, V2, bits_sub, inj_leb. reflexivity.
Qed.
Ltac uend E V := eapply (unsigned_end E _ _ true); eauto; [reflexivity|]; rewrite V; f_equal; lia.
Lemma pb_ult_sound : rule_sound_if r_pb_ult unsigned_ok.
Proof.
  intros c ps args H Hok Hw _ I E HE _. unfold r_pb_ult in H. unfold unsigned_ok in Hok. pb_start H Hok Hw. assert (width x = width y) by (unfold width; rewrite Hs; auto). rewrite H0 in *.
  destruct (unsigned_vals E y x s1 s2 HE Wy Wx ltac:(auto) Gy Gx F1 F2 H) as [w [Hx [V1 V2]]]. rewrite <- Hs in Hx. uend E (ge_val E _ _ _ _ _ _ Hl V1 V2).
Qed.
Lemma pb_ugt_sound : rule_sound_if r_pb_ugt unsigned_ok.
Proof.
  intros c ps args H Hok Hw _ I E HE _. unfold r_pb_ugt in H. unfold unsigned_ok in Hok. pb_start H Hok Hw.
  destruct (unsigned_vals E x y s1 s2 HE Wx Wy Hs Gx Gy F1 F2 H) as [w [Hx [V1 V2]]]. uend E (ge_val E _ _ _ _ _ _ Hl V1 V2).
Qed.
Lemma pb_uge_sound : rule_sound_if r_pb_uge unsigned_ok.
Proof.
  intros c ps args H Hok Hw _ I E HE _. unfold r_pb_uge in H. unfold unsigned_ok in Hok. pb_start H Hok Hw.
  destruct (unsigned_vals E x y s1 s2 HE Wx Wy Hs Gx Gy F1 F2 H) as [w [Hx [V1 V2]]]. uend E (ge_val E _ _ _ _ _ _ Hl V1 V2).
Qed.
Lemma pb_ule_sound : rule_sound_if r_pb_ule unsigned_ok.
Proof.
  intros c ps args H Hok Hw _ I E HE _. unfold r_pb_ule in H. unfold unsigned_ok in Hok. pb_start H Hok Hw.
  destruct (unsigned_vals E x y s2 s1 HE Wx Wy Hs Gx Gy F2 F1 H) as [w [Hx [V1 V2]]]. uend E (ge_val E _ _ _ _ _ _ Hl V2 V1).
Qed.
(** ** Signed comparisons *)
Definition signed_ok : clause -> list clause -> list term -> bool := fun c _ _ => pb_signed_ok c.
Lemma pb_signed_pattern_ok o k c x y a b : pb_signed_pattern o k c = ROk ((x, y), (a, b)) ->
  exists lit rest, c = TOp OEquals [TOp o [x; y]; TOp OGe [TOp OAdd [TOp OSub [fst a; snd a]; TOp OSub [fst b; snd b]]; lit]] :: rest /\ is_numb k lit = true.
Proof.
  intros H. unfold pb_signed_pattern in H. st H t Ht. apply idx_ok in Ht. destruct c as [|t' rest]; [discriminate|]. injection Ht as ->.
  st H lr Hlr. apply m_op2_ok in Hlr. st H xy Hxy. apply m_op2_ok in Hxy. st H dk Hdk. apply m_op2_ok in Hdk. st H s Hs. apply m_op2_ok in Hs.
  st H a' Ha. apply m_op2_ok in Ha. st H b' Hb. apply m_op2_ok in Hb. unpack. injection H as -> -> ->.
  cbn [fst snd] in *. exists (snd dk), rest. split; auto. congruence.
Qed.
(** sums and signs of two vectors *)
Lemma signed_vals {I} (E : env I) n l r gl gr ls rs : env_ok E -> wt l = true -> wt r = true -> sort_of l = SBV n -> sort_of r = SBV n -> bits_given l = true -> bits_given r = true ->
  pb_sign n gl l = ROk tt -> pb_sign n gr r = ROk tt ->
  full_sum (n - 1) ls = true -> full_sum (n - 1) rs = true -> pb_constraint l r (split_summation ls) (split_summation rs) = ROk tt ->
  (nval E ls - nval E gl = inj (bvsigned n (bvz (eval l E))) /\ nval E gr - nval E rs = inj (- bvsigned n (bvz (eval r E)))%Z)%of.
Proof.
  intros HE Wl Wr Sl Sr Gl Gr Hl Hr Fl Fr H. destruct (sign_val E HE n gl l Wl Gl Sl Hl) as [Hn Vl]. destruct (sign_val E HE n gr r Wr Gr Sr Hr) as [_ Vr].
  destruct (constraint_val E HE l r _ _ Wl Wr Gl Gr H) as [_ [H1 H2]].
  rewrite (full_val E ls _ _ _ Fl eq_refl H1), (full_val E rs _ _ _ Fr eq_refl H2), Vl, Vr, !bits_sub.
  rewrite <- (bv_all E HE l n), <- (bv_all E HE r n) by auto. destruct n as [|n]; [lia|]. rewrite !bvsigned_bv. replace (S n - 1) with n by lia. split; f_equal. lia.
Qed.
Lemma signed_ge_val {I} (E : env I) a b d e lit k u v : is_numb k lit = true -> osub (nval E a) (nval E b) = inj u -> osub (nval E d) (nval E e) = inj v ->
  eval (TOp OGe [TOp OAdd [TOp OSub [a; b]; TOp OSub [d; e]]; lit]) E = VB (k <=? u + v)%Z.
Proof.
  intros Hl V1 V2. fold (tGe (TOp OAdd [TOp OSub [a; b]; TOp OSub [d; e]]) lit). rewrite eval_ge, (is_numb_val E _ _ Hl), nval_add. cbn [fold_right].
  change (nval E (TOp OSub [a; b])) with (osub (nval E a) (nval E b)). change (nval E (TOp OSub [d; e])) with (osub (nval E d) (nval E e)).
  rewrite V1, V2, <- (inj_0 (iF I)), <- !inj_add, inj_leb, Z.add_0_r. reflexivity.
Qed.
Lemma signed_start {I} (E : env I) o f x y B rest : env_ok E -> bvcmp o = Some f -> clause_wt (TOp OEquals [TOp o [x; y]; B] :: rest) = true ->
  (forall n, sort_of x = SBV n -> sort_of y = SBV n -> wt x = true -> wt y = true -> eval B E = VB (f n (bvz (eval x E)) (bvz (eval y E)))) ->
  (exists n, sort_of x = SBV n) -> clause_holds E (TOp OEquals [TOp o [x; y]; B] :: rest).
Proof.
  intros HE Hf Hw HB [n Hn]. destruct (pb_args_wt _ _ _ _ _ Hw) as [Wx [Wy Hs]]; [right; eauto|]. eapply (unsigned_end E o f true); eauto. apply HB; auto. congruence.
Qed.
Lemma width_ok t n : get_bit_width t = ROk n -> sort_of t = SBV n.
Proof. unfold get_bit_width. destruct (sort_of t); try discriminate. congruence. Qed.
Lemma signed_lt_sound o k f : bvcmp o = Some f -> (forall n a b, f n a b = (k <=? bvsigned n b + - bvsigned n a)%Z) -> rule_sound_if (r_pb_signed_lt o k) signed_ok.
Proof.
  intros Hf Hk c ps args H Hok Hw _ I E HE _. unfold r_pb_signed_lt in H. st H q Hq. destruct q as [[x y] [[sy gy] [gx sx]]]. apply pb_signed_pattern_ok in Hq. cbn [fst snd] in Hq.
  destruct Hq as [lit [rest [-> Hl]]]. st H n Hn. apply width_ok in Hn. st H u1 H1. destruct u1. st H u2 H2. destruct u2.
  unfold signed_ok in Hok. cbn [pb_signed_ok] in Hok. rewrite !andb_true_iff in Hok. destruct Hok as [[[F1 F2] Gx] Gy]. rewrite (width_bv _ _ Hn) in F1, F2.
  apply (signed_start E o f); eauto. intros n' Sx Sy Wx Wy. assert (n' = n) by congruence. subst n'.
  destruct (signed_vals E n y x gy gx sy sx HE Wy Wx Sy Sx Gy Gx H1 H2 F1 F2 H) as [V1 V2]. rewrite (signed_ge_val E _ _ _ _ _ _ _ _ Hl V1 V2), Hk. reflexivity.
Qed.
Lemma signed_gt_sound o k f : bvcmp o = Some f -> (forall n a b, f n a b = (k <=? bvsigned n a + - bvsigned n b)%Z) -> rule_sound_if (r_pb_signed_gt o k) signed_ok.
Proof.
  intros Hf Hk c ps args H Hok Hw _ I E HE _. unfold r_pb_signed_gt in H. st H q Hq. destruct q as [[x y] [[sx gx] [gy sy]]]. apply pb_signed_pattern_ok in Hq. cbn [fst snd] in Hq.
  destruct Hq as [lit [rest [-> Hl]]]. st H n Hn. apply width_ok in Hn. st H u1 H1. destruct u1. st H u2 H2. destruct u2.
  unfold signed_ok in Hok. cbn [pb_signed_ok] in Hok. rewrite !andb_true_iff in Hok. destruct Hok as [[[F1 F2] Gx] Gy]. rewrite (width_bv _ _ Hn) in F1, F2.
  apply (signed_start E o f); eauto. intros n' Sx Sy Wx Wy. assert (n' = n) by congruence. subst n'.
  destruct (signed_vals E n x y gx gy sx sy HE Wx Wy Sx Sy Gx Gy H1 H2 F1 F2 H) as [V1 V2]. rewrite (signed_ge_val E _ _ _ _ _ _ _ _ Hl V1 V2), Hk. reflexivity.
Qed.
Lemma pb_slt_sound : rule_sound_if r_pb_slt signed_ok.
Proof. eapply signed_lt_sound; [reflexivity|]. intros n a b. cbn beta. lia. Qed.
Lemma pb_sle_sound : rule_sound_if r_pb_sle signed_ok.
Proof. eapply signed_lt_sound; [reflexivity|]. intros n a b. cbn beta. lia. Qed.
Lemma pb_sgt_sound : rule_sound_if r_pb_sgt signed_ok.
Proof. eapply signed_gt_sound; [reflexivity|]. intros n a b. cbn beta. lia. Qed.
Lemma pb_sge_sound : rule_sound_if r_pb_sge signed_ok.
Proof. eapply signed_gt_sound; [reflexivity|]. intros n a b. cbn beta. lia. Qed.

(** ** Variables and constants *)
Lemma for_i_ok {A} (F : nat -> A -> outcome unit) l : forall i, for_i F i l = ROk tt -> forall j a, nth_error l j = Some a -> F (i + j) a = ROk tt.
Proof.
  induction l as [|b r IH]; intros i H j a Hj; [destruct j; discriminate|]. cbn [for_i] in H. st H u Hu. destruct u. destruct j as [|j].
  - injection Hj as <-. rewrite Nat.add_0_r. auto.
  - rewrite Nat.add_succ_r. apply (IH (S i)); auto.
Qed.
Lemma eval_pbb {I} (E : env I) l : eval (TOp OBvPBbTerm l) E = VBV (List.length l) (bv (zbit E (TOp OBvPBbTerm l)) (List.length l)).
Proof.
  set (t := TOp OBvPBbTerm l). assert (He : eval t E = VBV (List.length l) (bvz (eval t E))) by (unfold t; cbn [eval eval_op bvz]; rewrite map_length; reflexivity).
  rewrite He. f_equal. unfold zbit. rewrite bv_testbit, Z.mod_small; auto. unfold t. cbn [eval eval_op bvz].
  pose proof (bits_val_range (map (fun v : value I => oeqb (num v) o1) (map (fun a => eval a E) l))) as Hr. rewrite !map_length in Hr. exact Hr.
Qed.
(** a term equals a pbbterm when they have the same bits *)
Lemma eval_pbb_eq {I} (E : env I) t l : env_ok E -> wt t = true -> wt (TOp OBvPBbTerm l) = true -> sort_of t = sort_of (TOp OBvPBbTerm l) ->
  (forall i e, nth_error l i = Some e -> zbit E t i = oeqb (nval E e) o1) -> eval t E = eval (TOp OBvPBbTerm l) E.
Proof.
  intros HE Wt Wl Hs Hb. rewrite wt_op_sort in Hs by auto. cbn [op_sort] in Hs. rewrite map_length in Hs. destruct (bv_val E HE t _ Wt Hs) as [_ [_ ->]].
  rewrite eval_pbb, <- (bv_all E HE t _ Wt Hs). f_equal. apply bv_ext. intros i Hi. destruct (nth_error l i) as [e|] eqn:He; [|apply nth_error_None in He; lia].
  rewrite (Hb i e He), (pbb_bit E l i e He). reflexivity.
Qed.
Lemma eqb_b2z {I : interp} b : oeqb (inj (b2z b) : iF I) o1 = b.
Proof. rewrite <- (inj_1 (iF I)), inj_eqb. destruct b; reflexivity. Qed.
Lemma hd_eq_pbb c t lr pbs : idx c 0 = ROk t -> m_op2 OEquals t = ROk lr -> m_ops OBvPBbTerm (snd lr) = ROk pbs -> clause_wt c = true ->
  exists rest, c = TOp OEquals [fst lr; TOp OBvPBbTerm pbs] :: rest /\ wt (fst lr) = true /\ wt (TOp OBvPBbTerm pbs) = true /\ sort_of (fst lr) = sort_of (TOp OBvPBbTerm pbs).
Proof.
  intros Ht Hlr Hp Hw. apply idx_ok in Ht. destruct c as [|t' rest]; [discriminate|]. injection Ht as ->. apply m_op2_ok in Hlr. apply m_ops_ok in Hp. rewrite Hp in Hlr. subst t.
  exists rest. split; auto. apply clause_wt_hd, bool_term_wt, eq_args_wt in Hw. tauto.
Qed.
Lemma pb_var_sound : rule_sound r_pb_var.
Proof.
  intros c ps args H Hw _ I E HE _. unfold r_pb_var in H. st H t Ht. st H lr Hlr. st H pbs Hp. destruct (hd_eq_pbb _ _ _ _ Ht Hlr Hp Hw) as [rest [-> [W1 [W2 Hs]]]].
  apply hd_sound. apply eval_pbb_eq; auto. intros i e He. pose proof (for_i_ok _ _ 0 H i e He) as Hi. cbn [Nat.add] in Hi. st Hi ib Hib. apply ok_or_ok in Hib. st Hi k Hk. unpack.
  apply Z.eqb_eq in Hx. apply teq_ok in Hi. rewrite (intof_val E e _ _ i Hib Hk Hx), Hi, eqb_b2z. reflexivity.
Qed.
Definition const_ok : clause -> list clause -> list term -> bool := fun c _ _ => pb_const_ok c.
Lemma const_bits_val l : forall bs, pb_const_bits l = ROk bs -> forallb bit_term l = true -> List.length bs = List.length l /\
  forall i e, nth_error l i = Some e -> exists b, nth_error bs i = Some b /\ e = TConst (CInt (b2z b)).
Proof.
  induction l as [|a r IH]; intros bs H Hb; cbn [pb_const_bits] in H; [injection H as <-; split; auto; intros i e; destruct i; discriminate|].
  st H z Hz. apply as_int_const in Hz. subst a. st H b Hbit. st H bs' Hbs. injection H as <-. cbn [forallb] in Hb. apply andb_true_iff in Hb. destruct Hb as [Hb Hr].
  destruct (IH _ Hbs Hr) as [Hl Hi]. split; [cbn; auto|]. intros i e He. destruct i as [|i]; [|apply Hi; auto]. injection He as <-. exists b. split; auto.
  cbn [bit_term] in Hb. apply orb_true_iff in Hb. rewrite !Z.eqb_eq in Hb. destruct Hb as [->| ->]; cbn in Hbit; injection Hbit as <-; reflexivity.
Qed.
Lemma pb_const_sound : rule_sound_if r_pb_const const_ok.
Proof.
  intros c ps args H Hok Hw _ I E HE _. unfold r_pb_const in H. st H t Ht. st H lr Hlr. st H pbs Hp. destruct (hd_eq_pbb _ _ _ _ Ht Hlr Hp Hw) as [rest [-> [W1 [W2 Hs]]]].
  unfold const_ok, pb_const_ok in Hok. destruct (fst lr) as [k| | | | | | |] eqn:Hk; try discriminate. destruct k as [| | |m w]; try discriminate.
  st H u Hu. st H bs Hbs. unpack. apply Z.eqb_eq in H. destruct (const_bits_val _ _ Hbs Hok) as [_ Hb].
  apply hd_sound. apply eval_pbb_eq; auto. intros i e He. destruct (Hb i e He) as [b [Hn ->]]. change (nval E (TConst (CInt (b2z b)))) with (inj (b2z b) : iF I). rewrite eqb_b2z.
  unfold zbit. cbn [eval eval_const bvz]. apply Nat.eqb_eq in Hu. unfold bvmod. rewrite Z.mod_pow2_bits_low.
  - rewrite <- H, testbit_bits. apply (nth_error_nth _ _ false Hn).
  - assert (i < List.length pbs) by (apply nth_error_Some; congruence). lia.
Qed.

(** ** Bitwise operators *)
Lemma for3_ok f : forall bcs xs ys, for3 f bcs xs ys = ROk tt -> List.length xs = List.length bcs -> List.length ys = List.length bcs ->
  forall i b, nth_error bcs i = Some b -> exists x y, nth_error xs i = Some x /\ nth_error ys i = Some y /\ f b x y = ROk tt.
Proof.
  induction bcs as [|b0 bcs IH]; intros xs ys H Hx Hy i b Hb; [destruct i; discriminate|]. destruct xs as [|x xs], ys as [|y ys]; try discriminate.
  cbn [for3] in H. st H u Hu. destruct u. destruct i as [|i]; [injection Hb as <-; exists x, y; auto|]. apply (IH xs ys); auto.
Qed.
Lemma pb_choice_ok bc cs : pb_choice bc = ROk cs -> exists vs, bc = TBind BChoice (("z"%string, SInt) :: vs) (TOp OAnd cs).
Proof.
  intros H. unfold pb_choice in H. st H vb Hvb. apply m_bind_ok in Hvb. st H cs' Hcs. apply m_ops_ok in Hcs. st H b0 Hb. apply idx_ok in Hb. unpack. apply svar_eqb_eq in Hx. injection H as <-.
  destruct vb as [vs t]. cbn [fst snd] in *. destruct vs as [|v vs]; [discriminate|]. injection Hb as ->. exists vs. rewrite Hvb, Hcs, Hx. reflexivity.
Qed.
Lemma isZ_ok t : isZ t = ROk tt -> t = tZ.
Proof. intros H. apply rassert_ok, term_eqb_eq in H. auto. Qed.
Lemma len4 {A} (l : list A) : List.length l = 4 -> exists a b c d, l = [a; b; c; d].
Proof. destruct l as [|a [|b [|c [|d [|]]]]]; try discriminate. eauto. Qed.
Lemma len3 {A} (l : list A) : List.length l = 3 -> exists a b c, l = [a; b; c].
Proof. destruct l as [|a [|b [|c [|]]]]; try discriminate. eauto. Qed.
Ltac ops := repeat match goal with
  | H : m_op2 _ _ = ROk _ |- _ => apply m_op2_ok in H
  | H : m_op3 _ _ = ROk _ |- _ => apply m_op3_ok in H
  | H : teq _ _ = ROk _ |- _ => apply teq_ok in H
  | H : isZ _ = ROk _ |- _ => apply isZ_ok in H
  | H : ROk _ = ROk _ |- _ => injection H as <-
  | u : unit |- _ => destruct u
  end; cbn [fst snd] in *.
Lemma xor_shape bc x y : pb_xor_bit bc x y = ROk tt -> exists vs two, bc = TBind BChoice (("z"%string, SInt) :: vs) (TOp OAnd (xor_cs x y tZ two)) /\ is_numb 2 two = true.
Proof.
  intros H. unfold pb_xor_bit in H. st H cs Hcs. apply pb_choice_ok in Hcs. destruct Hcs as [vs ->]. st H u Hu. apply rassert_ok, Nat.eqb_eq, len4 in Hu.
  destruct Hu as [c1 [c2 [c3 [c4 ->]]]]. do 4 (st H cc Hcc; injection Hcc as <-). exists vs.
  st H u1 H1. st H u2 H2. st H u3 H3. unpack. ops. subst. eexists. split; [|eassumption]. unfold xor_cs, tGe. congruence.
Qed.
Lemma and_shape bc x y : pb_and_bit bc x y = ROk tt -> exists vs one, bc = TBind BChoice (("z"%string, SInt) :: vs) (TOp OAnd (and_cs x y tZ one)) /\ is_numb 1 one = true.
Proof.
  intros H. unfold pb_and_bit in H. st H cs Hcs. apply pb_choice_ok in Hcs. destruct Hcs as [vs ->]. st H u Hu. apply rassert_ok, Nat.eqb_eq, len3 in Hu.
  destruct Hu as [c1 [c2 [c3 ->]]]. do 3 (st H cc Hcc; injection Hcc as <-). exists vs.
  st H u1 H1. st H u2 H2. unpack. ops. subst. eexists. split; [|eassumption]. unfold and_cs, tGe. congruence.
Qed.
Lemma bits_len t xs w : pb_bits t = ROk xs -> wt t = true -> sort_of t = SBV w -> List.length xs = w.
Proof.
  unfold pb_bits. destruct (as_op OBvPBbTerm t) as [l|] eqn:Hl.
  - intros [= <-] Hw Hs. apply as_op_some in Hl. subst t. rewrite wt_op_sort in Hs by auto. cbn [op_sort] in Hs. rewrite map_length in Hs. congruence.
  - intros H _ Hs. rewrite Hs in H. injection H as <-. rewrite map_length, seq_length. auto.
Qed.
Lemma bits_no_z t xs i e : pb_bits t = ROk xs -> nth_error xs i = Some e -> no_z t = true -> no_z e = true.
Proof.
  unfold pb_bits, no_z. intros H Hi Hz. apply negb_true_iff in Hz. apply negb_true_iff. apply nth_error_In in Hi. destruct (as_op OBvPBbTerm t) as [l|] eqn:Hl.
  - injection H as <-. apply as_op_some in Hl. subst t. destruct (free_in "z" SInt e) eqn:He; auto. rewrite <- Hz. symmetry. cbn [free_in]. apply existsb_exists. eauto.
  - destruct (sort_of t); try discriminate. injection H as <-. apply in_map_iff in Hi. destruct Hi as [j [<- _]]. unfold int_of. cbn [free_in existsb orb]. rewrite Hz. reflexivity.
Qed.
Section Elems.
  Context {I : interp} (E : env I) (HE : env_ok E).
  Lemma bits_elem t xs i e : wt t = true -> bits_given t = true -> pb_bits t = ROk xs -> nth_error xs i = Some e -> nval E e = inj (b2z (zbit E t i)).
  Proof.
    intros Hw Hg H Hi. unfold pb_bits in H. destruct (as_op OBvPBbTerm t) as [l|] eqn:Hl.
    - injection H as <-. apply as_op_some in Hl. subst t. destruct (given_bits E HE l Hw Hg e (nth_error_In _ _ Hi)) as [b Hb]. rewrite (pbb_bit E l i e Hi), Hb, eqb_b2z. reflexivity.
    - destruct (sort_of t) as [ | | | | | | | | |n| | ] eqn:Hst; try discriminate. injection H as <-.
      assert (Hs : i < n). { assert (i < List.length (map (fun i => int_of i t) (seq 0 n))) as Hlt by (apply nth_error_Some; congruence). rewrite map_length, seq_length in Hlt. auto. }
      rewrite (map_nth_error _ i (seq 0 n) (d := i)) in Hi.
      + injection Hi as <-. apply nval_intof.
      + rewrite (nth_error_nth' _ 0) by (rewrite seq_length; auto). rewrite seq_nth by auto. reflexivity.
  Qed.
  Lemma low_elem t xs i e : wt t = true -> low_given t = true -> pb_bits t = ROk xs -> nth_error xs i = Some e -> exists k, nval E e = inj k /\ (k <= 1)%Z /\ zbit E t i = (k =? 1)%Z.
  Proof.
    intros Hw Hg H Hi. destruct (as_op OBvPBbTerm t) as [l|] eqn:Hl.
    - unfold pb_bits in H. rewrite Hl in H. injection H as <-. unfold low_given in Hg. rewrite Hl in Hg. rewrite forallb_forall in Hg. apply as_op_some in Hl. subst t.
      pose proof Hw as Hw'. apply wt_op_args in Hw'. destruct Hw' as [Hw' _]. rewrite forallb_forall in Hw'. pose proof (nth_error_In _ _ Hi) as Hin.
      destruct (low_val E e HE (Hw' _ Hin) (Hg _ Hin)) as [k [Hk Hle]]. exists k. split; auto. split; auto. rewrite (pbb_bit E l i e Hi), Hk, <- (inj_1 (iF I)), inj_eqb. reflexivity.
    - exists (b2z (zbit E t i)). split; [apply (bits_elem t xs); auto; unfold bits_given; rewrite Hl; auto|]. destruct (zbit E t i); cbn; auto with zarith.
  Qed.
End Elems.
Definition xor_ok : clause -> list clause -> list term -> bool := fun c _ _ => pb_xor_ok c.
Definition and_ok : clause -> list clause -> list term -> bool := fun c _ _ => pb_and_ok c.
Lemma bitwise_sound o f given : (o = OBvXor \/ o = OBvAnd) ->
  (forall I (E : env I) x y xs ys i b xi yi, env_ok E -> wt x = true -> wt y = true -> given x = true -> given y = true -> no_z x = true -> no_z y = true ->
     pb_bits x = ROk xs -> pb_bits y = ROk ys -> nth_error xs i = Some xi -> nth_error ys i = Some yi -> wt b = true -> f b xi yi = ROk tt ->
     zbit E (TOp o [x; y]) i = oeqb (nval E b) o1) ->
  rule_sound_if (r_pb_bitwise o f) (fun c _ _ => pb_bitwise_ok given c).
Proof.
  intros Ho Hf c ps args H Hok Hw _ I E HE _. unfold r_pb_bitwise in H. st H t Ht. st H lr Hlr. st H xy Hxy. st H bcs Hp. destruct (hd_eq_pbb _ _ _ _ Ht Hlr Hp Hw) as [rest [-> [W1 [W2 Hs]]]].
  apply m_op2_ok in Hxy. destruct xy as [x y]. cbn [fst snd] in *. rewrite Hxy in *. st H xs Hxs. st H ys Hys.
  cbn [pb_bitwise_ok] in Hok. rewrite !andb_true_iff in Hok. destruct Hok as [[Gx Gy] [Zx Zy]].
  pose proof W1 as W1'. apply wt_op_args in W1'. destruct W1' as [Wxy Wo]. cbn [forallb] in Wxy. rewrite !andb_true_iff in Wxy. destruct Wxy as [Wx [Wy _]].
  assert (Sx : sort_of x = SBV (List.length bcs) /\ sort_of y = SBV (List.length bcs)).
  { rewrite (wt_op_sort OBvPBbTerm) in Hs by auto. rewrite wt_op_sort in Hs by auto. cbn [map op_sort] in Hs. rewrite map_length in Hs. cbn [map] in Wo.
    destruct Ho as [->| ->]; cbn [op_sort] in Hs; unfold op_wt in Wo; apply andb_true_iff in Wo; destruct Wo as [_ Wo]; pose proof (all_eq_In _ _ Wo (sort_of y) (or_introl eq_refl)); destruct (sort_of x); try discriminate Hs; split; congruence. }
  destruct Sx as [Sx Sy]. apply hd_sound. apply eval_pbb_eq; auto. intros i e He.
  destruct (for3_ok _ _ _ _ H (bits_len _ _ _ Hxs Wx Sx) (bits_len _ _ _ Hys Wy Sy) i e He) as [xi [yi [Hxi [Hyi Hfe]]]].
  apply (Hf I E x y xs ys i e xi yi); auto. apply wt_op_args in W2. destruct W2 as [W2 _]. rewrite forallb_forall in W2. apply W2. apply nth_error_In in He. auto.
Qed.
Lemma pb_xor_sound : rule_sound_if r_pb_xor xor_ok.
Proof.
  apply (bitwise_sound OBvXor pb_xor_bit bits_given); auto. intros I E x y xs ys i b xi yi HE Wx Wy Gx Gy Zx Zy Hxs Hys Hxi Hyi Wb H.
  apply xor_shape in H. destruct H as [vs [two [-> H2]]]. rewrite (wt_choice_one _ _ _ Wb). change (TBind BChoice [("z"%string, SInt)] (TOp OAnd (xor_cs xi yi tZ two))) with (choice_of (xor_cs xi yi tZ two)).
  rewrite (xor_choice E xi yi two (zbit E x i) (zbit E y i) (bits_elem E HE x xs i xi Wx Gx Hxs Hxi) (bits_elem E HE y ys i yi Wy Gy Hys Hyi) (bits_no_z _ _ _ _ Hxs Hxi Zx) (bits_no_z _ _ _ _ Hys Hyi Zy) H2).
  rewrite eqb_b2z. unfold zbit. cbn [eval map eval_op bvbin fold1 fold_left]. unfold bv2. cbn [bvz]. apply Z.lxor_spec.
Qed.
Lemma pb_and_sound : rule_sound_if r_pb_and and_ok.
Proof.
  apply (bitwise_sound OBvAnd pb_and_bit low_given); auto. intros I E x y xs ys i b xi yi HE Wx Wy Gx Gy Zx Zy Hxs Hys Hxi Hyi Wb H.
  apply and_shape in H. destruct H as [vs [one [-> H2]]]. rewrite (wt_choice_one _ _ _ Wb). change (TBind BChoice [("z"%string, SInt)] (TOp OAnd (and_cs xi yi tZ one))) with (choice_of (and_cs xi yi tZ one)).
  destruct (low_elem E HE x xs i xi Wx Gx Hxs Hxi) as [a [Ha [La Ba]]]. destruct (low_elem E HE y ys i yi Wy Gy Hys Hyi) as [b [Hb [Lb Bb]]].
  destruct (and_choice E xi yi one a b Ha Hb La Lb (bits_no_z _ _ _ _ Hxs Hxi Zx) (bits_no_z _ _ _ _ Hys Hyi Zy) H2) as [k [Hk [_ [_ Hk1]]]].
  rewrite Hk, <- (inj_1 (iF I)), inj_eqb, Hk1, <- Ba, <- Bb. unfold zbit. cbn [eval map eval_op bvbin fold1 fold_left]. unfold bv2. cbn [bvz]. apply Z.land_spec.
Qed.
(** ** One bit *)
Definition xor_ith_ok : clause -> list clause -> list term -> bool := fun _ _ args => pb_ith_ok bit_term args.
Definition and_ith_ok : clause -> list clause -> list term -> bool := fun _ _ args => pb_ith_ok low_term args.
Lemma len2 {A} (l : list A) : List.length l = 2 -> exists a b, l = [a; b].
Proof. destruct l as [|a [|b [|]]]; try discriminate. eauto. Qed.
Lemma xor_ith_shape c ps args : r_pb_xor_ith c ps args = ROk tt -> exists x y two rest, args = [x; y] /\ c = TOp OAnd (xor_cs x y (choice_of (xor_body x y tZ)) two) :: rest /\ is_numb 2 two = true.
Proof.
  intros H. unfold r_pb_xor_ith in H. st H u Hu. apply len_is_ok, len2 in Hu. destruct Hu as [x [y ->]]. st H x' Hx. injection Hx as <-. st H y' Hy. injection Hy as <-.
  st H t Ht. apply idx_ok in Ht. destruct c as [|t' rest]; [discriminate|]. injection Ht as ->. st H cs Hcs. apply m_ops_ok in Hcs. st H u' Hu. apply rassert_ok, Nat.eqb_eq, len4 in Hu.
  destruct Hu as [c1 [c2 [c3 [c4 ->]]]]. do 4 (st H cc Hcc; injection Hcc as <-). remember (choice_of (xor_body x y tZ)) as r.
  st H u1 H1. st H u2 H2. st H u3 H3. unpack. ops. subst t. eexists x, y, _, rest. split; [auto|]. split; [|eassumption]. unfold xor_cs, tGe. congruence.
Qed.
Lemma and_ith_shape c ps args : r_pb_and_ith c ps args = ROk tt -> exists x y one rest, args = [x; y] /\ c = TOp OAnd (and_cs x y (choice_of (and_body x y tZ)) one) :: rest /\ is_numb 1 one = true.
Proof.
  intros H. unfold r_pb_and_ith in H. st H u Hu. apply len_is_ok, len2 in Hu. destruct Hu as [x [y ->]]. st H x' Hx. injection Hx as <-. st H y' Hy. injection Hy as <-.
  st H t Ht. apply idx_ok in Ht. destruct c as [|t' rest]; [discriminate|]. injection Ht as ->. st H cs Hcs. apply m_ops_ok in Hcs. st H u' Hu. apply rassert_ok, Nat.eqb_eq, len3 in Hu.
  destruct Hu as [c1 [c2 [c3 ->]]]. do 3 (st H cc Hcc; injection Hcc as <-). remember (choice_of (and_body x y tZ)) as r.
  st H u1 H1. st H u2 H2. unpack. ops. subst t. eexists x, y, _, rest. split; [auto|]. split; [|eassumption]. unfold and_cs, tGe. congruence.
Qed.
Lemma and_op_wt l a : wt (TOp OAnd l) = true -> In a l -> wt a = true.
Proof. intros H Ha. apply wt_op_args in H. destruct H as [H _]. rewrite forallb_forall in H. auto. Qed.
Lemma pb_xor_ith_sound : rule_sound_if r_pb_xor_ith xor_ith_ok.
Proof.
  intros c ps args H Hok Hw _ I E HE _. apply xor_ith_shape in H. destruct H as [x [y [two [rest [-> [-> H2]]]]]].
  unfold xor_ith_ok, pb_ith_ok in Hok. rewrite !andb_true_iff in Hok. destruct Hok as [[Bx By] [Zx Zy]].
  apply clause_wt_hd, bool_term_wt in Hw. assert (W : wt (TOp OAdd [x; y]) = true) by (apply (wt_arg OGe [TOp OAdd [x; y]; choice_of (xor_body x y tZ)]); [apply (and_op_wt _ _ Hw); left; auto|left; auto]).
  apply wt_op_args in W. destruct W as [W _]. cbn [forallb] in W. rewrite !andb_true_iff in W. destruct W as [Wx [Wy _]].
  destruct (bit_val E x HE Wx Bx) as [a Ha]. destruct (bit_val E y HE Wy By) as [b Hb]. eexists. split; [left; reflexivity|].
  change (xor_body x y tZ) with (xor_cs x y tZ (tInt 2)). rewrite (xor_cs_val E x y _ two _ _ (b2z (xorb a b)) Ha Hb (xor_choice E x y (tInt 2) a b Ha Hb Zx Zy (is_numb_int 2)) H2). destruct a, b; reflexivity.
Qed.
Lemma pb_and_ith_sound : rule_sound_if r_pb_and_ith and_ith_ok.
Proof.
  intros c ps args H Hok Hw _ I E HE _. apply and_ith_shape in H. destruct H as [x [y [one [rest [-> [-> H2]]]]]].
  unfold and_ith_ok, pb_ith_ok in Hok. rewrite !andb_true_iff in Hok. destruct Hok as [[Bx By] [Zx Zy]].
  apply clause_wt_hd, bool_term_wt in Hw.
  assert (Wx : wt x = true /\ wt y = true).
  { split; [apply (wt_arg OGe [x; choice_of (and_body x y tZ)])|apply (wt_arg OGe [y; choice_of (and_body x y tZ)])]; try (left; reflexivity); apply (and_op_wt _ _ Hw); [left|right; left]; auto. }
  destruct Wx as [Wx Wy]. destruct (low_val E x HE Wx Bx) as [a [Ha La]]. destruct (low_val E y HE Wy By) as [b [Hb Lb]]. eexists. split; [left; reflexivity|].
  destruct (and_choice E x y (tInt 1) a b Ha Hb La Lb Zx Zy (is_numb_int 1)) as [k [Hk [Hp _]]].
  change (and_body x y tZ) with (and_cs x y tZ (tInt 1)). rewrite (and_cs_val E x y _ one a b k Ha Hb Hk H2). exact Hp.
Qed.

Definition pb_partial : list (string * (rule * (clause -> list clause -> list term -> bool))) :=
  [("pbblast_bveq", (r_pb_eq, unsigned_ok)); ("pbblast_bvult", (r_pb_ult, unsigned_ok)); ("pbblast_bvugt", (r_pb_ugt, unsigned_ok));
   ("pbblast_bvuge", (r_pb_uge, unsigned_ok)); ("pbblast_bvule", (r_pb_ule, unsigned_ok));
   ("pbblast_bvslt", (r_pb_slt, signed_ok)); ("pbblast_bvsgt", (r_pb_sgt, signed_ok)); ("pbblast_bvsge", (r_pb_sge, signed_ok)); ("pbblast_bvsle", (r_pb_sle, signed_ok));
   ("pbblast_pbbconst", (r_pb_const, const_ok)); ("pbblast_bvxor", (r_pb_xor, xor_ok)); ("pbblast_bvand", (r_pb_and, and_ok));
   ("pbblast_bvxor_ith_bit", (r_pb_xor_ith, xor_ith_ok)); ("pbblast_bvand_ith_bit", (r_pb_and_ith, and_ith_ok))]%string.
Lemma pb_partial_sound name r ok : In (name, (r, ok)) pb_partial -> rule_sound_if r ok.
Proof.
  unfold pb_partial. cbn [In]. intros H. repeat match type of H with _ \/ _ => destruct H as [H|H] end; [..|destruct H]; injection H as _ <- <-;
  auto using pb_eq_sound, pb_ult_sound, pb_ugt_sound, pb_uge_sound, pb_ule_sound, pb_slt_sound, pb_sgt_sound, pb_sge_sound, pb_sle_sound, pb_const_sound, pb_xor_sound, pb_and_sound, pb_xor_ith_sound, pb_and_ith_sound.
Qed.
