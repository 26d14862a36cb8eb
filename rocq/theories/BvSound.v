(** Soundness of the bit-blasting rules (bitvectors.rs). *)
From Coq Require Import List String ZArith Bool Arith Lia.
From Verif Require Import Base Term Sem Rules Sorting PolyeqSound R_AC PolySound EvalSound CPSound R_Bv.
Import ListNotations.
Local Open Scope nat_scope.

(** ** Bits *)
Local Open Scope Z_scope.
Definition b2z (b : bool) : Z := if b then 1 else 0.
(** value of the first [n] bits of [f] *)
Definition bv (f : nat -> bool) (n : nat) : Z := bits_val (map f (seq 0 n)).
Lemma bits_val_app l1 l2 : bits_val (l1 ++ l2) = bits_val l1 + 2 ^ Z.of_nat (List.length l1) * bits_val l2.
Proof.
  induction l1 as [|b r IH]; cbn [app bits_val List.length]; [lia|]. rewrite IH, Nat2Z.inj_succ, Z.pow_succ_r by lia. lia.
Qed.
Lemma bv_S f n : bv f (S n) = bv f n + 2 ^ Z.of_nat n * b2z (f n).
Proof. unfold bv. rewrite seq_S, map_app, bits_val_app, map_length, seq_length. cbn. unfold b2z. destruct (f n); lia. Qed.
Lemma bv_0 f : bv f 0 = 0.
Proof. reflexivity. Qed.
Lemma bv_ext f g n : (forall i, (i < n)%nat -> f i = g i) -> bv f n = bv g n.
Proof. intros H. unfold bv. f_equal. apply map_ext_in. intros i Hi. apply H. apply in_seq in Hi. lia. Qed.
Lemma bv_range f n : 0 <= bv f n < 2 ^ Z.of_nat n.
Proof. pose proof (bits_val_range (map f (seq 0 n))) as H. rewrite map_length, seq_length in H. exact H. Qed.
Lemma pow2S n : 2 ^ Z.of_nat (S n) = 2 * 2 ^ Z.of_nat n.
Proof. rewrite Nat2Z.inj_succ, Z.pow_succ_r; lia. Qed.
Lemma pow2pos n : 0 < 2 ^ Z.of_nat n.
Proof. apply Z.pow_pos_nonneg; lia. Qed.
Lemma bv_testbit z n : bv (fun i => Z.testbit z (Z.of_nat i)) n = z mod 2 ^ Z.of_nat n.
Proof.
  induction n as [|n IH]; [rewrite bv_0, Z.mod_1_r; auto|]. rewrite bv_S, IH, pow2S. pose proof (pow2pos n).
  rewrite Z.mul_comm at 1. rewrite (Z.mul_comm 2), Z.rem_mul_r by lia. rewrite <- Z.testbit_spec' by lia. unfold b2z, Z.b2z. lia.
Qed.
Lemma testbit_bits l i : Z.testbit (bits_val l) (Z.of_nat i) = nth i l false.
Proof.
  revert i. induction l as [|b r IH]; intros i; cbn [bits_val]; [rewrite Z.testbit_0_l; destruct i; auto|].
  change (if b then 1 else 0) with (Z.b2z b). destruct i as [|i]; cbn [nth].
  - apply Z.add_b2z_double_bit0.
  - rewrite Nat2Z.inj_succ, Z.add_comm, Z.testbit_succ_r by lia. apply IH.
Qed.
Lemma testbit_bv f n i : (i < n)%nat -> Z.testbit (bv f n) (Z.of_nat i) = f i.
Proof.
  intros H. unfold bv. rewrite testbit_bits. rewrite (nth_indep _ false (f 0%nat)) by (rewrite map_length, seq_length; auto).
  rewrite map_nth, seq_nth; auto.
Qed.
Lemma bv_bitwise (g : Z -> Z -> Z) (h : bool -> bool -> bool) x y n :
  (forall a b i, Z.testbit (g a b) (Z.of_nat i) = h (Z.testbit a (Z.of_nat i)) (Z.testbit b (Z.of_nat i))) ->
  0 <= g (bv x n) (bv y n) < 2 ^ Z.of_nat n -> bv (fun i => h (x i) (y i)) n = g (bv x n) (bv y n).
Proof.
  intros Hg Hr. rewrite <- (Z.mod_small _ _ Hr), <- bv_testbit. apply bv_ext. intros i Hi. rewrite Hg, !testbit_bv; auto.
Qed.
Lemma bv_negb x n : bv (fun i => negb (x i)) n = 2 ^ Z.of_nat n - 1 - bv x n.
Proof. induction n as [|n IH]; [reflexivity|]. rewrite !bv_S, IH, pow2S. unfold b2z. destruct (x n); cbn [negb]; lia. Qed.
Lemma bv_false n : bv (fun _ => false) n = 0.
Proof. induction n as [|n IH]; [reflexivity|]. rewrite bv_S, IH. cbn. lia. Qed.
Lemma bv_inj x y n : bv x n = bv y n <-> (forall i, (i < n)%nat -> x i = y i).
Proof.
  split; [|apply bv_ext]. intros H i Hi. rewrite <- (testbit_bv x n i), <- (testbit_bv y n i) by auto. congruence.
Qed.
(** full adders *)
Definition maj (x y c : bool) : bool := x && y || xorb x y && c.
Lemma bv_adder x y c r n : (forall i, (i < n)%nat -> r i = xorb (xorb (x i) (y i)) (c i)) ->
  (forall i, (i < n)%nat -> c (S i) = maj (x i) (y i) (c i)) ->
  bv r n + 2 ^ Z.of_nat n * b2z (c n) = bv x n + bv y n + b2z (c 0%nat).
Proof.
  intros Hr Hc. induction n as [|n IH]; [rewrite !bv_0; cbn [Z.of_nat]; lia|].
  rewrite !bv_S, pow2S, Hr, Hc by lia. specialize (IH ltac:(intros; apply Hr; lia) ltac:(intros; apply Hc; lia)).
  unfold b2z, maj in *. destruct (x n), (y n), (c n), (c 0%nat); cbn [xorb andb orb negb] in *; lia.
Qed.
Lemma bv_adder_mod x y c r n : (forall i, (i < n)%nat -> r i = xorb (xorb (x i) (y i)) (c i)) ->
  (forall i, (S i < n)%nat -> c (S i) = maj (x i) (y i) (c i)) ->
  bv r n = (bv x n + bv y n + b2z (c 0%nat)) mod 2 ^ Z.of_nat n.
Proof.
  intros Hr Hc. set (c' := fun i => if Nat.ltb i n then c i else match i with O => c O | S j => maj (x j) (y j) (c j) end).
  assert (H0 : c' 0%nat = c 0%nat) by (unfold c'; destruct (Nat.ltb 0 n); auto).
  rewrite <- H0, <- (bv_adder x y c' r n).
  - rewrite Z.mul_comm, Z.mod_add by (pose proof (pow2pos n); lia). symmetry. apply Z.mod_small, bv_range.
  - intros i Hi. unfold c'. rewrite (proj2 (Nat.ltb_lt i n) Hi). auto.
  - intros i Hi. unfold c' at 2. rewrite (proj2 (Nat.ltb_lt i n) Hi). unfold c'. destruct (Nat.ltb_spec (S i) n); auto.
Qed.
(** shifted rows *)
Lemma bv_shift x n j : bv (fun i => Nat.leb j i && x (i - j)%nat) n = 2 ^ Z.of_nat j * bv x (n - j).
Proof.
  induction n as [|n IH]; [cbn [Nat.sub]; rewrite !bv_0; lia|]. rewrite bv_S, IH. destruct (Nat.leb_spec j n); cbn [andb].
  - rewrite Nat.sub_succ_l by auto. rewrite bv_S. replace (Z.of_nat n) with (Z.of_nat j + Z.of_nat (n - j)) by lia. rewrite Z.pow_add_r by lia. lia.
  - replace (S n - j)%nat with (n - j)%nat by lia. cbn. lia.
Qed.
Lemma bv_trunc x m n : (m <= n)%nat -> bv x m = bv x n mod 2 ^ Z.of_nat m.
Proof.
  intros H. rewrite <- bv_testbit. apply bv_ext. intros i Hi. rewrite testbit_bv; auto. lia.
Qed.
Lemma bv_shift_mod x n j : (j <= n)%nat -> bv (fun i => Nat.leb j i && x (i - j)%nat) n = (2 ^ Z.of_nat j * bv x n) mod 2 ^ Z.of_nat n.
Proof.
  intros H. rewrite bv_shift, (bv_trunc x (n - j) n) by lia.
  assert (Hp : 2 ^ Z.of_nat n = 2 ^ Z.of_nat j * 2 ^ Z.of_nat (n - j)) by (rewrite <- Z.pow_add_r by lia; f_equal; lia). rewrite Hp. pose proof (pow2pos j). pose proof (pow2pos (n - j)). rewrite Z.mul_mod_distr_l by lia. reflexivity.
Qed.
(** comparison, from the least significant bit *)
Lemma bv_lt_step x y n : (bv x (S n) <? bv y (S n)) = eqb (x n) (y n) && (bv x n <? bv y n) || negb (x n) && y n.
Proof.
  rewrite !bv_S. pose proof (bv_range x n). pose proof (bv_range y n). unfold b2z.
  destruct (x n), (y n); cbn [eqb negb andb orb]; destruct (Z.ltb_spec (bv x n) (bv y n)); cbn [orb andb];
    first [apply Z.ltb_lt; lia|apply Z.ltb_ge; lia].
Qed.
Lemma bv_slt x y n : (bvsigned (S n) (bv x (S n)) <? bvsigned (S n) (bv y (S n))) =
  eqb (x n) (y n) && (bv x n <? bv y n) || x n && negb (y n).
Proof.
  unfold bvsigned. replace (Z.of_nat (S n) - 1) with (Z.of_nat n) by lia. rewrite !testbit_bv by lia.
  rewrite !bv_S, pow2S. pose proof (bv_range x n). pose proof (bv_range y n). unfold b2z.
  destruct (x n), (y n); cbn [eqb negb andb orb]; destruct (Z.ltb_spec (bv x n) (bv y n)); cbn [orb andb];
    first [apply Z.ltb_lt; lia|apply Z.ltb_ge; lia].
Qed.
Local Close Scope Z_scope.

(** ** Vectors of terms *)
Lemma get_map (f : nat -> term) n i : i < n -> get (map f (seq 0 n)) i = f i.
Proof.
  intros H. unfold get. rewrite (nth_indep _ tFalse (f 0)) by (rewrite map_length, seq_length; auto). rewrite map_nth, seq_nth; auto.
Qed.
Lemma get_app_l l1 l2 i : i < List.length l1 -> get (l1 ++ l2)%list i = get l1 i.
Proof. intros. apply app_nth1. auto. Qed.
Lemma get_snoc l t : get (l ++ [t])%list (List.length l) = t.
Proof. unfold get. rewrite app_nth2, Nat.sub_diag; auto. Qed.
(** a loop over 1..n pushing one element at a time *)
Section Push.
  Context {A : Type} (d : A) (g : list A -> nat -> A) (c0 : A).
  Definition push n := fold_left (fun cs i => (cs ++ [g cs i])%list) (seq 1 n) [c0].
  Lemma push_S n : push (S n) = (push n ++ [g (push n) (S n)])%list.
  Proof. unfold push. rewrite seq_S, fold_left_app. reflexivity. Qed.
  Lemma push_len n : List.length (push n) = S n.
  Proof. induction n as [|n IH]; [reflexivity|]. rewrite push_S, app_length, IH. cbn. lia. Qed.
  Lemma push_get n i : i <= n -> nth i (push n) d = nth i (push i) d.
  Proof.
    induction n as [|n IH]; intros H; [replace i with 0 by lia; auto|]. destruct (Nat.eq_dec i (S n)) as [->|Hn]; auto.
    rewrite push_S, app_nth1 by (rewrite push_len; lia). apply IH. lia.
  Qed.
  Lemma push_get0 n : nth 0 (push n) d = c0.
  Proof. rewrite push_get by lia. reflexivity. Qed.
  Lemma push_get_S n i : S i <= n -> nth (S i) (push n) d = g (push i) (S i).
  Proof. intros H. rewrite push_get by lia. rewrite push_S. rewrite app_nth2; rewrite push_len; [|lia]. rewrite Nat.sub_diag. reflexivity. Qed.
End Push.

Section Bits.
  Context {I : interp} (E : env I) (HE : env_ok E).
  Notation hb x := (fun i => holds E (get x i)).
  Lemma holds_and' a b : holds E (tAnd2 a b) = holds E a && holds E b.
  Proof. apply holds_and2. Qed.
  Lemma holds_or' a b : holds E (tOr2 a b) = holds E a || holds E b.
  Proof. apply holds_or2. Qed.
  Lemma holds_xor' a b : holds E (tXor2 a b) = xorb (holds E a) (holds E b).
  Proof. apply holds_xor. Qed.
  Lemma holds_carry x y c : holds E (t_carry x y c) = maj (holds E x) (holds E y) (holds E c).
  Proof. unfold t_carry, maj. rewrite holds_or', !holds_and', holds_xor'. reflexivity. Qed.
  Lemma holds_sum x y c : holds E (t_sum x y c) = xorb (xorb (holds E x) (holds E y)) (holds E c).
  Proof. unfold t_sum. rewrite !holds_xor'. reflexivity. Qed.
  Lemma list_get (l : list term) : map (get l) (seq 0 (List.length l)) = l.
  Proof.
    apply (nth_ext _ _ tFalse tFalse); [rewrite map_length, seq_length; auto|]. intros n Hn. rewrite map_length, seq_length in Hn.
    change (get (map (get l) (seq 0 (List.length l))) n = get l n). apply get_map. auto.
  Qed.
  Lemma bits_get l : bits_val (map (holds E) l) = bv (hb l) (List.length l).
  Proof. rewrite <- (list_get l) at 1. rewrite map_map. reflexivity. Qed.
  Lemma eval_bb l : eval (tBb l) E = VBV (List.length l) (bv (hb l) (List.length l)).
  Proof.
    unfold tBb. cbn [eval eval_op]. rewrite map_length, map_map. f_equal. rewrite <- bits_get. reflexivity.
  Qed.
  Lemma eval_bb_map f n : eval (tBb (map f (seq 0 n))) E = VBV n (bv (fun i => holds E (f i)) n).
  Proof.
    rewrite eval_bb, map_length, seq_length. f_equal. apply bv_ext. intros i Hi. rewrite get_map; auto.
  Qed.
  Lemma holds_bit_of i t : eval (bit_of i t) E = VB (Z.testbit (bvz (eval t E)) (Z.of_nat i)).
  Proof.
    unfold bit_of. cbn [eval map]. unfold eval_pop. cbn [map]. unfold as_const_nat, as_const_int.
    rewrite (proj2 (Z.leb_le 0 (Z.of_nat i))) by lia. rewrite Nat2Z.id. reflexivity.
  Qed.
  (** the vector [l] represents the bit-vector [v] *)
  Definition vec (l : list term) (w : nat) (z : Z) : Prop := List.length l = w /\ bv (hb l) w = z.
  (** ... and its elements are Booleans *)
  Definition bvec (l : list term) : Prop := forall i, i < List.length l -> eval (get l i) E = VB (holds E (get l i)).
  Lemma bvec_eq l1 l2 i : bvec l1 -> bvec l2 -> i < List.length l1 -> i < List.length l2 ->
    holds E (tEq2 (get l1 i) (get l2 i)) = eqb (holds E (get l1 i)) (holds E (get l2 i)).
  Proof.
    intros H1 H2 Hi1 Hi2. unfold tEq2. rewrite holds_eq', (H1 i Hi1), (H2 i Hi2). unfold veqb, veqb_. reflexivity.
  Qed.
  Lemma vec_bb l w : List.length l = w -> vec (build_term_vec (tBb l) w) w (bvz (eval (tBb l) E)).
  Proof. intros <-. rewrite eval_bb. split; reflexivity. Qed.
  Lemma vec_term t w : wt t = true -> sort_of t = SBV w -> vec (build_term_vec t w) w (bvz (eval t E)) /\ bvec (build_term_vec t w).
  Proof.
    intros Hw Hs. destruct (bv_val E HE t w Hw Hs) as [Hv [Hr He]]. unfold build_term_vec. destruct (as_op OBvBbTerm t) as [args|] eqn:Ho.
    - apply as_op_some in Ho. subst t. change (TOp OBvBbTerm args) with (tBb args) in *. rewrite eval_bb in Hv. cbn [bvw] in Hv. subst w. split; [apply (vec_bb args); auto|].
      intros i Hi. apply eval_bool; auto. apply wt_op_args in Hw. destruct Hw as [Hw1 Hw2]. unfold op_wt in Hw2. apply andb_true_iff in Hw2. destruct Hw2 as [_ Hw2].
      rewrite forallb_forall in Hw1, Hw2. pose proof (nth_In args tFalse Hi) as Hin. unfold bool_term. apply andb_true_iff. split; [apply Hw1; auto|].
      specialize (Hw2 _ (in_map sort_of _ _ Hin)). apply sort_eqb_eq in Hw2. apply sort_eqb_eq. symmetry. exact Hw2.
    - split.
      + split; [rewrite map_length, seq_length; auto|]. rewrite <- (Z.mod_small _ _ Hr), <- bv_testbit. apply bv_ext. intros i Hi. rewrite get_map by auto.
        unfold holds. rewrite holds_bit_of. reflexivity.
      + intros i Hi. rewrite map_length, seq_length in Hi. rewrite get_map by auto. unfold holds. rewrite holds_bit_of. reflexivity.
  Qed.
  Lemma bits_of_ok t size v : bits_of t size = ROk v -> v = build_term_vec t size.
  Proof. unfold bits_of. destruct (Nat.leb _ _); [|discriminate]. intros [= <-]. reflexivity. Qed.
  Lemma bv_size_ok t w : bv_size t = ROk w -> sort_of t = SBV w.
  Proof. unfold bv_size. destruct (sort_of t); try discriminate. congruence. Qed.

  (** adders *)
  Lemma sums_val x y c0 n : vec x n (bv (hb x) n) -> vec y n (bv (hb y) n) ->
    bv (hb (sums x y (carries x y c0 n) n)) n = ((bv (hb x) n + bv (hb y) n + b2z (holds E c0)) mod 2 ^ Z.of_nat n)%Z.
  Proof.
    intros Hx Hy. destruct n as [|n]; [rewrite !bv_0, Z.mod_1_r; auto|].
    set (cs := carries x y c0 (S n)).
    assert (Hcs : cs = push (fun cs i => t_carry (get x (i - 1)) (get y (i - 1)) (get cs (i - 1))) c0 n) by (unfold cs, carries, push; f_equal; f_equal; lia).
    replace (holds E c0) with (hb cs 0) by (rewrite Hcs; unfold get; rewrite push_get0; auto).
    apply (bv_adder_mod (hb x) (hb y) (hb cs)).
    - intros i Hi. unfold sums. rewrite get_map by auto. apply holds_sum.
    - intros i Hi. rewrite Hcs. unfold get at 1. rewrite push_get_S by lia. replace (S i - 1) with i by lia. rewrite holds_carry. f_equal. f_equal. unfold get at 1. rewrite <- (push_get _ _ _ n i) by lia. reflexivity.
  Qed.
  (** the multiplier *)
  Section Mul.
    Context (x y : list term) (n : nat).
    Let size := S n.
    Let sh j := mul_shift x y size j.
    Let G := fun rows j => mul_res (get (sh 0) 0) rows (nth (j - 1) rows []) (sh j) (mul_carry (nth (j - 1) rows []) (sh j) size j) size j.
    Let rows j := push G (map (get (sh 0)) (seq 0 size)) j.
    Let R j := nth j (rows j) [].
    Lemma rows_eq : mul_rows x y size = rows n.
    Proof. unfold mul_rows, rows, push, size. replace (S n - 1) with n by lia. reflexivity. Qed.
    Lemma rows_nth j i : i <= j -> nth i (rows j) [] = R i.
    Proof. intros H. unfold rows, R. apply push_get. auto. Qed.
    Lemma R_0 : R 0 = sh 0.
    Proof.
      unfold R, rows. rewrite push_get0. assert (H : List.length (sh 0) = size) by (unfold sh, mul_shift; rewrite map_length, seq_length; auto).
      rewrite <- H. apply list_get.
    Qed.
    Lemma R_S j : R (S j) = mul_res (get (sh 0) 0) (rows j) (R j) (sh (S j)) (mul_carry (R j) (sh (S j)) size (S j)) size (S j).
    Proof. unfold R at 1. unfold rows at 1. rewrite push_get_S by auto. unfold G. replace (S j - 1) with j by lia. fold (rows j). rewrite rows_nth by auto. reflexivity. Qed.
    Lemma R_low j i : i < j -> i < size -> get (R j) i = get (R i) i.
    Proof.
      intros Hj Hi. destruct j as [|j]; [lia|]. rewrite R_S. unfold mul_res. rewrite get_map by auto. destruct (Nat.eqb_spec i 0) as [->|H0].
      - rewrite R_0. reflexivity.
      - rewrite (proj2 (Nat.ltb_lt i (S j)) Hj). rewrite rows_nth by lia. reflexivity.
    Qed.
    Lemma R_len j : List.length (R j) = size.
    Proof. destruct j as [|j]; [rewrite R_0; unfold sh, mul_shift|rewrite R_S; unfold mul_res]; rewrite map_length, seq_length; auto. Qed.
    Lemma sh_get j i : i < size -> holds E (get (sh j) i) = Nat.leb j i && (holds E (get y j) && holds E (get x (i - j))).
    Proof. intros Hi. unfold sh, mul_shift. rewrite get_map by auto. destruct (Nat.leb j i); [apply holds_and'|reflexivity]. Qed.
    Section Row.
      Context (j : nat).
      Let cs := mul_carry (R j) (sh (S j)) size (S j).
      Let g := fun cs i =>
        let prev_carry := if Nat.ltb (S j) i then get cs (i - 1) else tFalse in
        if Nat.ltb (S j) i then t_carry (get (R j) (i - 1)) (get (sh (S j)) (i - 1)) prev_carry else tFalse.
      Lemma cs_eq : cs = push g tFalse n.
      Proof. unfold cs, mul_carry, push, size. replace (S n - 1) with n by lia. reflexivity. Qed.
      Lemma cs_low i : i <= S j -> i <= n -> get cs i = tFalse.
      Proof.
        intros Hi Hn. rewrite cs_eq. unfold get. destruct i as [|i]; [apply push_get0|]. rewrite push_get_S by auto. unfold g.
        rewrite (proj2 (Nat.ltb_ge (S j) (S i)) Hi). reflexivity.
      Qed.
      Lemma cs_S i : S i <= n -> holds E (get cs (S i)) = maj (holds E (get (R j) i)) (holds E (get (sh (S j)) i)) (holds E (get cs i)).
      Proof.
        intros Hi. destruct (Nat.ltb_spec (S j) (S i)) as [Hj|Hj].
        - rewrite cs_eq. unfold get at 1. rewrite push_get_S by auto. unfold g. rewrite (proj2 (Nat.ltb_lt (S j) (S i)) Hj). rewrite holds_carry.
          replace (S i - 1) with i by lia. f_equal. unfold get at 1. rewrite <- (push_get _ _ _ n i) by lia. reflexivity.
        - rewrite !cs_low by lia. rewrite sh_get by (unfold size; lia). rewrite (proj2 (Nat.leb_gt (S j) i)) by lia. cbn [andb].
          unfold maj. rewrite andb_false_r. change (holds E tFalse) with false. rewrite andb_false_r. reflexivity.
      Qed.
      Lemma row_sum i : i < size -> holds E (get (R (S j)) i) = xorb (xorb (holds E (get (R j) i)) (holds E (get (sh (S j)) i))) (holds E (get cs i)).
      Proof.
        intros Hi. destruct (Nat.ltb_spec i (S j)) as [Hj|Hj].
        - rewrite R_low by auto. rewrite cs_low by (unfold size in *; lia). rewrite sh_get by auto. rewrite (proj2 (Nat.leb_gt (S j) i)) by lia. cbn [andb].
          change (holds E tFalse) with false. rewrite !xorb_false_r. destruct (Nat.eq_dec i j) as [->|Hn]; auto. rewrite (R_low j i) by lia. reflexivity.
        - rewrite R_S. unfold mul_res. rewrite get_map by auto. rewrite (proj2 (Nat.eqb_neq i 0)) by lia. rewrite (proj2 (Nat.ltb_ge i (S j))) by auto.
          apply holds_sum.
      Qed.
      Lemma row_val : bv (hb (R (S j))) size = ((bv (hb (R j)) size + bv (hb (sh (S j))) size) mod 2 ^ Z.of_nat size)%Z.
      Proof.
        rewrite (bv_adder_mod (hb (R j)) (hb (sh (S j))) (hb cs)).
        - rewrite cs_low by lia. f_equal. change (b2z (holds E tFalse)) with 0%Z. lia.
        - intros i Hi. apply row_sum. auto.
        - intros i Hi. apply cs_S. unfold size in Hi. lia.
      Qed.
    End Row.
    Lemma sh_val j : j <= size -> bv (hb (sh j)) size = ((2 ^ Z.of_nat j * b2z (holds E (get y j)) * bv (hb x) size) mod 2 ^ Z.of_nat size)%Z.
    Proof.
      intros Hj. rewrite (bv_ext _ (fun i => Nat.leb j i && (holds E (get y j) && holds E (get x (i - j))))) by (intros i Hi; apply sh_get; auto).
      rewrite (bv_shift_mod (fun k => holds E (get y j) && holds E (get x k))) by auto. f_equal. rewrite <- Z.mul_assoc. f_equal.
      destruct (holds E (get y j)); cbn [andb b2z]; [rewrite Z.mul_1_l; reflexivity|]. rewrite bv_false. reflexivity.
    Qed.
    Lemma rows_val j : j <= n -> bv (hb (R j)) size = ((bv (hb x) size * bv (hb y) (S j)) mod 2 ^ Z.of_nat size)%Z.
    Proof.
      induction j as [|j IH]; intros Hj.
      - rewrite R_0, sh_val by lia. f_equal. rewrite bv_S, bv_0. cbn [Z.of_nat]. rewrite Z.pow_0_r. lia.
      - rewrite row_val, IH, sh_val by (unfold size; lia). rewrite <- Z.add_mod by (pose proof (pow2pos size); lia). f_equal. rewrite (bv_S _ (S j)). lia.
    Qed.
    Lemma mul_val : vec (nth (size - 1) (mul_rows x y size) []) size ((bv (hb x) size * bv (hb y) size) mod 2 ^ Z.of_nat size)%Z.
    Proof.
      rewrite rows_eq. unfold size at 1. replace (S n - 1) with n by lia. rewrite rows_nth by auto. split; [|apply rows_val; auto].
      apply R_len.
    Qed.
  End Mul.

  (** n-ary operators *)
  Lemma ofold_val (f : nat -> term -> term -> outcome term) (g : nat -> Z -> Z -> Z) w :
    (forall x y t zx zy, vec (build_term_vec x w) w zx -> vec (build_term_vec y w) w zy -> f w x y = ROk t ->
      exists l, t = tBb l /\ vec l w (g w zx zy)) ->
    forall l acc t z v, Forall (fun a => vec (build_term_vec a w) w (bvz (eval a E))) l -> vec (build_term_vec acc w) w z ->
      v = VBV w z -> (l <> [] \/ eval acc E = v) ->
      ofold (f w) acc l = ROk t -> eval t E = fold_left (bv2 g) (map (fun a => eval a E) l) v.
  Proof.
    intros Hf. induction l as [|a r IH]; intros acc t z v Hl Ha Hv Hn Ho; cbn [ofold map fold_left] in *.
    - injection Ho as <-. destruct Hn as [Hn|Hn]; [congruence|auto].
    - apply obind_ok in Ho. destruct Ho as [t1 [H1 Ho]]. inversion Hl as [|? ? Hl1 Hl2]; subst.
      destruct (Hf _ _ _ _ _ Ha Hl1 H1) as [b [-> Hb]]. pose proof Hb as [Hb1 Hb2].
      refine (IH (tBb b) t _ _ Hl2 _ _ _ Ho).
      + unfold build_term_vec. rewrite as_op_TOp. exact Hb.
      + unfold bv2. cbn [bvw bvz]. reflexivity.
      + right. rewrite eval_bb, Hb1, Hb2. reflexivity.
  Qed.
  Lemma bitwise_vec (h : term -> term -> term) (b : bool -> bool -> bool) (g : nat -> Z -> Z -> Z) w x y t zx zy :
    (forall p q, holds E (h p q) = b (holds E p) (holds E q)) ->
    (forall i a c, Z.testbit (g w a c) (Z.of_nat i) = b (Z.testbit a (Z.of_nat i)) (Z.testbit c (Z.of_nat i))) ->
    (forall a c, (0 <= a < 2 ^ Z.of_nat w -> 0 <= c < 2 ^ Z.of_nat w -> 0 <= g w a c < 2 ^ Z.of_nat w)%Z) ->
    vec (build_term_vec x w) w zx -> vec (build_term_vec y w) w zy -> bb_bitwise h w x y = ROk t ->
    exists l, t = tBb l /\ vec l w (g w zx zy).
  Proof.
    intros Hh Hg Hr [_ Hx] [_ Hy] H. unfold bb_bitwise in H. apply obind_ok in H. destruct H as [vx [H1 H]]. apply obind_ok in H. destruct H as [vy [H2 H]].
    apply bits_of_ok in H1, H2. injection H as <-. rewrite <- H1 in Hx. rewrite <- H2 in Hy. eexists. split; [reflexivity|]. split; [rewrite map_length, seq_length; auto|].
    rewrite <- Hx, <- Hy. rewrite <- (bv_bitwise (g w) b).
    - apply bv_ext. intros i Hi. rewrite get_map by auto. apply Hh.
    - intros. apply Hg.
    - apply Hr; apply bv_range.
  Qed.
  Lemma adder_vec w x y t zx zy : vec (build_term_vec x w) w zx -> vec (build_term_vec y w) w zy -> ripple_carry_adder x y w = ROk t ->
    exists l, t = tBb l /\ vec l w (bvmod w (zx + zy)).
  Proof.
    intros Hx Hy H. unfold ripple_carry_adder in H. apply obind_ok in H. destruct H as [vx [H1 H]]. apply obind_ok in H. destruct H as [vy [H2 H]].
    apply bits_of_ok in H1, H2. injection H as <-. rewrite <- H1 in Hx. rewrite <- H2 in Hy. eexists. split; [reflexivity|].
    split; [unfold sums; rewrite map_length, seq_length; auto|]. destruct Hx as [Lx <-], Hy as [Ly <-]. rewrite sums_val by (split; auto).
    unfold bvmod. f_equal. change (b2z (holds E tFalse)) with 0%Z. lia.
  Qed.
  Lemma mult_vec w x y t zx zy : vec (build_term_vec x w) w zx -> vec (build_term_vec y w) w zy -> shift_add_multiplier x y w = ROk t ->
    exists l, t = tBb l /\ vec l w (bvmod w (zx * zy)).
  Proof.
    intros Hx Hy H. unfold shift_add_multiplier in H. apply obind_ok in H. destruct H as [vx [H1 H]]. apply obind_ok in H. destruct H as [vy [H2 H]].
    apply bits_of_ok in H1, H2. destruct w as [|n]; [discriminate|]. cbn [Nat.eqb] in H. injection H as <-. rewrite <- H1 in Hx. rewrite <- H2 in Hy. eexists. split; [reflexivity|].
    destruct Hx as [Lx <-], Hy as [Ly <-]. apply (mul_val vx vy n).
  Qed.
End Bits.

(** ** Soundness of the rules *)
(** the shape shared by the rules: one equation, valid because both sides have the same value *)
Lemma eq_rule_sound (r : rule) :
  (forall c ps args, r c ps args = ROk tt -> clause_wt c = true -> exists a b, c = [TOp OEquals [a; b]] /\
     (wt a = true -> wt b = true -> sort_of a = sort_of b -> forall I (E : env I), env_ok E -> eval a E = eval b E)) -> rule_sound r.
Proof.
  intros H c ps args Hr Hc Hp I E HE _. destruct (H c ps args Hr Hc) as [a [b [-> Hv]]]. apply clause_holds_one.
  unfold clause_wt in Hc. cbn [forallb] in Hc. apply andb_true_iff in Hc. destruct Hc as [Hc _]. apply bool_term_wt in Hc.
  change (wt (tEq a b) = true) in Hc. apply eq_args_wt in Hc. destruct Hc as [Ha [Hb Hs]]. apply eqv_iff. apply Hv; auto.
Qed.
Lemma same_size_ok w l u : same_size w l = ROk u -> forall a, In a l -> sort_of a = SBV w.
Proof.
  intros H a Ha. destruct (ofor_ok _ _ _ H a Ha) as [b Hb]. apply obind_ok in Hb. destruct Hb as [w' [H1 H2]]. apply rassert_ok in H2. apply Nat.eqb_eq in H2. subst. apply bv_size_ok. auto.
Qed.
Ltac st H x Hx := apply obind_ok in H; destruct H as [x [Hx H]].
(** the common beginning of the rules: the conclusion is one equation *)
Ltac one_eq H a b :=
  let x := fresh "q" in let Hx := fresh "Hq" in let l := fresh "t" in
  st H x Hx; apply len_is_ok, len1 in Hx; destruct Hx as [l Hx]; subst; clear x; st H x Hx; cbn in Hx; injection Hx as <-;
  st H x Hx; apply m_op2_ok in Hx; destruct x as [a b]; cbn [fst snd] in *; subst.
Lemma nary_sound o f (g : nat -> Z -> Z -> Z) : (o = OBvAnd \/ o = OBvOr \/ o = OBvXor \/ o = OBvAdd \/ o = OBvMul) -> bvbin o = Some g ->
  (forall I (E : env I), env_ok E -> forall w x y t zx zy, vec E (build_term_vec x w) w zx -> vec E (build_term_vec y w) w zy -> f w x y = ROk t ->
     exists l, t = tBb l /\ vec E l w (g w zx zy)) -> rule_sound (r_bb_nary o f).
Proof.
  intros Ho Hg Hf. apply eq_rule_sound. intros c ps args H Hc. unfold r_bb_nary in H. one_eq H a b.
  st H l Hl. apply m_ops_ok in Hl. subst a. st H a0 Hi0. st H w Hw. apply bv_size_ok in Hw. st H u Hu. st H res Hr. apply teq_ok in H. subst b.
  eexists _, _. split; [reflexivity|]. intros Ha Hb Hs I E HE.
  apply wt_op_args in Ha. destruct Ha as [Ha1 Ha2]. rewrite forallb_forall in Ha1. pose proof (same_size_ok _ _ _ Hu) as Hsz.
  destruct l as [|a1 [|a2 r]]; [discriminate|..]; cbn in Hi0; injection Hi0 as ->.
  - exfalso. destruct Ho as [->|[->|[->|[->| ->]]]]; discriminate.
  - cbn [tl] in Hr. destruct (vec_term E HE a0 w (Ha1 _ (or_introl eq_refl)) Hw) as [Hv0 _]. destruct (bv_val E HE a0 w (Ha1 _ (or_introl eq_refl)) Hw) as [_ [_ He0]].
    rewrite (ofold_val E f g w (Hf I E HE w) (a2 :: r) a0 res _ _ ltac:(
      apply Forall_forall; intros a Hin; apply (vec_term E HE); [apply Ha1|apply Hsz]; right; exact Hin) Hv0 He0 (or_intror eq_refl) Hr).
    destruct Ho as [->|[->|[->|[->| ->]]]]; injection Hg as <-; reflexivity.
Qed.
Lemma bb_and_sound : rule_sound r_bb_and.
Proof.
  apply (nary_sound OBvAnd _ (fun _ => Z.land)); [auto|reflexivity|]. intros I E HE w x y t zx zy Hx Hy H. refine (bitwise_vec E _ andb (fun _ => Z.land) w x y t zx zy _ _ _ Hx Hy H).
  - apply holds_and2. - intros. apply Z.land_spec. - intros. apply land_range; auto.
Qed.
Lemma bb_or_sound : rule_sound r_bb_or.
Proof.
  apply (nary_sound OBvOr _ (fun _ => Z.lor)); [auto|reflexivity|]. intros I E HE w x y t zx zy Hx Hy H. refine (bitwise_vec E _ orb (fun _ => Z.lor) w x y t zx zy _ _ _ Hx Hy H).
  - apply holds_or2. - intros. apply Z.lor_spec. - intros. apply lor_range; auto.
Qed.
Lemma bb_xor_sound : rule_sound r_bb_xor.
Proof.
  apply (nary_sound OBvXor _ (fun _ => Z.lxor)); [auto|reflexivity|]. intros I E HE w x y t zx zy Hx Hy H. refine (bitwise_vec E _ xorb (fun _ => Z.lxor) w x y t zx zy _ _ _ Hx Hy H).
  - apply holds_xor. - intros. apply Z.lxor_spec. - intros. apply lxor_range; auto.
Qed.
Lemma bb_add_sound : rule_sound r_bb_add.
Proof. apply (nary_sound OBvAdd _ (fun w x y => bvmod w (x + y))); [auto|reflexivity|]. intros I E HE w x y t zx zy Hx Hy H. apply (adder_vec E w x y t zx zy Hx Hy H). Qed.
Lemma bb_mult_sound : rule_sound r_bb_mult.
Proof. apply (nary_sound OBvMul _ (fun w x y => bvmod w (x * y))); [auto 6|reflexivity|]. intros I E HE w x y t zx zy Hx Hy H. apply (mult_vec E w x y t zx zy Hx Hy H). Qed.

(** binary operators *)
Lemma bin_sound o f : (forall ss, op_wt o ss = true -> min_len 2 ss && all_eq ss = true) ->
  (forall I (E : env I), env_ok E -> forall w x y X Y t, f w X Y = ROk t -> vec E X w (bvz (eval x E)) -> vec E Y w (bvz (eval y E)) -> bvec E X -> bvec E Y ->
     eval x E = VBV w (bvz (eval x E)) -> eval y E = VBV w (bvz (eval y E)) -> eval (TOp o [x; y]) E = eval t E) -> rule_sound (r_bb_bin o f).
Proof.
  intros Hw Hf. apply eq_rule_sound. intros c ps args H Hc. unfold r_bb_bin in H. one_eq H a b.
  st H xy Hxy. apply m_op2_ok in Hxy. destruct xy as [x y]. cbn [fst snd] in *. subst a. st H w Hsz. apply bv_size_ok in Hsz. st H X HX. st H Y HY. st H t Ht. apply teq_ok in H. subst b.
  apply bits_of_ok in HX, HY. subst X Y. eexists _, _. split; [reflexivity|]. intros Ha _ _ I E HE. apply wt_op_args in Ha. destruct Ha as [Ha1 Ha2].
  cbn [forallb] in Ha1. rewrite !andb_true_iff in Ha1. destruct Ha1 as [Hx [Hy _]]. apply Hw in Ha2. apply andb_true_iff in Ha2. destruct Ha2 as [_ Ha2].
  pose proof (all_eq_In _ _ Ha2 (sort_of y) (or_introl eq_refl)) as Hsy. rewrite Hsz in Hsy.
  apply (Hf I E HE w x y _ _ t Ht); try (apply (vec_term E HE); auto); apply (bv_val E HE); auto.
Qed.
Lemma bin2_wt o ss : (o = OBvXNor \/ o = OBvULt \/ o = OBvSLt \/ o = OBvComp) -> op_wt o ss = true -> min_len 2 ss && all_eq ss = true.
Proof.
  intros Ho H. destruct Ho as [->|[->|[->| ->]]]; unfold op_wt in H; destruct ss as [|a [|b [|]]]; try discriminate;
    apply andb_true_iff in H; destruct H as [_ H]; cbn [all_eq min_len]; rewrite H; reflexivity.
Qed.
Section Bin.
  Context {I : interp} (E : env I).
  Notation hb x := (fun i => holds E (get x i)).
  Lemma bit_eqs_get w X Y i : List.length X = w -> List.length Y = w -> bvec E X -> bvec E Y -> i < w ->
    holds E (get (bit_eqs w X Y) i) = eqb (holds E (get X i)) (holds E (get Y i)).
  Proof. intros Hx Hy Bx By Hi. unfold bit_eqs. rewrite get_map by auto. apply bvec_eq; auto; congruence. Qed.
  Lemma conj_eqs_val w X Y t zx zy : conj_eqs w X Y = ROk t -> vec E X w zx -> vec E Y w zy -> bvec E X -> bvec E Y -> eval t E = VB (Z.eqb zx zy).
  Proof.
    intros H [Lx Hx] [Ly Hy] Bx By.
    assert (Hl : List.length (bit_eqs w X Y) = w) by (unfold bit_eqs; rewrite map_length, seq_length; auto).
    assert (Ht : eval t E = VB (forallb (holds E) (bit_eqs w X Y))).
    { unfold conj_eqs in H. destruct (bit_eqs w X Y) as [|e [|e' r]] eqn:Eb; [discriminate|..].
      - injection H as <-. cbn [forallb]. rewrite andb_true_r.
        assert (He : In e (bit_eqs w X Y)) by (rewrite Eb; left; auto). unfold bit_eqs in He. apply in_map_iff in He. destruct He as [i [<- _]]. reflexivity.
      - injection H as <-. rewrite <- holds_and. reflexivity. }
    rewrite Ht. f_equal. subst zx zy. apply eq_true_iff_eq. rewrite Z.eqb_eq, bv_inj, forallb_forall. split.
    - intros Ha i Hi. apply eqb_prop. rewrite <- (bit_eqs_get w X Y i) by auto. apply Ha. apply nth_In. lia.
    - intros Ha e He. apply (In_nth _ _ tFalse) in He. destruct He as [i [Hi <-]]. rewrite Hl in Hi. change (holds E (get (bit_eqs w X Y) i) = true).
      rewrite bit_eqs_get by auto. rewrite Ha by auto. apply eqb_reflx.
  Qed.
  Lemma lt_loop_val X Y n : bvec E X -> bvec E Y -> n < List.length X -> n < List.length Y ->
    eval (lt_loop X Y (seq 1 n)) E = VB (Z.ltb (bv (hb X) (S n)) (bv (hb Y) (S n))).
  Proof.
    intros Bx By. induction n as [|n IH]; intros Hx Hy.
    - cbn [seq lt_loop fold_left]. unfold lt_loop, tAnd2. cbn [fold_left]. rewrite bv_lt_step, !bv_0. cbn [Z.ltb Z.compare]. rewrite andb_false_r. cbn [orb]. unfold holds.
      cbn [eval map eval_op forallb truth]. rewrite andb_true_r. reflexivity.
    - rewrite seq_S. unfold lt_loop. rewrite fold_left_app. cbn [fold_left Nat.add]. fold (lt_loop X Y (seq 1 n)).
      assert (Hh : forall t, eval (tOr2 (tAnd2 (tEq2 (get X (S n)) (get Y (S n))) t) (tAnd2 (tNot (get X (S n))) (get Y (S n)))) E =
        VB (eqb (holds E (get X (S n))) (holds E (get Y (S n))) && holds E t || negb (holds E (get X (S n))) && holds E (get Y (S n)))).
      { intros t. rewrite <- (bvec_eq E X Y (S n)) by auto. rewrite <- holds_not, <- !holds_and', <- holds_or'. reflexivity. }
      rewrite Hh. f_equal. rewrite (bv_lt_step _ _ (S n)). unfold holds at 3. rewrite IH by lia. reflexivity.
  Qed.
End Bin.
Lemma bb_xnor_sound : rule_sound r_bb_xnor.
Proof.
  apply bin_sound; [intros ss; apply bin2_wt; auto|]. intros I E HE w x y X Y t [= <-] [Lx Hx] [Ly Hy] Bx By Ex Ey.
  transitivity (VBV w (2 ^ Z.of_nat w - 1 - Z.lxor (bvz (eval x E)) (bvz (eval y E))) : value I)%Z.
  - cbn [eval map eval_op bvbin bin2]. unfold bv2. rewrite Ex. reflexivity.
  - unfold bit_eqs. rewrite eval_bb_map. f_equal. rewrite <- Hx, <- Hy.
    transitivity (bv (fun i => negb (xorb (holds E (get X i)) (holds E (get Y i)))) w).
    + rewrite bv_negb. rewrite (bv_bitwise Z.lxor xorb); auto; [intros; apply Z.lxor_spec|apply lxor_range; apply bv_range].
    + apply bv_ext. intros i Hi. rewrite (bvec_eq E X Y) by (auto; lia). destruct (holds E (get X i)), (holds E (get Y i)); reflexivity.
Qed.
Lemma bb_ult_sound : rule_sound r_bb_ult.
Proof.
  apply bin_sound; [intros ss; apply bin2_wt; auto|]. intros I E HE w x y X Y t H [Lx Hx] [Ly Hy] Bx By Ex Ey. destruct w as [|n]; [discriminate|]. cbn [Nat.eqb] in H.
  injection H as <-. rewrite Nat.sub_0_r. rewrite lt_loop_val by (auto; lia). rewrite Hx, Hy. reflexivity.
Qed.
Lemma bb_slt_sound : rule_sound r_bb_slt.
Proof.
  apply bin_sound; [intros ss; apply bin2_wt; auto|]. intros I E HE w x y X Y t H [Lx Hx] [Ly Hy] Bx By Ex Ey.
  transitivity (VB (Z.ltb (bvsigned w (bvz (eval x E))) (bvsigned w (bvz (eval y E)))) : value I).
  { cbn [eval map eval_op bvcmp bin2]. rewrite Ex. reflexivity. }
  destruct w as [|n]; [discriminate|]. cbn [Nat.eqb] in H. rewrite <- Hx, <- Hy, bv_slt. destruct n as [|n]; cbn [Nat.eqb] in H.
  - injection H as <-. rewrite !bv_0. cbn [Z.ltb Z.compare]. rewrite andb_false_r. cbn [orb]. rewrite <- holds_not, <- holds_and'. reflexivity.
  - injection H as <-. rewrite ?Nat.sub_0_r.
    rewrite <- (bvec_eq E X Y (S n)) by (auto; lia). pose proof (lt_loop_val E X Y n Bx By ltac:(lia) ltac:(lia)) as Hl.
    assert (Hlt : Z.ltb (bv (fun i => holds E (get X i)) (S n)) (bv (fun i => holds E (get Y i)) (S n)) = holds E (lt_loop X Y (seq 1 n))) by (unfold holds at 3; rewrite Hl; reflexivity).
    rewrite Hlt. rewrite <- holds_not, <- !holds_and', <- holds_or'. reflexivity.
Qed.
Lemma bb_equal_sound : rule_sound r_bb_equal.
Proof.
  apply bin_sound; [intros ss H; exact H|]. intros I E HE w x y X Y t H Hx Hy Bx By Ex Ey. rewrite (conj_eqs_val E w X Y t _ _ H Hx Hy Bx By).
  cbn [eval map eval_op chain]. rewrite andb_true_r. f_equal. rewrite Ex, Ey at 1. unfold veqb, veqb_. rewrite Nat.eqb_refl. reflexivity.
Qed.
Lemma bb_comp_sound : rule_sound r_bb_comp.
Proof.
  apply bin_sound; [intros ss; apply bin2_wt; auto|]. intros I E HE w x y X Y t H Hx Hy Bx By Ex Ey. st H e He. injection H as <-.
  rewrite eval_bb. cbn [List.length]. rewrite bv_S, bv_0. unfold get. cbn [nth]. unfold holds. rewrite (conj_eqs_val E w X Y e _ _ He Hx Hy Bx By).
  cbn [eval map eval_op bin2 truth Z.of_nat]. f_equal. unfold b2z. destruct (Z.eqb _ _); reflexivity.
Qed.
(** unary operators *)
Lemma un_sound o f : (forall ss, op_wt o ss = true -> exists w, ss = [SBV w]) ->
  (forall I (E : env I), env_ok E -> forall w x X, vec E X w (bvz (eval x E)) ->
     eval x E = VBV w (bvz (eval x E)) -> eval (TOp o [x]) E = eval (f w X) E) -> rule_sound (r_bb_un o f).
Proof.
  intros Hw Hf. apply eq_rule_sound. intros c ps args H Hc. unfold r_bb_un in H. one_eq H a b.
  st H x Hx. apply m_op1_ok in Hx. subst a. st H w Hsz. apply bv_size_ok in Hsz. st H X HX. apply teq_ok in H. subst b.
  apply bits_of_ok in HX. subst X. eexists _, _. split; [reflexivity|]. intros Ha _ _ I E HE. apply wt_op_args in Ha. destruct Ha as [Ha1 _].
  cbn [forallb] in Ha1. rewrite andb_true_r in Ha1. apply (Hf I E HE w x); [apply (vec_term E HE); auto|apply (bv_val E HE); auto].
Qed.
Lemma bb_not_sound : rule_sound r_bb_not.
Proof.
  apply un_sound; [intros [|[] [|]]; try discriminate; eauto|]. intros I E HE w x X [Lx Hx] Ex. rewrite eval_bb_map. rewrite (bv_ext _ (fun i => negb (holds E (get X i)))) by reflexivity.
  rewrite bv_negb, Hx. cbn [eval map eval_op]. rewrite Ex. reflexivity.
Qed.
Lemma bb_neg_sound : rule_sound r_bb_neg.
Proof.
  apply un_sound; [intros [|[] [|]]; try discriminate; eauto|]. intros I E HE w x X [Lx Hx] Ex. rewrite eval_bb.
  set (nx := map tNot X). set (zs := map (fun _ => tFalse) X).
  assert (Ln : List.length nx = w) by (unfold nx; rewrite map_length; auto). assert (Lz : List.length zs = w) by (unfold zs; rewrite map_length; auto).
  assert (Hn : forall i, i < w -> holds E (get nx i) = negb (holds E (get X i))).
  { intros i Hi. unfold get, nx. rewrite (nth_indep _ tFalse (tNot tFalse)) by (rewrite map_length; lia). rewrite map_nth. reflexivity. }
  assert (Hz : forall i, i < w -> holds E (get zs i) = false).
  { intros i Hi. unfold get, zs. rewrite (map_nth (fun _ => tFalse) X tFalse i). reflexivity. }
  assert (Hl : List.length (sums nx zs (carries nx zs tTrue w) w) = w) by (unfold sums; rewrite map_length, seq_length; auto). rewrite Hl.
  rewrite sums_val by (split; auto). rewrite (bv_ext _ _ w Hn), (bv_ext _ (fun _ => false) w Hz). rewrite bv_negb, bv_false, Hx. change (b2z (holds E tTrue)) with 1%Z.
  cbn [eval map eval_op]. rewrite Ex. cbn [bvw bvz]. f_equal. unfold bvneg, bvmod.
  replace (2 ^ Z.of_nat w - 1 - bvz (eval x E) + 0 + 1)%Z with (- bvz (eval x E) + 1 * 2 ^ Z.of_nat w)%Z by lia. rewrite Z.mod_add by (pose proof (pow2pos w); lia). reflexivity.
Qed.
(** literals and variables *)
Lemma const_bits_ok {I} (E : env I) l bs : const_bits l = ROk bs -> map (holds E) l = bs.
Proof.
  revert bs. induction l as [|a r IH]; intros bs H; cbn [const_bits] in H; [injection H as <-; reflexivity|].
  st H b Hb. st H bs' Hbs. injection H as <-. cbn [map]. rewrite (IH _ Hbs). f_equal.
  destruct (term_eqb a tTrue) eqn:E1; [apply term_eqb_eq in E1; subst; injection Hb as <-; reflexivity|].
  destruct (term_eqb a tFalse) eqn:E2; [apply term_eqb_eq in E2; subst; injection Hb as <-; reflexivity|discriminate].
Qed.
Lemma bb_const_sound : rule_sound r_bb_const.
Proof.
  apply eq_rule_sound. intros c ps args H Hc. unfold r_bb_const in H. one_eq H a b. st H l Hl. apply m_ops_ok in Hl. subst b.
  destruct a as [[|? |?|m size]| | | | | | |]; try discriminate. st H u Hu. apply rassert_ok, Nat.eqb_eq in Hu. st H bs Hbs. apply rassert_ok, Z.eqb_eq in H.
  eexists _, _. split; [reflexivity|]. intros _ _ _ I E HE. apply (const_bits_ok E) in Hbs. subst bs size m.
  change (TOp OBvBbTerm l) with (tBb l). rewrite eval_bb, bits_get. cbn [eval eval_const]. unfold bvmod. rewrite Z.mod_small by apply bv_range. reflexivity.
Qed.
Lemma bb_var_sound : rule_sound r_bb_var.
Proof.
  apply eq_rule_sound. intros c ps args H Hc. unfold r_bb_var in H. one_eq H a b. cbn [fst snd] in H. destruct (sort_of a) as [| | | | | | | | |w| |] eqn:Hs; try discriminate.
  apply teq_ok in H. subst b. eexists _, _. split; [reflexivity|]. intros Ha _ _ I E HE. destruct (vec_term E HE a w Ha Hs) as [[Hl Hv] _].
  rewrite eval_bb, Hl, Hv. apply (bv_val E HE); auto.
Qed.
(** extraction *)
Lemma extract_loop_ok e l : forall i, extract_loop e i l = ROk tt -> forall k, k < List.length l -> e (i + k) = ROk (get l k).
Proof.
  induction l as [|a r IH]; intros i H k Hk; [cbn in Hk; lia|]. cbn [extract_loop] in H. st H x Hx. st H u Hu. apply teq_ok in Hu. subst x.
  destruct k as [|k]; [rewrite Nat.add_0_r; exact Hx|]. cbn [List.length] in Hk. replace (i + S k) with (S i + k) by lia. apply (IH _ H). lia.
Qed.
Lemma bb_extract_sound : rule_sound r_bb_extract.
Proof.
  apply eq_rule_sound. intros c ps args H Hc. unfold r_bb_extract in H. one_eq H a b. st H l Hl. apply m_ops_ok in Hl. subst b. cbn [fst snd] in H.
  destruct a as [| | | | | | |[] [|ti [|tj [|]]] [|x [|]]]; try discriminate. st H j Hj.
  assert (Ej : as_const_nat tj = Some j) by (destruct (as_const_nat tj); cbn in Hj; [injection Hj as ->; auto|discriminate]). clear Hj.
  eexists _, _. split; [reflexivity|]. intros Ha Hb Hs I E HE. cbn [wt forallb] in Ha. rewrite !andb_true_iff in Ha. destruct Ha as [[Hx _] Hp].
  unfold pop_wt in Hp. cbn [map] in Hp. rewrite Ej in Hp. destruct (as_const_nat ti) as [i|] eqn:Ei; [|discriminate].
  destruct (sort_of x) as [| | | | | | | | |w| |] eqn:Hsx; try discriminate. apply andb_true_iff in Hp. destruct Hp as [Hi Hji]. apply Nat.ltb_lt in Hi. pose proof Hji as Hji'. apply Nat.leb_le in Hji.
  assert (Hlen : List.length l = i - j + 1).
  { change (TOp OBvBbTerm l) with (tBb l) in Hs. unfold tBb in Hs. rewrite (wt_op_sort _ _ Hb) in Hs. cbn [op_sort] in Hs. rewrite map_length in Hs.
    cbn [sort_of pop_sort] in Hs. rewrite Ei, Ej, Hji' in Hs. injection Hs as Hs. lia. }
  change (TOp OBvBbTerm l) with (tBb l). rewrite eval_bb, Hlen.
  assert (Hbit : forall k, k < i - j + 1 -> holds E (get l k) = Z.testbit (bvz (eval x E)) (Z.of_nat (j + k))).
  { intros k Hk. destruct (as_op OBvBbTerm x) as [bargs|] eqn:Ho.
    - apply as_op_some in Ho. subst x. pose proof (extract_loop_ok _ _ _ H k ltac:(lia)) as Hg. apply idx_ok in Hg. change (TOp OBvBbTerm bargs) with (tBb bargs) in *.
      destruct (vec_term E HE (tBb bargs) w Hx Hsx) as [[Hl1 Hv] _]. rewrite <- Hv. unfold build_term_vec in *. unfold tBb in Hl1 |- *. rewrite as_op_TOp in *. rewrite testbit_bv by lia.
      apply (nth_error_nth _ _ tFalse) in Hg. unfold get at 2. rewrite Hg. reflexivity.
    - pose proof (extract_loop_ok _ _ _ H k ltac:(lia)) as Hg. injection Hg as <-. unfold holds. rewrite holds_bit_of. reflexivity. }
  rewrite (bv_ext _ (fun k => Z.testbit (bvz (eval x E) / 2 ^ Z.of_nat j) (Z.of_nat k))).
  - rewrite bv_testbit. cbn [eval map]. unfold eval_pop. cbn [map]. rewrite Ei, Ej. reflexivity.
  - intros k Hk. rewrite Hbit by auto. rewrite Z.div_pow2_bits by lia. f_equal. lia.
Qed.
(** concatenation *)
Lemma concat_bits_app l1 : forall l2 p, concat_bits (l1 ++ l2)%list = ROk p ->
  exists p1 p2, concat_bits l1 = ROk p1 /\ concat_bits l2 = ROk p2 /\ p = ((fst p1 ++ fst p2)%list, snd p1 + snd p2).
Proof.
  induction l1 as [|a r IH]; intros l2 p H; cbn [app concat_bits] in *.
  - exists ([], 0), p. repeat split; auto. destruct p; reflexivity.
  - st H w Hw. st H q Hq. injection H as <-. destruct (IH _ _ Hq) as [p1 [p2 [H1 [H2 ->]]]]. rewrite Hw, H1. cbn [obind fst snd].
    eexists _, _. split; [reflexivity|]. split; [eassumption|]. cbn [fst snd]. rewrite app_assoc, Nat.add_assoc. reflexivity.
Qed.
Definition cat2 {I} (a b : value I) : value I := VBV (bvw a + bvw b) (bvz a * 2 ^ Z.of_nat (bvw b) + bvz b).
Lemma concat_val {I} (E : env I) (HE : env_ok E) a l p : forallb wt (a :: l) = true -> concat_bits (rev (a :: l)) = ROk p ->
  fold_left cat2 (map (fun t => eval t E) l) (eval a E) = VBV (List.length (fst p)) (bits_val (map (holds E) (fst p))) /\ snd p = List.length (fst p).
Proof.
  revert p. induction l as [|b l IH] using rev_ind; intros p Hw H.
  - cbn [rev app concat_bits] in H. st H w Hs. apply bv_size_ok in Hs. cbn [obind fst snd] in H. injection H as <-. cbn [fst snd map fold_left].
    cbn [forallb] in Hw. rewrite andb_true_r in Hw. destruct (vec_term E HE a w Hw Hs) as [[Hl Hv] _]. rewrite app_nil_r, bits_get, Hl, Hv. split; [apply (bv_val E HE); auto|lia].
  - change (a :: l ++ [b])%list with ((a :: l) ++ [b])%list in *. rewrite rev_app_distr in H. cbn [rev] in H. change ([b] ++ (rev l ++ [a]))%list with (b :: (rev (a :: l)))%list in H. cbn [concat_bits] in H.
    st H w Hs. apply bv_size_ok in Hs. st H q Hq. injection H as <-. rewrite forallb_app in Hw. apply andb_true_iff in Hw. destruct Hw as [Hw1 Hw2]. cbn [forallb] in Hw2. rewrite andb_true_r in Hw2.
    destruct (IH q Hw1 Hq) as [H1 H2]. rewrite map_app, fold_left_app, H1. cbn [map fold_left fst snd].
    destruct (vec_term E HE b w Hw2 Hs) as [[Hl Hv] _]. destruct (bv_val E HE b w Hw2 Hs) as [Hbw [_ Hbe]]. unfold cat2. cbn [bvw bvz]. rewrite Hbw, app_length, map_app, bits_val_app, map_length, !bits_get, Hl, Hv.
    split; [f_equal; lia|lia].
Qed.
Lemma bb_concat_sound : rule_sound r_bb_concat.
Proof.
  apply eq_rule_sound. intros c ps args H Hc. unfold r_bb_concat in H. one_eq H a b. cbn [fst snd] in H. st H l Hl. apply m_ops_ok in Hl. subst a. st H res Hres. apply m_ops_ok in Hres. subst b.
  st H u Hu. st H p Hp. st H u' Hu'. apply teq_ok in H. injection H as H. subst res.
  eexists _, _. split; [reflexivity|]. intros Ha _ _ I E HE. apply wt_op_args in Ha. destruct Ha as [Ha1 Ha2].
  destruct l as [|a1 [|a2 l]]; [discriminate|discriminate|]. destruct (concat_val E HE a1 (a2 :: l) p Ha1 Hp) as [H1 H2].
  change (TOp OBvBbTerm (fst p)) with (tBb (fst p)). rewrite eval_bb, <- bits_get, <- H1. reflexivity.
Qed.
(** sign extension *)
Lemma bits_repeat b n : bits_val (repeat b n) = (if b then 2 ^ Z.of_nat n - 1 else 0)%Z.
Proof. induction n as [|n IH]; [destruct b; reflexivity|]. cbn [repeat bits_val]. rewrite IH, pow2S. destruct b; lia. Qed.
Lemma bb_sign_extend_sound : rule_sound r_bb_sign_extend.
Proof.
  apply eq_rule_sound. intros c ps args H Hc. unfold r_bb_sign_extend in H. one_eq H a b. cbn [fst snd] in H.
  destruct a as [| | | | | | |[] [|ti [|]] [|x [|]]]; try discriminate. st H i Hi.
  assert (Ei : as_const_nat ti = Some i) by (destruct (as_const_nat ti); cbn in Hi; [injection Hi as ->; auto|discriminate]). clear Hi.
  assert (Hev : forall I (E : env I), eval (TPOp PSignExtend [ti] [x]) E = VBV (i + bvw (eval x E)) (bvmod (i + bvw (eval x E)) (bvsigned (bvw (eval x E)) (bvz (eval x E))))).
  { intros I E. cbn [eval map]. unfold eval_pop. cbn [map]. rewrite Ei. reflexivity. }
  assert (Hsg : forall w z, (0 <= z < 2 ^ Z.of_nat w)%Z -> w <> 0 -> Z.testbit z (Z.of_nat w - 1) = false -> bvsigned w z = z) by (intros w z _ _ Ht; unfold bvsigned; rewrite Ht; auto).
  eexists _, _. split; [reflexivity|]. intros Ha Hb Hs I E HE. cbn [wt forallb] in Ha. rewrite !andb_true_iff in Ha. destruct Ha as [[Hx _] Hp].
  unfold pop_wt in Hp. cbn [map] in Hp. rewrite Ei in Hp. destruct (sort_of x) as [| | | | | | | | |w| |] eqn:Hsx; try discriminate.
  destruct (bv_val E HE x w Hx Hsx) as [Hw [Hr He]]. rewrite Hev, Hw. destruct (Nat.eqb i 0) eqn:Hi0.
  - apply Nat.eqb_eq in Hi0. rewrite Hi0. apply teq_ok in H. subst b. rewrite He. cbn [Nat.add bvz]. f_equal. unfold bvmod, bvsigned. destruct (Z.testbit _ _); [|apply Z.mod_small; auto].
    replace (bvz (eval x E) - 2 ^ Z.of_nat w)%Z with (bvz (eval x E) + (-1) * 2 ^ Z.of_nat w)%Z by lia. rewrite Z.mod_add by (pose proof (pow2pos w); lia). apply Z.mod_small; auto.
  - st H w' Hw'. apply bv_size_ok in Hw'. rewrite Hsx in Hw'. injection Hw' as <-. st H xs Hxs. apply bits_of_ok in Hxs.
    destruct (vec_term E HE x w Hx Hsx) as [[Hl Hv] _]. rewrite <- Hxs in Hl, Hv. destruct w as [|n]; [discriminate|]. cbn [Nat.eqb] in H. apply teq_ok in H. subst b.
    rewrite eval_bb, <- bits_get, app_length, repeat_length, map_app, bits_val_app, map_length, bits_get, Hl, Hv. replace (S n - 1) with n by lia.
    assert (Hmap : map (holds E) (repeat (get xs n) i) = repeat (holds E (get xs n)) i) by (generalize i; intros k; induction k as [|k IH]; cbn; congruence).
    rewrite Hmap, bits_repeat, (Nat.add_comm i). f_equal. unfold bvmod, bvsigned. replace (Z.of_nat (S n) - 1)%Z with (Z.of_nat n) by lia.
    replace (Z.testbit (bvz (eval x E)) (Z.of_nat n)) with (holds E (get xs n)) by (rewrite <- Hv; symmetry; apply (testbit_bv (fun i => holds E (get xs i))); lia).
    rewrite Nat2Z.inj_add, Z.pow_add_r by lia. pose proof (pow2pos (S n)). pose proof (pow2pos i). set (P := (2 ^ Z.of_nat (S n))%Z) in *. set (Q := (2 ^ Z.of_nat i)%Z) in *.
    assert (Hq : (1 <= Q)%Z) by lia. destruct (holds E (get xs n)).
    + replace (bvz (eval x E) - P)%Z with (bvz (eval x E) + P * (Q - 1) + (-1) * (P * Q))%Z by lia. rewrite Z.mod_add by lia. apply Z.mod_small. nia.
    + rewrite Z.mod_small by nia. lia.
Qed.
Lemma bv_rules_sound n r : In (n, r) bv_rules -> rule_sound r.
Proof.
  intros H. cbn [In bv_rules] in H.
  repeat match type of H with
  | _ \/ _ => destruct H as [H|H]; [injection H as _ <-|]
  end; [apply bb_const_sound|apply bb_var_sound|apply bb_and_sound|apply bb_or_sound|apply bb_xor_sound|apply bb_xnor_sound|apply bb_not_sound|apply bb_comp_sound
       |apply bb_ult_sound|apply bb_slt_sound|apply bb_add_sound|apply bb_mult_sound|apply bb_neg_sound|apply bb_equal_sound|apply bb_extract_sound|apply bb_concat_sound
       |apply bb_sign_extend_sound|destruct H].
Qed.
Lemma bv_rules_same_value name r c ps args : In (name, r) bv_rules -> r c ps args = ROk tt -> clause_wt c = true ->
  exists a b, c = [TOp OEquals [a; b]] /\ forall (I : interp) (E : env I), env_ok E -> eval a E = eval b E.
Proof.
  intros Hin Hr Hc.
  assert (Hs : exists a b, c = [TOp OEquals [a; b]]).
  { cbn [In bv_rules] in Hin. repeat match type of Hin with _ \/ _ => destruct Hin as [Hin|Hin]; [injection Hin as _ <-|] end; try destruct Hin; clear Hc;
      unfold r_bb_and, r_bb_or, r_bb_xor, r_bb_add, r_bb_mult, r_bb_xnor, r_bb_ult, r_bb_slt, r_bb_equal, r_bb_comp, r_bb_not, r_bb_neg in Hr;
      (one_eq Hr a b; eexists _, _; reflexivity). }
  destruct Hs as [a [b ->]]. exists a, b. split; auto. intros I E HE.
  (* the rules take no premises into account *)
  assert (Hr' : r [TOp OEquals [a; b]] [] args = ROk tt).
  { revert Hr. cbn [In bv_rules] in Hin. repeat match type of Hin with _ \/ _ => destruct Hin as [Hin|Hin]; [injection Hin as _ <-; exact (fun H => H)|] end. destruct Hin. }
  pose proof (bv_rules_sound name r Hin [TOp OEquals [a; b]] [] args Hr' Hc eq_refl I E HE (fun p H => match H with end)) as H.
  apply clause_holds_one in H. apply eqv_iff in H. exact H.
Qed.
Lemma vec_eval {I} (E : env I) l w z : vec E l w z -> eval (tBb l) E = VBV w z.
Proof. intros [H1 H2]. rewrite eval_bb, H1, H2. reflexivity. Qed.
Lemma adder_correct {I} (E : env I) x y w t : env_ok E -> wt x = true -> wt y = true -> sort_of x = SBV w -> sort_of y = SBV w ->
  ripple_carry_adder x y w = ROk t -> eval t E = VBV w ((bvz (eval x E) + bvz (eval y E)) mod 2 ^ Z.of_nat w)%Z.
Proof.
  intros HE Hx Hy Sx Sy H. destruct (adder_vec E w x y t _ _ (proj1 (vec_term E HE x w Hx Sx)) (proj1 (vec_term E HE y w Hy Sy)) H) as [l [-> Hv]]. apply vec_eval. exact Hv.
Qed.
Lemma multiplier_correct {I} (E : env I) x y w t : env_ok E -> wt x = true -> wt y = true -> sort_of x = SBV w -> sort_of y = SBV w ->
  shift_add_multiplier x y w = ROk t -> eval t E = VBV w ((bvz (eval x E) * bvz (eval y E)) mod 2 ^ Z.of_nat w)%Z.
Proof.
  intros HE Hx Hy Sx Sy H. destruct (mult_vec E w x y t _ _ (proj1 (vec_term E HE x w Hx Sx)) (proj1 (vec_term E HE y w Hy Sy)) H) as [l [-> Hv]]. apply vec_eval. exact Hv.
Qed.
Lemma bits_of_term t w : wt t = true -> sort_of t = SBV w -> bits_of t w = ROk (build_term_vec t w).
Proof.
  intros Hw Hs. unfold bits_of. assert (Hl : List.length (build_term_vec t w) = w).
  { unfold build_term_vec. destruct (as_op OBvBbTerm t) as [l|] eqn:Ho; [|rewrite map_length, seq_length; auto].
    apply as_op_some in Ho. subst t. rewrite (wt_op_sort _ _ Hw) in Hs. cbn [op_sort] in Hs. rewrite map_length in Hs. congruence. }
  rewrite Hl, Nat.leb_refl. reflexivity.
Qed.
Lemma circuits_exist x y w : wt x = true -> wt y = true -> sort_of x = SBV (S w) -> sort_of y = SBV (S w) ->
  (exists t, ripple_carry_adder x y (S w) = ROk t) /\ (exists t, shift_add_multiplier x y (S w) = ROk t).
Proof.
  intros Hx Hy Sx Sy. unfold ripple_carry_adder, shift_add_multiplier. rewrite (bits_of_term x _ Hx Sx), (bits_of_term y _ Hy Sy). cbn [obind Nat.eqb]. eauto.
Qed.
