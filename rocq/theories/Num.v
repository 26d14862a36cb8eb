(** Numeric literals: the extraction functions of ast/term.rs:817-907. *)
From Coq Require Import List String ZArith QArith Qround Bool Arith Lia Field.
From Verif Require Import Term Field Sem Sorting Base Rules R_Taut.
Import ListNotations.
Local Open Scope nat_scope.

(** Rational::is_integer *)
Definition Qis_int (q : Q) : bool := Z.eqb (Z.modulo (Qnum q) (Zpos (Qden q))) 0.
(** numerator in lowest terms (rug keeps rationals canonical) *)
Definition Qnumer (q : Q) : Z := Qnum (Qred q).
Lemma Qis_int_floor q : Qis_int q = true -> (q == inject_Z (Qfloor q))%Q.
Proof.
  unfold Qis_int, Qfloor. destruct q as [n d]. simpl. intros H. apply Z.eqb_eq in H.
  unfold Qeq. simpl. rewrite (Z.div_mod n (Zpos d)) at 1 by lia. rewrite H. lia.
Qed.
Lemma Qis_int_inject z : Qis_int (inject_Z z) = true.
Proof. unfold Qis_int. simpl. rewrite Z.mod_1_r. reflexivity. Qed.
Lemma Qred_int q z : (q == inject_Z z)%Q -> Qred q = inject_Z z.
Proof.
  intros H. rewrite (Qred_complete _ _ H). unfold Qred, inject_Z.
  pose proof (Z.ggcd_gcd z 1) as Hg. pose proof (Z.ggcd_correct_divisors z 1) as Hd.
  destruct (Z.ggcd z 1) as [g [a b]]. simpl in Hg. rewrite Z.gcd_1_r in Hg. subst g.
  destruct Hd as [H1 H2]. rewrite Z.mul_1_l in H1, H2. subst a b. reflexivity.
Qed.
Lemma Qis_int_numer q : Qis_int q = true -> (q == inject_Z (Qnumer q))%Q.
Proof.
  intros H. apply Qis_int_floor in H. unfold Qnumer. rewrite (Qred_int _ _ H). exact H.
Qed.

(** as_number, term.rs:833-839 *)
Definition as_number (t : term) : option Q :=
  match t with
  | TConst (CReal r) => Some r
  | TConst (CInt i) => Some (inject_Z i)
  | _ => None
  end.
(** as_integer, term.rs:851-856 *)
Definition as_integer (t : term) : option Z := as_const_int t.
(** as_signed_number, term.rs:861-866 *)
Definition as_signed_number (t : term) : option Q :=
  match op1 OSub t with
  | Some x => option_map Qopp (as_number x)
  | None => as_number t
  end.
(** as_signed_integer, term.rs:871-876 *)
Definition as_signed_integer (t : term) : option Z :=
  match op1 OSub t with
  | Some x => option_map Z.opp (as_integer x)
  | None => as_integer t
  end.
(** is_signed_number, term.rs:824-829 *)
Definition is_number (t : term) : bool := match as_number t with Some _ => true | None => false end.
Definition is_signed_number (t : term) : bool :=
  match op1 OSub t with Some x => is_number x | None => is_number t end.
(** as_fraction, term.rs:893-907.  Dividing by a zero rational panics (crate rug). *)
Definition as_unsigned_fraction (t : term) : outcome (option Q) :=
  match (match op2 OIntDiv t with Some p => Some p | None => op2 ORealDiv t end) with
  | Some (a, b) =>
      match as_signed_number a, as_signed_number b with
      | Some x, Some y => if Qeq_bool y 0 then RPanic else ROk (Some (x / y)%Q)
      | _, _ => ROk None
      end
  | None => ROk (as_number t)
  end.
Definition as_fraction (t : term) : outcome (option Q) :=
  match op1 OSub t with
  | Some x => do r <- as_unsigned_fraction x ; ROk (option_map Qopp r)
  | None => as_unsigned_fraction t
  end.
(** [as_fraction_err] and friends, term.rs:1042-1085 *)
Definition as_number_err t := ok_or (as_number t).
Definition as_signed_number_err t := ok_or (as_signed_number t).
Definition as_signed_integer_err t := ok_or (as_signed_integer t).
Definition as_integer_err t := ok_or (as_integer t).
Definition as_fraction_err t : outcome Q := do o <- as_fraction t ; ok_or o.

(** ** Specification: where reading [(div a b)] as the exact quotient is right.
    [divs_exact t]: every application of [div] to two numerals inside [t] divides without remainder. *)
Definition div_exact1 (t : term) : bool :=
  match op2 OIntDiv t with
  | Some (a, b) =>
      match as_signed_number a, as_signed_number b with
      | Some x, Some y => if Qeq_bool y 0 then true else Qis_int x && Qis_int y && Qis_int (x / y)
      | _, _ => true
      end
  | None => true
  end.
Fixpoint divs_exact (t : term) : bool :=
  div_exact1 t &&
  match t with
  | TApp f l => divs_exact f && forallb divs_exact l
  | TOp _ l => forallb divs_exact l
  | TPOp _ _ l => forallb divs_exact l
  | TBind _ _ b => divs_exact b
  | TLet bs b => forallb (fun p => divs_exact (snd p)) bs && divs_exact b
  | _ => true
  end.
Lemma divs_exact_1 t : divs_exact t = true -> div_exact1 t = true.
Proof. destruct t; cbn [divs_exact]; intros H; apply andb_true_iff in H; tauto. Qed.
Lemma divs_exact_op o l : divs_exact (TOp o l) = true -> forallb divs_exact l = true.
Proof. cbn [divs_exact]. intros H. apply andb_true_iff in H. tauto. Qed.

Section S.
  Context {I : interp}.
  Add Field FNum : (o_th (iF I)).
  Implicit Types E : env I.
  Lemma as_number_eval E t q : as_number t = Some q -> eval t E = VN (injQ q).
  Proof.
    destruct t as [c| | | | | | |]; try discriminate. destruct c; try discriminate; simpl; intros H; injection H as <-.
    - unfold vint. rewrite injQ_Z. reflexivity.
    - reflexivity.
  Qed.
  Lemma as_signed_number_eval E t q : as_signed_number t = Some q -> eval t E = VN (injQ q).
  Proof.
    unfold as_signed_number. destruct (op1 OSub t) as [x|] eqn:Ex; [|apply as_number_eval].
    apply op1_some in Ex. subst t. destruct (as_number x) as [r|] eqn:Er; [|discriminate].
    intros H; injection H as <-. cbn [eval map]. rewrite (as_number_eval E _ _ Er). simpl. rewrite injQ_opp. reflexivity.
  Qed.
  Lemma Qeq_bool_false q : Qeq_bool q 0 = false -> ~ (q == 0)%Q.
  Proof. intros H Hq. apply Qeq_bool_iff in Hq. congruence. Qed.
  Lemma as_unsigned_fraction_eval E t q : as_unsigned_fraction t = ROk (Some q) -> div_exact1 t = true ->
    eval t E = VN (injQ q).
  Proof.
    unfold as_unsigned_fraction, div_exact1. destruct (op2 OIntDiv t) as [[a b]|] eqn:Ei.
    - apply op2_some in Ei. subst t. destruct (as_signed_number a) as [x|] eqn:Ea; [|discriminate].
      destruct (as_signed_number b) as [y|] eqn:Eb; [|discriminate].
      destruct (Qeq_bool y 0) eqn:Ey; [discriminate|]. intros H; injection H as <-.
      rewrite !andb_true_iff. intros [[Hx Hy] Hq]. cbn [eval map eval_op fold1 fold_left].
      rewrite (as_signed_number_eval E _ _ Ea), (as_signed_number_eval E _ _ Eb). unfold idiv. cbn [num].
      rewrite <- (injQ_0 (iF I)), injQ_eqb, Ey. unfold vint. f_equal.
      apply Qis_int_floor in Hx, Hy, Hq. set (n := Qfloor x) in *. set (m := Qfloor y) in *. set (k := Qfloor (x / y)) in *.
      apply Qeq_bool_false in Ey.
      rewrite (injQ_eq _ _ _ Hx), (injQ_eq _ _ _ Hy), (injQ_eq _ _ _ Hq), !injQ_Z, !floor_inj.
      f_equal. assert (Hm : m <> 0%Z). { intros ->. apply Ey. rewrite Hy. reflexivity. }
      assert (Hnk : n = (k * m)%Z).
      { apply inject_Z_injective. rewrite inject_Z_mult, <- Hx, <- Hy, <- Hq. field. exact Ey. }
      rewrite Hnk. unfold ediv. destruct (Z.ltb_spec m 0).
      + replace (k * m)%Z with ((- k) * (- m))%Z by lia. rewrite Z.div_mul by lia. lia.
      + rewrite Z.div_mul by lia. reflexivity.
    - destruct (op2 ORealDiv t) as [[a b]|] eqn:Er; [|intros H _; injection H as H; apply as_number_eval; exact H].
      apply op2_some in Er. subst t. destruct (as_signed_number a) as [x|] eqn:Ea; [|discriminate].
      destruct (as_signed_number b) as [y|] eqn:Eb; [|discriminate].
      destruct (Qeq_bool y 0) eqn:Ey; [discriminate|]. intros H _; injection H as <-.
      cbn [eval map eval_op fold1 fold_left].
      rewrite (as_signed_number_eval E _ _ Ea), (as_signed_number_eval E _ _ Eb). unfold rdiv. cbn [num].
      rewrite <- (injQ_0 (iF I)), injQ_eqb, Ey. f_equal. symmetry. apply injQ_div. apply Qeq_bool_false; auto.
  Qed.
  Lemma as_fraction_eval E t q : as_fraction t = ROk (Some q) -> divs_exact t = true -> eval t E = VN (injQ q).
  Proof.
    unfold as_fraction. destruct (op1 OSub t) as [x|] eqn:Ex.
    - apply op1_some in Ex. subst t. intros H Hd. apply obind_ok in H. destruct H as [r [Hr H]].
      destruct r as [r|]; [|discriminate]. injection H as <-.
      apply divs_exact_op in Hd. simpl in Hd. rewrite andb_true_r in Hd.
      cbn [eval map]. rewrite (as_unsigned_fraction_eval E _ _ Hr (divs_exact_1 _ Hd)). simpl. rewrite injQ_opp. reflexivity.
    - intros H Hd. apply as_unsigned_fraction_eval; auto. apply divs_exact_1; auto.
  Qed.
End S.
