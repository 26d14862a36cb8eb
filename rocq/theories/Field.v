(** Archimedean ordered fields: the numeric domain of interpretations (specification side).
    The reals and the rationals are instances; integers are embedded by [inj]. *)
From Coq Require Import ZArith QArith Qcanon Qround Field Ring InitialRing Setoid Lia Bool.

Record ofield : Type := mkOF {
  car :> Type;
  o0 : car; o1 : car;
  oadd : car -> car -> car; omul : car -> car -> car; osub : car -> car -> car; oopp : car -> car;
  odiv : car -> car -> car; oinv : car -> car;
  o_th : field_theory o0 o1 oadd omul osub oopp odiv oinv (@eq car);
  oleb : car -> car -> bool;
  ole_antisym : forall x y, oleb x y = true -> oleb y x = true -> x = y;
  ole_trans : forall x y z, oleb x y = true -> oleb y z = true -> oleb x z = true;
  ole_total : forall x y, oleb x y = true \/ oleb y x = true;
  ole_add : forall x y z, oleb x y = true -> oleb (oadd x z) (oadd y z) = true;
  ole_mul : forall x y, oleb o0 x = true -> oleb o0 y = true -> oleb o0 (omul x y) = true;
  ofloor : car -> Z;
  ofloor_lb : forall x, oleb (gen_phiZ o0 o1 oadd omul oopp (ofloor x)) x = true;
  ofloor_ub : forall x, oleb (gen_phiZ o0 o1 oadd omul oopp (ofloor x + 1)) x = false
}.

Arguments o0 {_}. Arguments o1 {_}. Arguments oadd {_}. Arguments omul {_}. Arguments osub {_}.
Arguments oopp {_}. Arguments odiv {_}. Arguments oinv {_}. Arguments oleb {_}. Arguments ofloor {_}.

Declare Scope of_scope.
Delimit Scope of_scope with of.
Infix "+" := oadd : of_scope.
Infix "*" := omul : of_scope.
Infix "-" := osub : of_scope.
Infix "/" := odiv : of_scope.
Notation "- x" := (oopp x) : of_scope.
Notation "0" := o0 : of_scope.
Notation "1" := o1 : of_scope.

Definition ole {F : ofield} (x y : F) : Prop := oleb x y = true.
Definition oltb {F : ofield} (x y : F) : bool := negb (oleb y x).
Definition olt {F : ofield} (x y : F) : Prop := oleb y x = false.
Definition oeqb {F : ofield} (x y : F) : bool := oleb x y && oleb y x.
Infix "<=" := ole : of_scope.
Infix "<" := olt : of_scope.

Definition inj {F : ofield} (z : Z) : F := gen_phiZ o0 o1 oadd omul oopp z.
Definition injQ {F : ofield} (q : Q) : F := odiv (inj (Qnum q)) (inj (Zpos (Qden q))).

Section OF.
  Context (F : ofield).
  Add Field Ffield : (o_th F).
  Local Open Scope of_scope.
  Implicit Types x y z : F.

  Lemma oadd_0_l x : 0 + x = x.
  Proof. ring. Qed.
  Lemma omul_1_l x : 1 * x = x.
  Proof. ring. Qed.
  Lemma le_refl x : x <= x.
  Proof. destruct (ole_total F x x); assumption. Qed.
  Lemma le_trans x y z : x <= y -> y <= z -> x <= z.
  Proof. apply ole_trans. Qed.
  Lemma le_antisym x y : x <= y -> y <= x -> x = y.
  Proof. apply ole_antisym. Qed.
  Lemma lt_le x y : x < y -> x <= y.
  Proof. unfold olt, ole. intros H. destruct (ole_total F x y); [assumption|congruence]. Qed.
  Lemma lt_irrefl x : ~ x < x.
  Proof. unfold olt. pose proof (le_refl x) as H. unfold ole in H. congruence. Qed.
  Lemma le_lt_dec x y : {x <= y} + {y < x}.
  Proof. unfold ole, olt. destruct (oleb x y); [left|right]; reflexivity. Defined.
  Lemma not_le_lt x y : ~ x <= y <-> y < x.
  Proof. unfold ole, olt. destruct (oleb x y); split; intuition congruence. Qed.
  Lemma not_lt_le x y : ~ x < y <-> y <= x.
  Proof. unfold ole, olt. destruct (oleb y x); split; intuition congruence. Qed.
  Lemma lt_le_trans x y z : x < y -> y <= z -> x < z.
  Proof.
    intros H1 H2. apply not_le_lt. intros H3.
    apply not_le_lt in H1. apply H1. eapply le_trans; eassumption.
  Qed.
  Lemma le_lt_trans x y z : x <= y -> y < z -> x < z.
  Proof.
    intros H1 H2. apply not_le_lt. intros H3.
    apply not_le_lt in H2. apply H2. eapply le_trans; eassumption.
  Qed.
  Lemma lt_trans x y z : x < y -> y < z -> x < z.
  Proof. intros H1 H2. eapply lt_le_trans; [eassumption|apply lt_le; assumption]. Qed.
  Lemma oeqb_eq x y : oeqb x y = true <-> x = y.
  Proof.
    unfold oeqb. rewrite andb_true_iff. split.
    - intros [H1 H2]. apply le_antisym; assumption.
    - intros ->. split; apply le_refl.
  Qed.
  Lemma oltb_lt x y : oltb x y = true <-> x < y.
  Proof. unfold oltb, olt. destruct (oleb y x); simpl; intuition congruence. Qed.
  Lemma oltb_nlt x y : oltb x y = false <-> y <= x.
  Proof. unfold oltb, ole. destruct (oleb y x); simpl; intuition congruence. Qed.
  Lemma lt_or_eq x y : x <= y -> x < y \/ x = y.
  Proof.
    intros H. destruct (le_lt_dec y x) as [H1|H1]; [right; apply le_antisym; assumption|left; exact H1].
  Qed.
  Lemma lt_neq x y : x < y -> x <> y.
  Proof. intros H ->. apply (lt_irrefl y H). Qed.

  Lemma add_le_r x y z : x <= y -> x + z <= y + z.
  Proof. apply ole_add. Qed.
  Lemma add_le_l x y z : x <= y -> z + x <= z + y.
  Proof. intros H. replace (z + x) with (x + z) by ring. replace (z + y) with (y + z) by ring. apply add_le_r, H. Qed.
  Lemma add_le x y z w : x <= y -> z <= w -> x + z <= y + w.
  Proof. intros H1 H2. eapply le_trans; [apply add_le_r, H1|apply add_le_l, H2]. Qed.
  Lemma add_le_cancel_r x y z : x + z <= y + z -> x <= y.
  Proof.
    intros H. apply (add_le_r _ _ (- z)) in H.
    replace (x + z + - z) with x in H by ring. replace (y + z + - z) with y in H by ring. exact H.
  Qed.
  Lemma add_lt_r x y z : x < y -> x + z < y + z.
  Proof.
    intros H. apply not_le_lt. intros H1. apply add_le_cancel_r in H1. apply not_le_lt in H. auto.
  Qed.
  Lemma add_lt_l x y z : x < y -> z + x < z + y.
  Proof. intros H. replace (z + x) with (x + z) by ring. replace (z + y) with (y + z) by ring. apply add_lt_r, H. Qed.
  Lemma add_lt_le x y z w : x < y -> z <= w -> x + z < y + w.
  Proof. intros H1 H2. eapply lt_le_trans; [apply add_lt_r, H1|apply add_le_l, H2]. Qed.
  Lemma add_le_lt x y z w : x <= y -> z < w -> x + z < y + w.
  Proof. intros H1 H2. eapply le_lt_trans; [apply add_le_r, H1|apply add_lt_l, H2]. Qed.
  Lemma le_sub x y : x <= y <-> 0 <= y - x.
  Proof.
    split; intros H.
    - apply (add_le_r _ _ (- x)) in H. replace (x + - x) with (0:F) in H by ring.
      replace (y + - x) with (y - x) in H by ring. exact H.
    - apply (add_le_r _ _ x) in H. replace (0 + x) with x in H by ring.
      replace (y - x + x) with y in H by ring. exact H.
  Qed.
  Lemma lt_sub x y : x < y <-> 0 < y - x.
  Proof.
    split; intros H.
    - apply (add_lt_r _ _ (- x)) in H. replace (x + - x) with (0:F) in H by ring.
      replace (y + - x) with (y - x) in H by ring. exact H.
    - apply (add_lt_r _ _ x) in H. replace (0 + x) with x in H by ring.
      replace (y - x + x) with y in H by ring. exact H.
  Qed.
  Lemma opp_le x y : x <= y <-> - y <= - x.
  Proof. rewrite (le_sub x y), (le_sub (-y) (-x)). replace (- x - - y) with (y - x) by ring. reflexivity. Qed.
  Lemma opp_lt x y : x < y <-> - y < - x.
  Proof. rewrite (lt_sub x y), (lt_sub (-y) (-x)). replace (- x - - y) with (y - x) by ring. reflexivity. Qed.
  Lemma opp_nonneg x : x <= 0 <-> 0 <= - x.
  Proof. rewrite (opp_le x 0). replace (- (0:F)) with (0:F) by ring. reflexivity. Qed.
  Lemma opp_pos x : x < 0 <-> 0 < - x.
  Proof. rewrite (opp_lt x 0). replace (- (0:F)) with (0:F) by ring. reflexivity. Qed.

  Lemma mul_nonneg x y : 0 <= x -> 0 <= y -> 0 <= x * y.
  Proof. apply ole_mul. Qed.
  Lemma one_neq_zero : (1:F) <> 0.
  Proof. apply (F_1_neq_0 (o_th F)). Qed.
  Lemma zero_le_one : (0:F) <= 1.
  Proof.
    destruct (ole_total F 0 1) as [H|H]; [exact H|].
    replace (1:F) with ((-(1)) * (-(1)):F) by ring. apply mul_nonneg; apply (proj1 (opp_nonneg _)); exact H.
  Qed.
  Lemma zero_lt_one : (0:F) < 1.
  Proof.
    destruct (lt_or_eq _ _ zero_le_one) as [H|H]; [exact H|]. exfalso. apply one_neq_zero. symmetry; exact H.
  Qed.
  Lemma mul_eq_0 x y : x * y = 0 -> x = 0 \/ y = 0.
  Proof.
    intros H. destruct (oeqb x 0) eqn:E; [left; apply oeqb_eq, E|right].
    assert (Hx : x <> 0) by (intros ->; rewrite (proj2 (oeqb_eq 0 0) eq_refl) in E; discriminate).
    replace y with (x * y / x) by (field; exact Hx). rewrite H. field. exact Hx.
  Qed.
  Lemma mul_pos x y : 0 < x -> 0 < y -> 0 < x * y.
  Proof.
    intros Hx Hy. destruct (lt_or_eq 0 (x*y)) as [H|H]; [apply mul_nonneg; apply lt_le; assumption|exact H|].
    exfalso. symmetry in H. apply mul_eq_0 in H.
    destruct H as [H|H]; [apply lt_neq in Hx|apply lt_neq in Hy]; congruence.
  Qed.
  Lemma mul_le_l x y z : 0 <= z -> x <= y -> z * x <= z * y.
  Proof.
    intros Hz H. apply le_sub. replace (z * y - z * x) with (z * (y - x)) by ring.
    apply mul_nonneg; [exact Hz|]. apply (proj1 (le_sub _ _)), H.
  Qed.
  Lemma mul_lt_l x y z : 0 < z -> x < y -> z * x < z * y.
  Proof.
    intros Hz H. apply lt_sub. replace (z * y - z * x) with (z * (y - x)) by ring.
    apply mul_pos; [exact Hz|]. apply (proj1 (lt_sub _ _)), H.
  Qed.
  Lemma mul_le_cancel x y z : 0 < z -> z * x <= z * y -> x <= y.
  Proof.
    intros Hz H. destruct (le_lt_dec x y) as [H1|H1]; [exact H1|exfalso].
    apply (mul_lt_l _ _ z Hz) in H1. apply not_le_lt in H1. auto.
  Qed.
  Lemma mul_lt_cancel x y z : 0 < z -> z * x < z * y -> x < y.
  Proof.
    intros Hz H. apply not_le_lt. intros H1. apply (mul_le_l _ _ z (lt_le _ _ Hz)) in H1.
    apply not_le_lt in H. auto.
  Qed.

  (** integers *)
  Lemma inj_morph : ring_morph (o0:F) o1 oadd omul osub oopp eq Z0 1%Z Z.add Z.mul Z.sub Z.opp Zeq_bool inj.
  Proof.
    unfold inj. apply gen_phiZ_morph; [apply Eqsth|apply Eq_ext|apply (F_R (o_th F))].
  Qed.
  Lemma inj_0 : inj 0 = (0:F). Proof. reflexivity. Qed.
  Lemma inj_1 : inj 1 = (1:F). Proof. reflexivity. Qed.
  Lemma inj_add a b : inj (a + b) = (inj a + inj b : F).
  Proof. apply (morph_add inj_morph). Qed.
  Lemma inj_mul a b : inj (a * b) = (inj a * inj b : F).
  Proof. apply (morph_mul inj_morph). Qed.
  Lemma inj_sub a b : inj (a - b) = (inj a - inj b : F).
  Proof. apply (morph_sub inj_morph). Qed.
  Lemma inj_opp a : inj (- a) = (- inj a : F).
  Proof. apply (morph_opp inj_morph). Qed.
  Lemma inj_nonneg_nat n : (0:F) <= inj (Z.of_nat n).
  Proof.
    induction n as [|n IH]; [apply le_refl|].
    rewrite Nat2Z.inj_succ. unfold Z.succ. rewrite inj_add, inj_1.
    eapply le_trans; [exact IH|]. replace (inj (Z.of_nat n)) with (inj (Z.of_nat n) + 0 : F) at 1 by ring.
    apply add_le_l, zero_le_one.
  Qed.
  Lemma inj_nonneg a : (0 <= a)%Z -> (0:F) <= inj a.
  Proof. intros H. rewrite <- (Z2Nat.id a H). apply inj_nonneg_nat. Qed.
  Lemma inj_pos a : (0 < a)%Z -> (0:F) < inj a.
  Proof.
    intros H. replace a with ((a - 1) + 1)%Z by lia. rewrite inj_add, inj_1.
    replace (0:F) with (0 + 0:F) by ring. apply add_le_lt; [apply inj_nonneg; lia|apply zero_lt_one].
  Qed.
  Lemma inj_le a b : (a <= b)%Z <-> (inj a : F) <= inj b.
  Proof.
    split.
    - intros H. apply le_sub. rewrite <- inj_sub. apply inj_nonneg. lia.
    - intros H. destruct (Z_le_gt_dec a b) as [H1|H1]; [exact H1|exfalso].
      assert (H2 : (0:F) < inj (a - b)) by (apply inj_pos; lia).
      rewrite inj_sub in H2. apply (proj2 (lt_sub _ _)) in H2. apply not_le_lt in H2. auto.
  Qed.
  Lemma inj_lt a b : (a < b)%Z <-> (inj a : F) < inj b.
  Proof. rewrite <- not_le_lt, <- inj_le. lia. Qed.
  Lemma inj_inj a b : (inj a : F) = inj b -> a = b.
  Proof.
    intros H. assert (H1 : (inj a : F) <= inj b) by (rewrite H; apply le_refl).
    assert (H2 : (inj b : F) <= inj a) by (rewrite H; apply le_refl).
    apply inj_le in H1. apply inj_le in H2. lia.
  Qed.
  Lemma inj_leb a b : oleb (inj a : F) (inj b) = Z.leb a b.
  Proof.
    destruct (Z.leb_spec a b) as [H|H]; [apply inj_le, H|]. apply (inj_lt b a) in H. exact H.
  Qed.
  Lemma inj_eqb a b : oeqb (inj a : F) (inj b) = Z.eqb a b.
  Proof. unfold oeqb. rewrite !inj_leb. destruct (Z.eqb_spec a b); lia. Qed.
  Lemma floor_le x : (inj (ofloor x) : F) <= x.
  Proof. apply ofloor_lb. Qed.
  Lemma floor_lt x : x < inj (ofloor x + 1).
  Proof. apply ofloor_ub. Qed.
  Lemma floor_inj (z : Z) : ofloor (inj z : F) = z.
  Proof.
    pose proof (floor_le (inj z)) as H1. pose proof (floor_lt (inj z)) as H2.
    apply inj_le in H1. apply inj_lt in H2. lia.
  Qed.
  Lemma inj_neq0 a : (a <> 0)%Z -> (inj a : F) <> 0.
  Proof. intros H E. apply H. apply inj_inj. exact E. Qed.

  (** rationals *)
  Lemma inj_den (q : Q) : (inj (Zpos (Qden q)) : F) <> 0.
  Proof. apply inj_neq0. discriminate. Qed.
  Lemma injQ_eq p q : (p == q)%Q -> (injQ p : F) = injQ q.
  Proof.
    unfold Qeq, injQ. intros H. pose proof (inj_den p) as Hp. pose proof (inj_den q) as Hq.
    apply (f_equal (@inj F)) in H. rewrite !inj_mul in H.
    replace (inj (Qnum p) / inj (Zpos (Qden p)) : F) with ((inj (Qnum p) * inj (Zpos (Qden q))) / (inj (Zpos (Qden p)) * inj (Zpos (Qden q))) : F)
      by (field; auto).
    rewrite H. field. auto.
  Qed.
  Lemma injQ_add p q : injQ (p + q) = (injQ p + injQ q : F).
  Proof.
    unfold injQ, Qplus; simpl Qnum; simpl Qden. rewrite Pos2Z.inj_mul, inj_add, !inj_mul. field.
    split; apply inj_den.
  Qed.
  Lemma injQ_mul p q : injQ (p * q) = (injQ p * injQ q : F).
  Proof.
    unfold injQ, Qmult; simpl Qnum; simpl Qden. rewrite Pos2Z.inj_mul, !inj_mul. field.
    split; apply inj_den.
  Qed.
  Lemma injQ_opp p : injQ (- p) = (- injQ p : F).
  Proof. unfold injQ, Qopp; simpl Qnum; simpl Qden. rewrite inj_opp. field. apply inj_den. Qed.
  Lemma injQ_sub p q : injQ (p - q) = (injQ p - injQ q : F).
  Proof. unfold Qminus. rewrite injQ_add, injQ_opp. ring. Qed.
  Lemma injQ_Z (z : Z) : injQ (inject_Z z) = (inj z : F).
  Proof. unfold injQ; simpl Qnum; simpl Qden. rewrite inj_1. field. apply one_neq_zero. Qed.
  Lemma injQ_0 : injQ 0%Q = (0:F).
  Proof. rewrite (injQ_eq 0%Q (inject_Z 0)) by reflexivity. rewrite injQ_Z. reflexivity. Qed.
  Lemma injQ_1 : injQ 1%Q = (1:F).
  Proof. rewrite (injQ_eq 1%Q (inject_Z 1)) by reflexivity. rewrite injQ_Z. reflexivity. Qed.
  Lemma injQ_scale p : (injQ p * inj (Zpos (Qden p)) = inj (Qnum p) :> F).
  Proof. unfold injQ. field. apply inj_den. Qed.
  Lemma injQ_le p q : (p <= q)%Q <-> (injQ p : F) <= injQ q.
  Proof.
    assert (Hd : (0:F) < inj (Zpos (Qden p)) * inj (Zpos (Qden q))).
    { apply mul_pos; apply inj_pos; reflexivity. }
    assert (E1 : (inj (Zpos (Qden p)) * inj (Zpos (Qden q)) * injQ p = inj (Qnum p * Zpos (Qden q)) :> F)).
    { rewrite inj_mul. rewrite <- (injQ_scale p). ring. }
    assert (E2 : (inj (Zpos (Qden p)) * inj (Zpos (Qden q)) * injQ q = inj (Qnum q * Zpos (Qden p)) :> F)).
    { rewrite inj_mul. rewrite <- (injQ_scale q). ring. }
    unfold Qle. split.
    - intros H. apply (mul_le_cancel _ _ _ Hd). rewrite E1, E2. apply inj_le. exact H.
    - intros H. apply (mul_le_l _ _ _ (lt_le _ _ Hd)) in H. rewrite E1, E2 in H. apply inj_le in H. exact H.
  Qed.
  Lemma injQ_lt p q : (p < q)%Q <-> (injQ p : F) < injQ q.
  Proof.
    rewrite <- not_le_lt, <- injQ_le. split; [apply Qlt_not_le|apply Qnot_le_lt].
  Qed.
  Lemma injQ_inj p q : (injQ p : F) = injQ q -> (p == q)%Q.
  Proof.
    intros H. apply Qle_antisym; apply injQ_le; rewrite H; apply le_refl.
  Qed.
  Lemma injQ_leb p q : oleb (injQ p : F) (injQ q) = Qle_bool p q.
  Proof.
    destruct (Qle_bool p q) eqn:E.
    - apply Qle_bool_iff in E. apply injQ_le, E.
    - assert (H : ~ (p <= q)%Q) by (intros H; apply Qle_bool_iff in H; congruence).
      rewrite (injQ_le p q) in H. unfold ole in H. destruct (oleb _ _); congruence.
  Qed.
  Lemma injQ_eqb p q : oeqb (injQ p : F) (injQ q) = Qeq_bool p q.
  Proof.
    destruct (Qeq_bool p q) eqn:E.
    - apply Qeq_bool_iff in E. apply oeqb_eq, injQ_eq, E.
    - destruct (oeqb _ _) eqn:E2; [|reflexivity]. apply oeqb_eq, injQ_inj, Qeq_bool_iff in E2. congruence.
  Qed.
  Lemma injQ_div p q : ~ (q == 0)%Q -> injQ (p / q) = (injQ p / injQ q : F).
  Proof.
    intros H. assert (Hq : (injQ q : F) <> 0).
    { intros E. apply H. apply injQ_inj. rewrite injQ_0. exact E. }
    unfold Qdiv. rewrite injQ_mul.
    assert (E : (injQ (/ q) * injQ q = 1 :> F)).
    { rewrite <- injQ_mul, <- injQ_1. apply injQ_eq. field. exact H. }
    replace (injQ (/ q) : F) with (injQ (/ q) * injQ q / injQ q : F) by (field; exact Hq).
    rewrite E. field. exact Hq.
  Qed.
End OF.

(** ** The canonical rationals are an instance (used for concrete countermodels) *)
Local Open Scope Q_scope.
Definition Qc_leb (x y : Qc) : bool := Qle_bool x y.
Definition Qc_floor (x : Qc) : Z := Qfloor x.

Lemma Qc_phiZ z : gen_phiZ (Q2Qc 0) (Q2Qc 1) Qcplus Qcmult Qcopp z = Q2Qc (inject_Z z).
Proof.
  assert (M : ring_morph (Q2Qc 0) (Q2Qc 1) Qcplus Qcmult Qcminus Qcopp eq Z0 1%Z Z.add Z.mul Z.sub Z.opp Zeq_bool
    (gen_phiZ (Q2Qc 0) (Q2Qc 1) Qcplus Qcmult Qcopp)).
  { apply gen_phiZ_morph; [apply Eqsth|apply Eq_ext|apply (F_R Qcft)]. }
  assert (N : forall n, gen_phiZ (Q2Qc 0) (Q2Qc 1) Qcplus Qcmult Qcopp (Z.of_nat n) = Q2Qc (inject_Z (Z.of_nat n))).
  { induction n as [|n IH].
    - reflexivity.
    - rewrite Nat2Z.inj_succ. unfold Z.succ. rewrite (morph_add M), IH.
      rewrite (morph1 M). apply Qc_is_canon. unfold Qcplus, Q2Qc. cbn [this]. rewrite !Qred_correct.
      rewrite inject_Z_plus. reflexivity. }
  destruct (Z_le_gt_dec 0 z) as [H|H].
  - rewrite <- (Z2Nat.id z H). apply N.
  - replace z with (- Z.of_nat (Z.to_nat (- z)))%Z by (rewrite Z2Nat.id; lia).
    rewrite (morph_opp M), N. apply Qc_is_canon. unfold Qcopp, Q2Qc. cbn [this]. rewrite !Qred_correct.
    rewrite inject_Z_opp. reflexivity.
Qed.

Definition QcField : ofield.
Proof.
  refine (mkOF Qc (Q2Qc 0) (Q2Qc 1) Qcplus Qcmult Qcminus Qcopp Qcdiv Qcinv Qcft
            Qc_leb _ _ _ _ _ Qc_floor _ _).
  - intros x y H1 H2. apply Qc_is_canon. apply Qle_antisym; apply Qle_bool_iff; assumption.
  - intros x y z H1 H2. apply Qle_bool_iff in H1. apply Qle_bool_iff in H2. apply Qle_bool_iff.
    eapply Qle_trans; eassumption.
  - intros x y. unfold Qc_leb. rewrite !Qle_bool_iff. destruct (Qlt_le_dec x y) as [H|H]; [left; apply Qlt_le_weak, H|right; exact H].
  - intros x y z H. unfold Qc_leb in *. apply Qle_bool_iff in H. apply Qle_bool_iff.
    unfold Qcplus, Q2Qc; cbn [this]. rewrite !Qred_correct. apply Qplus_le_compat; [exact H|apply Qle_refl].
  - intros x y H1 H2. unfold Qc_leb in *. apply Qle_bool_iff in H1. apply Qle_bool_iff in H2. apply Qle_bool_iff.
    unfold Qcmult, Q2Qc in *; cbn [this] in *. rewrite ?Qred_correct in *. apply Qmult_le_0_compat; assumption.
  - intros x. rewrite Qc_phiZ. unfold Qc_leb, Qc_floor. apply Qle_bool_iff. unfold Q2Qc; cbn [this].
    rewrite Qred_correct. apply Qfloor_le.
  - intros x. rewrite Qc_phiZ. unfold Qc_leb, Qc_floor.
    destruct (Qle_bool (Q2Qc (inject_Z (Qfloor x + 1))) x) eqn:E; [|reflexivity].
    apply Qle_bool_iff in E. unfold Q2Qc in E; cbn [this] in E. rewrite Qred_correct in E.
    pose proof (Qlt_floor x) as H. exfalso. apply (Qle_not_lt _ _ E H).
Defined.
