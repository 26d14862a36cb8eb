(** Facts about the semantics: dependence on free variables only, and well-sorted terms evaluate
    into the carrier of their sort. *)
From Coq Require Import List String ZArith QArith Bool Arith NArith Lia.
From Verif Require Import Term Field Sem.
Import ListNotations.

(** Specification of "x of sort s occurs free in t". *)
Fixpoint free_in (x : string) (s : sort) (t : term) : bool :=
  match t with
  | TConst _ | TSort _ => false
  | TVar y s' => String.eqb x y && sort_eqb s s'
  | TApp f args => free_in x s f || existsb (free_in x s) args
  | TOp _ args => existsb (free_in x s) args
  | TPOp _ _ args => existsb (free_in x s) args
  | TBind _ vs body => negb (existsb (svar_eqb (x, s)) vs) && free_in x s body
  | TLet bs body =>
      existsb (fun p => free_in x s (snd p)) bs
      || negb (existsb (fun p => svar_eqb (x, s) (fst p, sort_of (snd p))) bs) && free_in x s body
  end.

Section Agree.
  Context {I : interp}.
  Implicit Types E : env I.
  Notation doms := (Forall2 (fun s v => idom I s v = true)).

  Lemma upd_same E x s v : upd E x s v x s = v.
  Proof. unfold upd. rewrite String.eqb_refl. replace (sort_eqb s s) with true; [reflexivity|]. symmetry; apply sort_eqb_eq; reflexivity. Qed.
  Lemma upd_other E x s v y s' : (y, s') <> (x, s) -> upd E x s v y s' = E y s'.
  Proof.
    intros H. unfold upd. destruct (String.eqb y x) eqn:E1; [|reflexivity].
    destruct (sort_eqb s' s) eqn:E2; [|reflexivity].
    apply String.eqb_eq in E1. apply sort_eqb_eq in E2. congruence.
  Qed.
  Lemma upds_agree vs : forall vals E E' x s, List.length vs = List.length vals ->
    (~ In (x, s) vs -> E x s = E' x s) -> upds E vs vals x s = upds E' vs vals x s.
  Proof.
    induction vs as [|[y sy] r IH]; intros [|v rv] E E' x s Hl H; simpl in *; try discriminate; auto.
    apply IH; [lia|]. intros Hn. unfold upd.
    destruct (String.eqb x y && sort_eqb s sy) eqn:Eq; [reflexivity|].
    apply H. intros [Heq|Hin]; [|auto]. injection Heq as -> ->.
    rewrite String.eqb_refl in Eq. simpl in Eq.
    assert (sort_eqb s s = true) by (apply sort_eqb_eq; reflexivity). congruence.
  Qed.
  Lemma upds_notin vs : forall vals E x s, ~ In (x, s) vs -> upds E vs vals x s = E x s.
  Proof.
    induction vs as [|[y sy] r IH]; intros [|v rv] E x s H; simpl in *; auto.
    rewrite IH by auto. apply upd_other. intros Heq. apply H. left; congruence.
  Qed.
  Lemma doms_length ss vals : doms ss vals -> List.length vals = List.length ss.
  Proof. induction 1; simpl; congruence. Qed.

  Lemma iall_ext s f g : (forall v, idom I s v = true -> f v = g v) -> iall I s f = iall I s g.
  Proof.
    intros H. destruct (iall I s f) eqn:E1; symmetry.
    - apply iall_spec. intros v Hv. rewrite <- H by auto. exact (proj1 (iall_spec I s f) E1 v Hv).
    - destruct (iall I s g) eqn:E2; [|reflexivity]. rewrite <- E1. symmetry.
      apply iall_spec. intros v Hv. rewrite H by auto. exact (proj1 (iall_spec I s g) E2 v Hv).
  Qed.
  Lemma eval_all_ext vs : forall f g E E',
    (forall vals, doms (map snd vs) vals -> f (upds E vs vals) = g (upds E' vs vals)) ->
    eval_all vs f E = eval_all vs g E'.
  Proof.
    induction vs as [|[x s] r IH]; intros f g E E' H; simpl.
    - apply (H []). constructor.
    - apply iall_ext. intros v Hv. apply IH. intros vals Hd. apply (H (v :: vals)). constructor; auto.
  Qed.
  Lemma eval_all_true vs : forall f E,
    eval_all vs f E = true <-> (forall vals, doms (map snd vs) vals -> f (upds E vs vals) = true).
  Proof.
    induction vs as [|[x s] r IH]; intros f E; simpl.
    - split; [intros H vals Hd; inversion Hd; subst; exact H | intros H; apply (H []); constructor].
    - rewrite iall_spec. split.
      + intros H vals Hd. inversion Hd; subst; simpl. apply IH; auto.
      + intros H v Hv. apply IH. intros vals Hd. apply (H (v :: vals)). constructor; auto.
  Qed.

  Lemma svar_mem x s vs : existsb (svar_eqb (x, s)) vs = true <-> In (x, s) vs.
  Proof.
    rewrite existsb_exists. split.
    - intros [p [Hp Heq]]. apply svar_eqb_eq in Heq. subst; auto.
    - intros H. exists (x, s). split; auto. apply svar_eqb_eq; reflexivity.
  Qed.

  Lemma eval_agree t : forall E E',
    (forall x s, free_in x s t = true -> E x s = E' x s) -> eval t E = eval t E'.
  Proof.
    induction t using term_ind'; intros E E' Hfv; cbn [eval].
    - reflexivity.
    - apply Hfv. simpl. rewrite String.eqb_refl. simpl. apply sort_eqb_eq; reflexivity.
    - f_equal.
      + apply IHt. intros x s Hx. apply Hfv. simpl. rewrite Hx. reflexivity.
      + apply map_ext_in. intros a Ha. rewrite Forall_forall in H. apply H; auto.
        intros x s Hx. apply Hfv. simpl. apply orb_true_iff; right.
        apply existsb_exists; eauto.
    - f_equal. apply map_ext_in. intros a Ha. rewrite Forall_forall in H. apply H; auto.
      intros x s Hx. apply Hfv. simpl. apply existsb_exists; eauto.
    - reflexivity.
    - assert (Hb : forall vals, List.length vs = List.length vals ->
                   eval t (upds E vs vals) = eval t (upds E' vs vals)).
      { intros vals Hl. apply IHt. intros x s Hx. apply upds_agree; auto. intros Hn. apply Hfv.
        simpl. rewrite Hx, andb_true_r, negb_true_iff, <- not_true_iff_false, svar_mem. exact Hn. }
      assert (Hb' : forall vals, doms (map snd vs) vals ->
                   eval t (upds E vs vals) = eval t (upds E' vs vals)).
      { intros vals Hd. apply Hb. apply doms_length in Hd. rewrite map_length in Hd. auto. }
      destruct b; simpl.
      + f_equal. apply eval_all_ext. intros vals Hd. rewrite Hb' by auto. reflexivity.
      + f_equal. f_equal. apply eval_all_ext. intros vals Hd. rewrite Hb' by auto. reflexivity.
      + destruct vs as [|[x s] [|p r]].
        * apply ilam_ext; auto.
        * apply ichoice_ext. intros v Hv. f_equal. apply (Hb' [v]). repeat constructor; auto.
        * apply ilam_ext; auto.
      + apply ilam_ext; auto.
    - assert (Hm : map (fun p => eval (snd p) E) bs = map (fun p => eval (snd p) E') bs).
      { apply map_ext_in. intros p Hp. rewrite Forall_forall in H. apply H; auto.
        intros x s Hx. apply Hfv. simpl. apply orb_true_iff; left. apply existsb_exists; eauto. }
      rewrite Hm. apply IHt. intros x s Hx. apply upds_agree; [rewrite !map_length; auto|].
      intros Hn. apply Hfv. simpl. apply orb_true_iff; right. rewrite Hx, andb_true_r, negb_true_iff.
      apply not_true_iff_false. intros Hex. apply Hn. apply existsb_exists in Hex.
      destruct Hex as [p [Hp Heq]]. apply svar_eqb_eq in Heq. rewrite Heq.
      apply in_map_iff. exists p; auto.
    - f_equal. apply map_ext_in. intros a Ha. rewrite Forall_forall in H0. apply H0; auto.
      intros x s Hx. apply Hfv. simpl. apply existsb_exists; eauto.
  Qed.

  Lemma eval_ext t E E' : (forall x s, E x s = E' x s) -> eval t E = eval t E'.
  Proof. intros H. apply eval_agree. auto. Qed.
  Lemma holds_ext t E E' : (forall x s, E x s = E' x s) -> holds E t = holds E' t.
  Proof. intros H. unfold holds. rewrite (eval_ext t E E' H). reflexivity. Qed.
  Lemma eval_upds_notfree t vs vals E :
    (forall x s, In (x, s) vs -> free_in x s t = false) -> eval t (upds E vs vals) = eval t E.
  Proof.
    intros H. apply eval_agree. intros x s Hx. apply upds_notin. intros Hin.
    rewrite H in Hx by auto. discriminate.
  Qed.

  (** *** environments *)
  Lemma env_ok_upd E x s v : env_ok E -> idom I s v = true -> env_ok (upd E x s v).
  Proof.
    intros HE Hv y s'. unfold upd. destruct (String.eqb y x && sort_eqb s' s) eqn:Eq; [|apply HE].
    apply andb_true_iff in Eq. destruct Eq as [_ Eq]. apply sort_eqb_eq in Eq. subst; auto.
  Qed.
  Lemma env_ok_upds vs : forall vals E, env_ok E -> doms (map snd vs) vals -> env_ok (upds E vs vals).
  Proof.
    induction vs as [|[x s] r IH]; intros vals E HE Hd; inversion Hd; subst; simpl; auto.
    apply IH; auto. apply env_ok_upd; auto.
  Qed.
  Lemma env_exists : exists E : env I, env_ok E.
  Proof. exists (fun _ s => ichoice I s (fun _ => true)). intros x s. apply ichoice_dom. Qed.
  Lemma vals_exist ss : exists vals, doms ss vals.
  Proof.
    induction ss as [|s r [vals H]]; [exists []; constructor|].
    exists (ichoice I s (fun _ => true) :: vals). constructor; auto. apply ichoice_dom.
  Qed.
End Agree.

(** ** Well-sorted terms evaluate into their sort *)
Section Dom.
  Context {I : interp}.
  Implicit Types E : env I.
  Notation doms := (Forall2 (fun s v => idom I s v = true)).

  Lemma dom_bool (v : value I) : idom I SBool v = true <-> exists b, v = VB b.
  Proof. destruct v; cbv [idom dom_]; split; try discriminate; try (intros [b0 H]; discriminate); eauto. Qed.
  Lemma dom_int (v : value I) : idom I SInt v = true <-> exists z, v = vint z.
  Proof.
    split.
    - destruct v; cbv [idom dom_]; try discriminate. intros H. apply oeqb_eq in H. exists (ofloor k). unfold vint. congruence.
    - intros [z ->]. cbv [idom dom_ vint]. rewrite floor_inj. apply oeqb_eq. reflexivity.
  Qed.
  Lemma dom_real (v : value I) : idom I SReal v = true <-> exists k, v = VN k.
  Proof. destruct v; cbv [idom dom_]; split; try discriminate; try (intros [b0 H]; discriminate); eauto. Qed.
  Lemma dom_bv w (v : value I) : idom I (SBV w) v = true <-> exists z, v = VBV w z /\ (0 <= z < 2 ^ Z.of_nat w)%Z.
  Proof.
    split.
    - destruct v; cbv [idom dom_]; try discriminate. intros H. apply andb_true_iff in H. destruct H as [H H2].
      apply andb_true_iff in H. destruct H as [H H1]. apply Nat.eqb_eq in H. subst.
      exists z. split; auto. lia.
    - intros [z [-> H]]. cbv [idom dom_]. rewrite Nat.eqb_refl. simpl. apply andb_true_iff; lia.
  Qed.
  Lemma dom_string (v : value I) : idom I SString v = true <-> exists s, v = VS s.
  Proof. destruct v; cbv [idom dom_]; split; try discriminate; try (intros [b0 H]; discriminate); eauto. Qed.
  Lemma dom_int_real (v : value I) : idom I SInt v = true -> idom I SReal v = true.
  Proof. rewrite dom_int, dom_real. intros [z ->]. unfold vint; eauto. Qed.
  Lemma dom_num s (v : value I) : is_num_sort s = true -> idom I s v = true -> exists k, v = VN k.
  Proof. destruct s; try discriminate; intros _ H; [apply dom_real, dom_int_real|apply dom_real]; auto. Qed.

  Lemma sort_eqb_refl s : sort_eqb s s = true.
  Proof. apply sort_eqb_eq; reflexivity. Qed.
  Lemma sorts_are_eq l ss : sorts_are l ss = true -> ss = l.
  Proof. unfold sorts_are. apply list_eqb_eq. apply sort_eqb_eq. Qed.
  Lemma forallb_sort_eq s ss : forallb (sort_eqb s) ss = true -> Forall (fun x => x = s) ss.
  Proof. intros H. apply Forall_forall. intros x Hx. rewrite forallb_forall in H. symmetry. apply sort_eqb_eq; auto. Qed.
  Lemma all_eq_spec ss : all_eq ss = true -> forall s, In s ss -> s = hd SType ss.
  Proof.
    induction ss as [|a [|b r] IH]; intros H s Hs; simpl in *; try contradiction.
    - destruct Hs as [->|[]]; reflexivity.
    - apply andb_true_iff in H. destruct H as [H1 H2]. apply sort_eqb_eq in H1. subst b.
      destruct Hs as [->|Hs]; [reflexivity|]. apply IH; auto.
  Qed.

  (** lists of values of a uniform shape *)
  Lemma doms_bools ss vs : doms ss vs -> Forall (fun s => s = SBool) ss -> exists bs, vs = map VB bs.
  Proof.
    induction 1; intros HF; [exists []; reflexivity|]. inversion HF; subst.
    destruct IHForall2 as [bs ->]; auto. apply dom_bool in H. destruct H as [b ->]. exists (b :: bs). reflexivity.
  Qed.
  Lemma doms_ints ss vs : doms ss vs -> Forall (fun s => s = SInt) ss -> exists zs, vs = map vint zs.
  Proof.
    induction 1; intros HF; [exists []; reflexivity|]. inversion HF; subst.
    destruct IHForall2 as [bs ->]; auto. apply dom_int in H. destruct H as [b ->]. exists (b :: bs). reflexivity.
  Qed.
  Lemma doms_nums ss vs : doms ss vs -> forallb is_num_sort ss = true -> exists ks, vs = map VN ks.
  Proof.
    induction 1; intros HF; [exists []; reflexivity|]. simpl in HF. apply andb_true_iff in HF. destruct HF as [H1 H2].
    destruct (IHForall2 H2) as [ks ->]. destruct (dom_num _ _ H1 H) as [k ->]. exists (k :: ks). reflexivity.
  Qed.
  Definition int_sum (f : Z -> Z -> Z) := fold_left f.
  Lemma fold_add_int zs : forall a, fold_left oadd (map num (map vint zs)) (inj a : iF I) = inj (fold_left Z.add zs a).
  Proof. induction zs as [|z r IH]; intros a; simpl; auto. rewrite <- inj_add. apply IH. Qed.
  Lemma fold_sub_int zs : forall a, fold_left osub (map num (map vint zs)) (inj a : iF I) = inj (fold_left Z.sub zs a).
  Proof. induction zs as [|z r IH]; intros a; simpl; auto. rewrite <- inj_sub. apply IH. Qed.
  Lemma fold_mul_int zs : forall a, fold_left omul (map num (map vint zs)) (inj a : iF I) = inj (fold_left Z.mul zs a).
  Proof. induction zs as [|z r IH]; intros a; simpl; auto. rewrite <- inj_mul. apply IH. Qed.

  Lemma not_real_all_int ss : forallb is_num_sort ss = true -> existsb (sort_eqb SReal) ss = false ->
    Forall (fun s => s = SInt) ss.
  Proof.
    induction ss as [|s r IH]; intros H1 H2; constructor; simpl in *;
      apply andb_true_iff in H1; apply orb_false_iff in H2; destruct H1, H2.
    - destruct s; try discriminate; reflexivity.
    - apply IH; auto.
  Qed.
  Lemma dom_vint z : idom I SInt (vint z) = true.
  Proof. apply dom_int; eauto. Qed.
  Lemma dom_VN k : idom I SReal (VN k) = true.
  Proof. reflexivity. Qed.
  Lemma dom_VBV w z : (0 <= z < 2 ^ Z.of_nat w)%Z -> idom I (SBV w) (VBV w z) = true.
  Proof. intros; apply dom_bv; eauto. Qed.

  Lemma pow2_pos w : (0 < 2 ^ Z.of_nat w)%Z.
  Proof. apply Z.pow_pos_nonneg; lia. Qed.
  Lemma bvmod_range w z : (0 <= bvmod w z < 2 ^ Z.of_nat w)%Z.
  Proof. apply Z.mod_pos_bound. apply pow2_pos. Qed.
  Lemma bits_val_range l : (0 <= bits_val l < 2 ^ Z.of_nat (List.length l))%Z.
  Proof.
    induction l as [|b r IH]; [simpl; lia|].
    change (bits_val (b :: r)) with ((if b then 1 else 0) + 2 * bits_val r)%Z.
    change (List.length (b :: r)) with (S (List.length r)).
    rewrite Nat2Z.inj_succ, Z.pow_succ_r by lia. destruct b; lia.
  Qed.

  (** bit-vector results stay in range *)
  Lemma bv_pow_add a b : (2 ^ Z.of_nat (a + b) = 2 ^ Z.of_nat a * 2 ^ Z.of_nat b)%Z.
  Proof. rewrite Nat2Z.inj_add, Z.pow_add_r; lia. Qed.
  Lemma land_range w x y : (0 <= x < 2 ^ Z.of_nat w)%Z -> (0 <= y < 2 ^ Z.of_nat w)%Z ->
    (0 <= Z.land x y < 2 ^ Z.of_nat w)%Z.
  Proof.
    intros Hx Hy. split; [apply Z.land_nonneg; lia|].
    destruct (Z.eq_dec (Z.land x y) 0) as [->|Hn]; [apply pow2_pos|].
    assert (0 <= Z.land x y)%Z by (apply Z.land_nonneg; lia).
    apply Z.log2_lt_pow2; [lia|].
    assert (x <> 0)%Z by (intros ->; rewrite Z.land_0_l in Hn; lia).
    assert (Z.log2 x < Z.of_nat w)%Z by (apply Z.log2_lt_pow2; lia).
    pose proof (Z.log2_land x y). lia.
  Qed.
  Lemma lor_range w x y : (0 <= x < 2 ^ Z.of_nat w)%Z -> (0 <= y < 2 ^ Z.of_nat w)%Z ->
    (0 <= Z.lor x y < 2 ^ Z.of_nat w)%Z.
  Proof.
    intros Hx Hy. split; [apply Z.lor_nonneg; lia|].
    destruct (Z.eq_dec (Z.lor x y) 0) as [->|Hn]; [apply pow2_pos|].
    assert (0 <= Z.lor x y)%Z by (apply Z.lor_nonneg; lia).
    apply Z.log2_lt_pow2; [lia|]. rewrite Z.log2_lor by lia.
    assert (forall u, 0 <= u < 2 ^ Z.of_nat w -> w <> 0%nat -> Z.log2 u < Z.of_nat w)%Z.
    { intros u Hu Hw. destruct (Z.eq_dec u 0) as [->|]; [simpl; lia|]. apply Z.log2_lt_pow2; lia. }
    assert (w <> 0%nat). { intros ->. simpl in *. assert (x = 0)%Z by lia. assert (y = 0)%Z by lia. subst. simpl in Hn. lia. }
    apply Z.max_lub_lt; auto.
  Qed.
  Lemma lxor_range w x y : (0 <= x < 2 ^ Z.of_nat w)%Z -> (0 <= y < 2 ^ Z.of_nat w)%Z ->
    (0 <= Z.lxor x y < 2 ^ Z.of_nat w)%Z.
  Proof.
    intros Hx Hy. split; [apply Z.lxor_nonneg; lia|].
    destruct (Z.eq_dec (Z.lxor x y) 0) as [->|Hn]; [apply pow2_pos|].
    assert (0 <= Z.lxor x y)%Z by (apply Z.lxor_nonneg; lia).
    apply Z.log2_lt_pow2; [lia|]. pose proof (Z.log2_lxor x y ltac:(lia) ltac:(lia)).
    assert (forall u, 0 <= u < 2 ^ Z.of_nat w -> w <> 0%nat -> Z.log2 u < Z.of_nat w)%Z.
    { intros u Hu Hw. destruct (Z.eq_dec u 0) as [->|]; [simpl; lia|]. apply Z.log2_lt_pow2; lia. }
    assert (w <> 0%nat). { intros ->. simpl in *. assert (x = 0)%Z by lia. assert (y = 0)%Z by lia. subst. simpl in Hn. lia. }
    pose proof (H1 x Hx H2). pose proof (H1 y Hy H2). lia.
  Qed.
  Lemma bvudiv_range w x y : (0 <= x < 2 ^ Z.of_nat w)%Z -> (0 <= y)%Z ->
    (0 <= bvudiv w x y < 2 ^ Z.of_nat w)%Z.
  Proof.
    intros Hx Hy. unfold bvudiv. destruct (Z.eqb_spec y 0); [lia|].
    split; [apply Z.div_pos; lia|]. apply Z.le_lt_trans with x; [|lia]. apply Z.div_le_upper_bound; nia.
  Qed.
  Lemma bvurem_range w x y : (0 <= x < 2 ^ Z.of_nat w)%Z -> (0 <= y < 2 ^ Z.of_nat w)%Z ->
    (0 <= bvurem w x y < 2 ^ Z.of_nat w)%Z.
  Proof.
    intros Hx Hy. unfold bvurem. destruct (Z.eqb_spec y 0); [lia|].
    pose proof (Z.mod_pos_bound x y ltac:(lia)). lia.
  Qed.
  Lemma bvneg_range w x : (0 <= bvneg w x < 2 ^ Z.of_nat w)%Z.
  Proof. apply bvmod_range. Qed.
  Lemma bvbin_range o f w x y : bvbin o = Some f ->
    (0 <= x < 2 ^ Z.of_nat w)%Z -> (0 <= y < 2 ^ Z.of_nat w)%Z -> (0 <= f w x y < 2 ^ Z.of_nat w)%Z.
  Proof.
    intros Hf Hx Hy. pose proof (land_range w x y Hx Hy). pose proof (lor_range w x y Hx Hy).
    pose proof (lxor_range w x y Hx Hy).
    destruct o; try discriminate; injection Hf as <-; try apply bvmod_range; try assumption; try lia.
    - apply bvudiv_range; lia.
    - apply bvurem_range; lia.
    - pose proof (Z.pow_pos_nonneg 2 y ltac:(lia) ltac:(lia)).
      split; [apply Z.div_pos; lia|]. apply Z.le_lt_trans with x; [|lia].
      apply Z.div_le_upper_bound; nia.
    - unfold bvsdiv. pose proof (bvneg_range w x). pose proof (bvneg_range w y).
      destruct (bvmsb w x), (bvmsb w y); try apply bvneg_range; apply bvudiv_range; lia.
    - unfold bvsrem. pose proof (bvneg_range w x). pose proof (bvneg_range w y).
      destruct (bvmsb w x), (bvmsb w y); try apply bvneg_range; apply bvurem_range; lia.
    - unfold bvsmod. pose proof (bvneg_range w x). pose proof (bvneg_range w y).
      assert (Hu : forall a b, (0 <= a < 2 ^ Z.of_nat w)%Z -> (0 <= b < 2 ^ Z.of_nat w)%Z ->
         (0 <= bvurem w a b < 2 ^ Z.of_nat w)%Z) by (intros; apply bvurem_range; lia).
      destruct (bvmsb w x), (bvmsb w y); cbv zeta;
      match goal with |- context [Z.eqb ?u 0] => destruct (Z.eqb_spec u 0) end;
      try apply bvmod_range; try apply bvneg_range; auto; apply Hu; auto.
  Qed.

  Lemma fold1_dom o s f vs :
    (forall a b, idom I s a = true -> idom I s b = true -> idom I s (f a b) = true) ->
    min_len 2 vs = true -> Forall (fun v => idom I s v = true) vs -> idom I s (fold1 o f vs) = true.
  Proof.
    intros Hf Hl HF. destruct vs as [|a [|b r]]; try discriminate. change (fold1 o f (a :: b :: r)) with (fold_left f (b :: r) a).
    inversion HF as [|? ? Ha HF']; subst. clear HF Hl.
    revert a Ha HF'. generalize (b :: r) as l. induction l as [|c l IH]; intros a Ha HF'; cbn [fold_left]; [exact Ha|].
    inversion HF'; subst. apply IH; auto.
  Qed.
  Lemma doms_uniform s ss vs : doms ss vs -> Forall (fun x => x = s) ss -> Forall (fun v => idom I s v = true) vs.
  Proof. induction 1; intros HF; inversion HF; subst; constructor; auto. Qed.
  Lemma doms_min_len n ss vs : doms ss vs -> min_len n ss = true -> min_len n vs = true.
  Proof. intros H. unfold min_len. apply doms_length in H. rewrite H. auto. Qed.
  Lemma doms1 s vs : doms [s] vs -> exists v, vs = [v] /\ idom I s v = true.
  Proof. intros H. inversion H; subst. inversion H4; subst. eauto. Qed.
  Lemma doms2 s s' vs : doms [s; s'] vs -> exists v v', vs = [v; v'] /\ idom I s v = true /\ idom I s' v' = true.
  Proof. intros H. inversion H; subst. apply doms1 in H4. destruct H4 as [v [-> Hv]]. eauto. Qed.
  Lemma num_sort_real s v : is_num_sort s = true -> idom I s v = true -> idom I SReal v = true.
  Proof. intros Hs Hv. destruct (dom_num s v Hs Hv) as [k ->]. reflexivity. Qed.
  Lemma doms_nums_real ss vs : doms ss vs -> forallb is_num_sort ss = true -> Forall (fun v => idom I SReal v = true) vs.
  Proof.
    induction 1; intros HF; constructor; simpl in HF; apply andb_true_iff in HF; destruct HF.
    - eapply num_sort_real; eauto.
    - auto.
  Qed.
  Lemma all_eq_Forall ss : all_eq ss = true -> Forall (fun s => s = hd SType ss) ss.
  Proof. intros H. apply Forall_forall. intros s Hs. apply all_eq_spec; auto. Qed.

  Lemma bv_fold_dom o f ss vs : bvbin o = Some f ->
    doms ss vs -> min_len 2 ss = true -> forallb is_bv_sort ss = true -> all_eq ss = true ->
    idom I (match ss with SBV w :: _ => SBV w | _ => SType end) (fold1 o (bv2 f) vs) = true.
  Proof.
    intros Hf Hd Hl Hb He. apply all_eq_Forall in He.
    destruct ss as [|s ss]; [discriminate|]. simpl in He.
    assert (exists w, s = SBV w) as [w ->].
    { simpl in Hb. apply andb_true_iff in Hb. destruct Hb as [Hb _]. destruct s; try discriminate; eauto. }
    apply fold1_dom.
    - intros a b Ha Hb'. apply dom_bv in Ha, Hb'. destruct Ha as [x [-> Hx]], Hb' as [y [-> Hy]].
      apply dom_VBV. cbn. eapply bvbin_range; eauto.
    - eapply doms_min_len; eauto.
    - eapply doms_uniform; eauto.
  Qed.
  Lemma bv_bin_dom o f ss vs : bvbin o = Some f ->
    doms ss vs -> match ss with [a; b] => is_bv_sort a && sort_eqb a b | _ => false end = true ->
    idom I (match ss with SBV w :: _ => SBV w | _ => SType end) (bin2 o (bv2 f) vs) = true.
  Proof.
    intros Hf Hd Hs. destruct ss as [|a [|b [|c r]]]; try discriminate.
    apply andb_true_iff in Hs. destruct Hs as [H1 H2]. apply sort_eqb_eq in H2. subst b.
    destruct a; try discriminate. apply doms2 in Hd. destruct Hd as [x [y [-> [Hx Hy]]]].
    apply dom_bv in Hx, Hy. destruct Hx as [zx [-> Hx]], Hy as [zy [-> Hy]].
    cbn -[idom]. apply dom_VBV. cbn. eapply bvbin_range; eauto.
  Qed.

  Lemma concat_dom ss : forall vs acc w, doms ss vs -> forallb is_bv_sort ss = true ->
    idom I (SBV w) acc = true ->
    idom I (fold_left (fun acc s => match acc, s with SBV a, SBV b => SBV (a + b) | _, _ => SType end) ss (SBV w))
      (fold_left (fun a b => VBV (bvw a + bvw b) (bvz a * 2 ^ Z.of_nat (bvw b) + bvz b)%Z) vs acc) = true.
  Proof.
    induction ss as [|s ss IH]; intros vs acc w Hd Hb Ha; inversion Hd; subst; simpl; auto.
    simpl in Hb. apply andb_true_iff in Hb. destruct Hb as [Hs Hb]. destruct s; try discriminate.
    apply IH; auto. apply dom_bv in Ha, H1. destruct Ha as [x [-> Hx]], H1 as [z [-> Hz]]. cbn -[idom Z.pow].
    apply dom_VBV. rewrite bv_pow_add. nia.
  Qed.

  Lemma inj_neg z : oopp (inj z) = (inj (- z) : iF I).
  Proof. symmetry. apply inj_opp. Qed.

  Lemma fold_num_dom (f : iF I -> iF I -> iF I) (g : Z -> Z -> Z) ss vs a z :
    (forall x y, inj (g x y) = f (inj x) (inj y)) ->
    doms ss vs -> forallb is_num_sort ss = true -> inj z = a ->
    (existsb (sort_eqb SReal) ss = false -> idom I SInt (VN (fold_left f (map num vs) a)) = true)
    /\ idom I SReal (VN (fold_left f (map num vs) a)) = true.
  Proof.
    intros Hfg Hd Hn <-. split; [|reflexivity]. intros Hr.
    destruct (doms_ints ss vs Hd (not_real_all_int ss Hn Hr)) as [zs ->].
    apply dom_int. clear Hd. revert z. induction zs as [|y r IH]; intros z; simpl; [unfold vint; eauto|].
    rewrite <- Hfg. apply IH.
  Qed.
  Lemma num_if_dom ss (v : value I) :
    (existsb (sort_eqb SReal) ss = false -> idom I SInt v = true) -> idom I SReal v = true ->
    idom I (if existsb (sort_eqb SReal) ss then SReal else SInt) v = true.
  Proof. destruct (existsb (sort_eqb SReal) ss); auto. Qed.

  Lemma eval_op_dom o ss vs : op_wt o ss = true -> doms ss vs -> idom I (op_sort o ss) (eval_op o vs) = true.
  Proof.
    intros Hw Hd. pose proof (iop_dom I o ss vs Hw Hd) as Hio.
    destruct o; try exact Hio; try reflexivity; cbn [op_sort eval_op] in *.
    all: try (apply sorts_are_eq in Hw; subst ss).
    all: try (destruct ss as [|s1 [|s2 rs]]; try discriminate Hw; apply doms1 in Hd; destruct Hd as [v [-> Hv]]).
    (* remaining operators one by one *)
    all: try (apply doms1 in Hd; destruct Hd as [v [-> Hv]]; reflexivity).
    all: try (eapply bv_bin_dom; eauto; reflexivity).
    all: try (apply andb_true_iff in Hw; destruct Hw as [Hw Hw3]; apply andb_true_iff in Hw;
              destruct Hw as [Hw1 Hw2]; cbn [bvbin]; eapply bv_fold_dom; [reflexivity|assumption..]).
    all: try (destruct ss as [|a [|b [|c r]]]; try discriminate; apply doms2 in Hd;
              destruct Hd as [x [y [-> [Hx Hy]]]]; reflexivity).
    all: try apply dom_vint.
    all: try (apply andb_true_iff in Hw; destruct Hw as [Hl Hw]; apply forallb_sort_eq in Hw;
      apply (fold1_dom _ SRegLan); [|eapply doms_min_len; eauto|eapply doms_uniform; eauto];
      intros a b Ha Hb;
      match goal with |- idom I SRegLan (iop I ?o _) = true =>
        apply (iop_dom I o [SRegLan; SRegLan] [a; b]); [reflexivity|repeat constructor; auto] end).
    - (* ite *) destruct ss as [|c [|a [|b [|? ?]]]]; try discriminate.
      apply andb_true_iff in Hw. destruct Hw as [_ Hw]. apply sort_eqb_eq in Hw. subst b.
      inversion Hd; subst. apply doms2 in H3. destruct H3 as [x [z [-> [Hx Hz]]]]. simpl.
      destruct (truth y); auto.
    - (* add *) apply andb_true_iff in Hw. destruct Hw as [_ Hw].
      destruct (fold_num_dom oadd Z.add ss vs o0 0 (inj_add _) Hd Hw (inj_0 _)). apply num_if_dom; auto.
    - (* sub *) apply andb_true_iff in Hw. destruct Hw as [Hl Hw].
      inversion Hd as [|s v ss' vs' Hv Hd']; subst; [discriminate|].
      destruct vs' as [|v' vs'].
      + inversion Hd'; subst. simpl in Hw. rewrite andb_true_r in Hw. apply num_if_dom; [|reflexivity].
        simpl. rewrite orb_false_r. intros Hr. destruct s; try discriminate.
        apply dom_int in Hv. destruct Hv as [z ->]. cbn [num vint]. rewrite inj_neg. apply dom_vint.
      + simpl in Hw. apply andb_true_iff in Hw. destruct Hw as [Hs Hw].
        apply num_if_dom; [|reflexivity]. intros Hr. simpl in Hr. apply orb_false_iff in Hr. destruct Hr as [Hr1 Hr2].
        destruct s; try discriminate. apply dom_int in Hv. destruct Hv as [z ->].
        apply (fold_num_dom osub Z.sub ss' (v' :: vs') _ z (inj_sub _) Hd' Hw eq_refl); auto.
    - (* mult *) apply andb_true_iff in Hw. destruct Hw as [_ Hw].
      destruct (fold_num_dom omul Z.mul ss vs o1 1 (inj_mul _) Hd Hw (inj_1 _)). apply num_if_dom; auto.
    - (* div *) apply andb_true_iff in Hw. destruct Hw as [Hl Hw]. apply forallb_sort_eq in Hw.
      apply fold1_dom; [|eapply doms_min_len; eauto|eapply doms_uniform; eauto].
      intros a b Ha Hb. unfold idiv. destruct (oeqb (num b) o0); [|apply dom_vint].
      apply (iop_dom I OIntDiv [SInt; SInt] [a; b]); [reflexivity|repeat constructor; auto].
    - (* / *) apply andb_true_iff in Hw. destruct Hw as [Hl Hw].
      apply fold1_dom; [|eapply doms_min_len; eauto|eapply doms_nums_real; eauto].
      intros a b Ha Hb. unfold rdiv. destruct (oeqb (num b) o0); [|reflexivity].
      apply (iop_dom I ORealDiv [SReal; SReal] [a; b]); [reflexivity|repeat constructor; auto].
    - (* mod *) apply doms2 in Hd. destruct Hd as [a [b [-> [Ha Hb]]]]. unfold bin2, imod.
      destruct (oeqb (num b) o0); [|apply dom_vint].
      apply (iop_dom I OMod [SInt; SInt] [a; b]); [reflexivity|repeat constructor; auto].
    - (* abs *) apply num_if_dom; [|reflexivity]. simpl. rewrite orb_false_r. intros Hr.
      destruct s1; try discriminate. apply dom_int in Hv. destruct Hv as [z ->]. cbn [num vint].
      destruct (oleb o0 (inj z)); [apply dom_vint|]. rewrite inj_neg. apply dom_vint.
    - apply doms1 in Hd. destruct Hd as [v [-> Hv]]. apply dom_vint.
    - apply doms1 in Hd. destruct Hd as [v [-> Hv]]. apply dom_vint.
    - (* substr *) inversion Hd as [|? ? ? ? ? Hd1]; subst. apply doms2 in Hd1. destruct Hd1 as [i [n [-> _]]]. reflexivity.
    - destruct s1; try discriminate. apply dom_bv in Hv. destruct Hv as [z [-> Hz]].
      apply dom_VBV. cbn [bvw bvz]. lia.
    - destruct s1; try discriminate. apply dom_bv in Hv. destruct Hv as [z [-> Hz]].
      apply dom_VBV. cbn [bvw bvz]. apply bvneg_range.
    - apply andb_true_iff in Hw; destruct Hw as [Hl Hw].
      destruct Hd as [|s v ss vs Hv Hd]; [discriminate|].
      destruct Hd as [|s' v' ss vs Hv' Hd]; [discriminate|].
      simpl in Hw. apply andb_true_iff in Hw; destruct Hw as [Hs Hw].
      destruct s; try discriminate.
      change (fold1 OBvConcat _ (v :: v' :: vs)) with
        (fold_left (fun a b : value I => VBV (bvw a + bvw b) (bvz a * 2 ^ Z.of_nat (bvw b) + bvz b)%Z) (v' :: vs) v).
      cbn [fold_left]. apply (concat_dom (s' :: ss) (v' :: vs) v); auto.
    - destruct ss as [|a [|b [|c r]]]; try discriminate; apply doms2 in Hd;
              destruct Hd as [x [y [-> [Hx Hy]]]]. unfold bin2. apply dom_VBV.
      destruct (Z.eqb (bvz x) (bvz y)); simpl; lia.
    - rewrite <- (doms_length _ _ Hd). apply dom_VBV.
      rewrite <- (map_length (fun v : value I => oeqb (num v) o1) vs). apply bits_val_range.
    - rewrite <- (doms_length _ _ Hd). apply dom_VBV.
      rewrite <- (map_length truth vs). apply bits_val_range.
  Qed.

  Lemma dom_vint_if (b : bool) x y : idom I SInt (vint (if b then x else y)) = true.
  Proof. apply dom_vint. Qed.

  Lemma rot_range w k x : (k <= w)%nat -> (0 <= x < 2 ^ Z.of_nat w)%Z ->
    (0 <= bvmod w (x * 2 ^ Z.of_nat k) + x / 2 ^ Z.of_nat (w - k) < 2 ^ Z.of_nat w)%Z.
  Proof.
    intros Hk Hx. unfold bvmod.
    assert (Hw : (2 ^ Z.of_nat w = 2 ^ Z.of_nat (w - k) * 2 ^ Z.of_nat k)%Z)
      by (rewrite <- bv_pow_add; f_equal; f_equal; lia).
    rewrite Hw. pose proof (pow2_pos k) as Pk. pose proof (pow2_pos (w - k)) as Pwk.
    rewrite Z.mul_mod_distr_r by lia.
    set (a := (2 ^ Z.of_nat (w - k))%Z) in *. set (b := (2 ^ Z.of_nat k)%Z) in *.
    pose proof (Z.mod_pos_bound x a ltac:(lia)).
    assert (0 <= x / a < b)%Z. { split; [apply Z.div_pos; lia|]. apply Z.div_lt_upper_bound; lia. }
    nia.
  Qed.
  Lemma repeat_range w n x : (0 <= x < 2 ^ Z.of_nat w)%Z ->
    (0 <= Nat.iter n (fun acc => acc * 2 ^ Z.of_nat w + x)%Z 0%Z < 2 ^ Z.of_nat (n * w))%Z.
  Proof.
    intros Hx. induction n as [|n IH]; [simpl; lia|].
    change (Nat.iter (S n) ?f 0%Z) with (f (Nat.iter n f 0%Z)). cbv beta.
    replace (S n * w)%nat with (n * w + w)%nat by lia. rewrite bv_pow_add. nia.
  Qed.

  Lemma eval_pop_dom o oargs ss vs : pop_wt o oargs ss = true -> doms ss vs ->
    idom I (pop_sort o oargs ss) (eval_pop o oargs vs) = true.
  Proof.
    intros Hw Hd. pose proof (ipop_dom I o oargs ss vs Hw Hd) as Hio.
    assert (Hone : forall i l (x : option nat), oargs = i :: l -> map as_const_nat oargs = [x] -> oargs = [i] /\ as_const_nat i = x).
    { intros i l x ->. simpl. intros H. injection H as H1 H2. destruct l; [auto|discriminate]. }
    destruct o; try exact Hio; unfold pop_wt in Hw;
      (destruct oargs as [|i [|j [|? ?]]]; cbn [map] in Hw; try discriminate Hw;
       repeat match type of Hw with context [as_const_nat ?x] => destruct (as_const_nat x) eqn:? end; try discriminate Hw);
      (destruct ss as [|s [|? ?]]; try discriminate Hw); try (destruct s; try discriminate Hw);
      apply doms1 in Hd; destruct Hd as [v [-> Hv]];
      try (apply dom_bv in Hv; destruct Hv as [z [-> Hz]]);
      unfold eval_pop, pop_sort; cbn [map];
      repeat match goal with H : as_const_nat ?x = _ |- _ => rewrite H end; cbn [bvw bvz];
      try reflexivity; try apply dom_vint; try exact Hio.
    - apply andb_true_iff in Hw. destruct Hw as [_ Hw]. rewrite Hw. apply dom_VBV, bvmod_range.
    - apply dom_VBV. rewrite bv_pow_add. pose proof (pow2_pos n). nia.
    - apply dom_VBV. apply bvmod_range.
    - apply dom_VBV. destruct (Nat.eq_dec w 0) as [->|Hw0].
      + simpl in Hz. assert (z = 0)%Z by lia. subst. simpl Nat.sub. rewrite Z.div_0_l by (pose proof (pow2_pos 0); lia).
        rewrite Z.add_0_r. apply bvmod_range.
      + apply rot_range; auto. pose proof (Nat.mod_upper_bound n w Hw0). lia.
    - apply dom_VBV. destruct (Nat.eq_dec w 0) as [->|Hw0].
      + simpl in Hz. assert (z = 0)%Z by lia. subst. rewrite Z.div_0_l by (pose proof (pow2_pos (n mod 0)); lia).
        apply bvmod_range.
      + pose proof (Nat.mod_upper_bound n w Hw0). rewrite Z.add_comm.
        pose proof (rot_range w (w - n mod w) z ltac:(lia) Hz) as Hr.
        replace (w - (w - n mod w))%nat with (n mod w)%nat in Hr by lia. exact Hr.
    - apply dom_VBV. apply repeat_range; auto.
    - apply dom_VBV. apply bvmod_range.
  Qed.

  Theorem eval_dom t : forall E, wt t = true -> env_ok E -> idom I (sort_of t) (eval t E) = true.
  Proof.
    induction t using term_ind'; intros E Hw HE; cbn [wt] in Hw; try discriminate Hw.
    - destruct c; cbn [sort_of const_sort eval eval_const]; try reflexivity; [apply dom_vint|apply dom_VBV, bvmod_range].
    - apply HE.
    - apply andb_true_iff in Hw. destruct Hw as [Hw Hs]. apply andb_true_iff in Hw. destruct Hw as [Hf Ha].
      cbn [sort_of eval]. pose proof (IHt E Hf HE) as Hd. destruct (sort_of t); try discriminate.
      apply andb_true_iff in Hs. destruct Hs as [Hl Hs].
      apply list_eqb_eq in Hs; [|apply sort_eqb_eq].
      assert (ss <> []) by (intros ->; discriminate).
      rewrite (app_removelast_last SType H0) in Hd. apply (iapp_dom I (removelast ss)); auto.
      rewrite Hs. clear - H Ha HE. induction args as [|a r IH]; simpl; constructor;
        inversion H; subst; simpl in Ha; apply andb_true_iff in Ha; destruct Ha; auto.
    - apply andb_true_iff in Hw. destruct Hw as [Ha Ho].
      assert (Hs : sort_of (TOp o args) = op_sort o (map sort_of args)) by (destruct o; try reflexivity; discriminate).
      rewrite Hs. cbn [eval]. apply eval_op_dom; auto.
      clear - H Ha HE. induction args as [|a r IH]; simpl; constructor;
        inversion H; subst; simpl in Ha; apply andb_true_iff in Ha; destruct Ha; auto.
    - apply andb_true_iff in Hw. destruct Hw as [Hw Hb]. apply andb_true_iff in Hw. destruct Hw as [Hw Hl].
      cbn [sort_of eval]. destruct b; try reflexivity; cbn [eval_bind].
      + destruct vs as [|[x s] [|? ?]]; try discriminate. apply ichoice_dom.
      + apply ilam_dom. intros vals Hd. apply IHt; auto. apply env_ok_upds; auto.
    - apply andb_true_iff in Hw. destruct Hw as [Hv Hw]. cbn [sort_of eval]. apply IHt; auto.
      apply env_ok_upds; auto. rewrite map_map. simpl.
      clear - H Hv HE. induction bs as [|a r IH]; simpl; constructor;
        inversion H; subst; simpl in Hv; apply andb_true_iff in Hv; destruct Hv; auto.
    - apply andb_true_iff in Hw. destruct Hw as [Ha Ho]. cbn [sort_of eval]. apply eval_pop_dom; auto.
      clear - H0 Ha HE. induction args as [|a r IH]; simpl; constructor;
        inversion H0; subst; simpl in Ha; apply andb_true_iff in Ha; destruct Ha; auto.
  Qed.

  (** a literal of sort Bool evaluates to a Boolean *)
  Definition bool_term (t : term) : bool := wt t && sort_eqb (sort_of t) SBool.
  Lemma eval_bool t E : bool_term t = true -> env_ok E -> eval t E = VB (holds E t).
  Proof.
    unfold bool_term. intros H HE. apply andb_true_iff in H. destruct H as [Hw Hs]. apply sort_eqb_eq in Hs.
    pose proof (eval_dom t E Hw HE) as Hd. rewrite Hs in Hd. apply dom_bool in Hd.
    unfold holds. destruct Hd as [b ->]. reflexivity.
  Qed.

End Dom.
