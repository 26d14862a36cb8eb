(** Invalid steps accepted by the pseudo-Boolean bit-blasting rules. *)
From Coq Require Import List String ZArith Bool Arith Lia.
From Verif Require Import Base Field Term Sem Rules Sorting Refute Num R_LA PolySound R_CP CPSound BvSound R_PB PBSound.
Import ListNotations.
Local Open Scope nat_scope.

Definition cbv (v : Z) (w : nat) : term := TConst (CBV v w).
Lemma zbit_const {I} (E : env I) v w i : zbit E (cbv v w) i = Z.testbit (bvmod w v) (Z.of_nat i).
Proof. reflexivity. Qed.
(** a refutation by a closed equation whose sides have different values *)
Lemma refuted_by (r : rule) a b (p q : forall I : interp, value I) : r [tEq a b] [] [] = ROk tt -> bool_term (tEq a b) = true ->
  (forall I (E : env I), eval a E = p I) -> (forall I (E : env I), eval b E = q I) -> (forall I, p I <> q I) -> rule_refuted r.
Proof.
  intros Hr Hw Ha Hb Hn. exists [tEq a b], [], []. split; [exact Hr|]. split; [cbn [clause_wt forallb]; unfold clause_wt; cbn [forallb]; rewrite Hw; reflexivity|]. split; [reflexivity|].
  intros I. destruct (env_exists (I := I)) as [E HE]. exists E. split; auto. split; [intros p' []|]. intros [l [[<-|[]] H]].
  apply (eqv_iff E a b) in H. rewrite Ha, Hb in H. exact (Hn I H).
Qed.
Lemma sub_const {I} (E : env I) v w v' w' i k :
  eval (TOp OGe [TOp OSub [int_of i (cbv v w); int_of i (cbv v' w')]; tInt k]) E =
  VB (k <=? b2z (Z.testbit (bvmod w v) (Z.of_nat i)) - b2z (Z.testbit (bvmod w' v') (Z.of_nat i)))%Z.
Proof. apply ge_val; [apply is_numb_int|apply nval_intof..]. Qed.
Ltac by_consts E := intros I E; first [apply sub_const | reflexivity].

(** (1) sums that leave out the high bits *)
Definition cut (o rel : op) (k v1 v2 : Z) (flip : bool) : term :=
  let x := cbv v1 2 in let y := cbv v2 2 in
  tEq (TOp o [x; y]) (TOp rel [if flip then TOp OSub [int_of 0 y; int_of 0 x] else TOp OSub [int_of 0 x; int_of 0 y]; tInt k]).
Definition cut_eq : term := cut OEquals OEquals 0 0 2 false.
Lemma cut_eq_false {I} (E : env I) : holds E cut_eq = false.
Proof.
  destruct (holds E cut_eq) eqn:H; auto. apply (eqv_iff E) in H.
  change (eval (tEq (cbv 0 2) (cbv 2 2)) E = eval (tEq (TOp OSub [int_of 0 (cbv 0 2); int_of 0 (cbv 2 2)]) (tInt 0)) E) in H.
  rewrite (eval_eqnum E _ (tInt 0) 0 (is_numb_int 0)) in H by reflexivity.
  change (nval E (TOp OSub [int_of 0 (cbv 0 2); int_of 0 (cbv 2 2)])) with (osub (nval E (int_of 0 (cbv 0 2))) (nval E (int_of 0 (cbv 2 2)))) in H.
  rewrite !nval_intof, bits_sub, inj_eqb in H. discriminate.
Qed.
Lemma pb_eq_refuted : rule_refuted r_pb_eq.
Proof.
  exists [cut_eq], [], []. split; [reflexivity|]. split; [vm_compute; reflexivity|]. split; [reflexivity|]. intros I. destruct (env_exists (I := I)) as [E HE]. exists E. split; auto.
  split; [intros p []|]. apply not_clause_b. cbn [existsb]. rewrite cut_eq_false. reflexivity.
Qed.
Lemma pb_ult_refuted : rule_refuted r_pb_ult.
Proof. apply (refuted_by _ (TOp OBvULt [cbv 0 2; cbv 2 2]) (TOp OGe [TOp OSub [int_of 0 (cbv 2 2); int_of 0 (cbv 0 2)]; tInt 1]) (fun I => VB true) (fun I => VB false)); [reflexivity|vm_compute; reflexivity|by_consts E..|discriminate]. Qed.
Lemma pb_uge_refuted : rule_refuted r_pb_uge.
Proof. apply (refuted_by _ (TOp OBvUGe [cbv 0 2; cbv 2 2]) (TOp OGe [TOp OSub [int_of 0 (cbv 0 2); int_of 0 (cbv 2 2)]; tInt 0]) (fun I => VB false) (fun I => VB true)); [reflexivity|vm_compute; reflexivity|by_consts E..|discriminate]. Qed.
Lemma pb_ugt_refuted : rule_refuted r_pb_ugt.
Proof. apply (refuted_by _ (TOp OBvUGt [cbv 2 2; cbv 0 2]) (TOp OGe [TOp OSub [int_of 0 (cbv 2 2); int_of 0 (cbv 0 2)]; tInt 1]) (fun I => VB true) (fun I => VB false)); [reflexivity|vm_compute; reflexivity|by_consts E..|discriminate]. Qed.
Lemma pb_ule_refuted : rule_refuted r_pb_ule.
Proof. apply (refuted_by _ (TOp OBvULe [cbv 2 2; cbv 0 2]) (TOp OGe [TOp OSub [int_of 0 (cbv 0 2); int_of 0 (cbv 2 2)]; tInt 0]) (fun I => VB false) (fun I => VB true)); [reflexivity|vm_compute; reflexivity|by_consts E..|discriminate]. Qed.

(** (2) signed comparisons of width one: the sign bit also occurs as a summand *)
Definition signed_rhs (a b : term) (k : Z) : term :=
  TOp OGe [TOp OAdd [TOp OSub [int_of 0 a; TOp OMult [tInt 1; int_of 0 a]]; TOp OSub [TOp OMult [tInt 1; int_of 0 b]; int_of 0 b]]; tInt k].
Lemma signed_rhs_val {I} (E : env I) a b k : eval (signed_rhs a b k) E = VB (k <=? 0)%Z.
Proof.
  assert (Hm : forall t, nval E (TOp OMult [tInt 1; int_of 0 t]) = inj (b2z (zbit E t 0))).
  { intros t. rewrite nval_mult2, nval_intof. change (nval E (tInt 1)) with (inj 1 : iF I). rewrite <- inj_mul. f_equal. lia. }
  unfold signed_rhs. rewrite (signed_ge_val E _ _ _ _ _ k 0 0 (is_numb_int k)); [reflexivity|..]; rewrite Hm, nval_intof, bits_sub; f_equal; lia.
Qed.
Lemma pb_slt_refuted : rule_refuted r_pb_slt.
Proof. apply (refuted_by _ (TOp OBvSLt [cbv 1 1; cbv 0 1]) (signed_rhs (cbv 0 1) (cbv 1 1) 1) (fun I => VB true) (fun I => VB false)); [reflexivity|vm_compute; reflexivity|intros I E; first [apply signed_rhs_val|reflexivity]..|discriminate]. Qed.
Lemma pb_sle_refuted : rule_refuted r_pb_sle.
Proof. apply (refuted_by _ (TOp OBvSLe [cbv 0 1; cbv 1 1]) (signed_rhs (cbv 1 1) (cbv 0 1) 0) (fun I => VB false) (fun I => VB true)); [reflexivity|vm_compute; reflexivity|intros I E; first [apply signed_rhs_val|reflexivity]..|discriminate]. Qed.
Lemma pb_sgt_refuted : rule_refuted r_pb_sgt.
Proof. apply (refuted_by _ (TOp OBvSGt [cbv 0 1; cbv 1 1]) (signed_rhs (cbv 0 1) (cbv 1 1) 1) (fun I => VB true) (fun I => VB false)); [reflexivity|vm_compute; reflexivity|intros I E; first [apply signed_rhs_val|reflexivity]..|discriminate]. Qed.
Lemma pb_sge_refuted : rule_refuted r_pb_sge.
Proof. apply (refuted_by _ (TOp OBvSGe [cbv 1 1; cbv 0 1]) (signed_rhs (cbv 1 1) (cbv 0 1) 0) (fun I => VB false) (fun I => VB true)); [reflexivity|vm_compute; reflexivity|intros I E; first [apply signed_rhs_val|reflexivity]..|discriminate]. Qed.

(** (3) a pbbterm over integers that are not bits *)
Definition nonbit_eq : term := tEq (tEq (TOp OBvPBbTerm [tInt 2]) (TOp OBvPBbTerm [tInt 3])) (tEq (TOp OSub [tInt 2; tInt 3]) (tInt 0)).
Lemma pb_nonbit : r_pb_eq [nonbit_eq] [] [] = ROk tt /\ clause_wt [nonbit_eq] = true /\ forall I (E : env I), holds E nonbit_eq = false.
Proof.
  split; [reflexivity|]. split; [vm_compute; reflexivity|]. intros I E. destruct (holds E nonbit_eq) eqn:H; auto. apply (eqv_iff E) in H.
  rewrite (eval_eqnum E (TOp OSub [tInt 2; tInt 3]) (tInt 0) 0 (is_numb_int 0)) in H by reflexivity.
  change (nval E (TOp OSub [tInt 2; tInt 3])) with (osub (inj 2 : iF I) (inj 3)) in H. rewrite bits_sub, inj_eqb in H.
  unfold tEq in H. cbn [eval map eval_op chain eval_const] in H. change (num (eval (tInt 2) E)) with (inj 2 : iF I) in H. change (num (eval (tInt 3) E)) with (inj 3 : iF I) in H.
  rewrite <- (inj_1 (iF I)), !inj_eqb in H. cbn in H. discriminate.
Qed.
(** (4) a constant that is 1 only modulo 2^32 *)
Definition wrap_eq : term := tEq (cbv 1 1) (TOp OBvPBbTerm [tInt 4294967297]).
Lemma pb_const_refuted : rule_refuted r_pb_const.
Proof.
  apply (refuted_by _ (cbv 1 1) (TOp OBvPBbTerm [tInt 4294967297]) (fun I => VBV 1 1) (fun I => VBV 1 0)); [reflexivity|vm_compute; reflexivity|reflexivity| |discriminate].
  intros I E. cbn [eval map eval_op chain]. change (num (eval (tInt 4294967297) E)) with (inj 4294967297 : iF I).
  rewrite <- (inj_1 (iF I)), !inj_eqb. reflexivity.
Qed.
(** (5) capture of the bound variable of the choice *)
Definition modz : term := TPOp PIntToBv [tInt 1] [tZ].
Lemma modz_bit {I} (E : env I) k : E "z"%string SInt = vint k -> zbit E modz 0 = Z.odd k.
Proof.
  intros Hk. unfold zbit, modz, tZ. cbn [eval map]. rewrite Hk. unfold eval_pop. cbn [map as_const_nat as_const_int Z.leb Z.compare Z.to_nat tInt bvz vint num].
  change (Pos.to_nat 1) with 1. cbn [bvz num vint]. rewrite floor_inj. unfold bvmod. rewrite Z.mod_pow2_bits_low by lia. apply Z.bit0_odd.
Qed.
Lemma capture_refuted o f d body : (o = OBvXor \/ o = OBvAnd) -> (o = OBvXor -> d = 0%Z) -> (o = OBvAnd -> d = 1%Z) ->
  r_pb_bitwise o f [tEq (TOp o [modz; cbv d 1]) (TOp OBvPBbTerm [choice_of body])] [] [] = ROk tt ->
  clause_wt [tEq (TOp o [modz; cbv d 1]) (TOp OBvPBbTerm [choice_of body])] = true ->
  (forall x s, free_in x s (choice_of body) = false) ->
  (forall I (E : env I) k, E "z"%string SInt = vint k -> holds E (TOp OAnd body) = (k =? b2z (Z.odd k))%Z) ->
  rule_refuted (r_pb_bitwise o f).
Proof.
  intros Ho H0 H1 Hr Hw Hc Hb. eexists _, [], []. split; [exact Hr|]. split; [exact Hw|]. split; [reflexivity|]. intros I.
  destruct (env_exists (I := I)) as [E0 HE0]. destruct (choice_char E0 (TOp OAnd body) (fun k => (k =? b2z (Z.odd k))%Z)) as [k [Hk Hk1]].
  - intros k. apply Hb. apply upd_same.
  - exists 0%Z. reflexivity.
  - assert (Hkv : k = 0%Z \/ k = 1%Z) by (apply Z.eqb_eq in Hk1; destruct (Z.odd k); cbn in Hk1; auto).
    set (E := upd E0 "z" SInt (vint (1 - k))). assert (HE : env_ok E) by (apply env_ok_upd; auto; apply dom_int; eauto). exists E. split; auto. split; [intros p []|].
    intros [l [[<-|[]] H]]. apply (eqv_iff E) in H. apply (f_equal (fun v => Z.testbit (bvz v) 0)) in H.
    assert (HE' : nval E (choice_of body) = inj k). { unfold choice_of in *. rewrite <- Hk. unfold nval. f_equal. apply eval_agree. intros x s Hx. rewrite Hc in Hx. discriminate. }
    change (Z.testbit (bvz (eval (TOp OBvPBbTerm [choice_of body]) E)) 0) with (zbit E (TOp OBvPBbTerm [choice_of body]) 0) in H.
    rewrite (pbb_bit E [choice_of body] 0 _ eq_refl), HE', <- (inj_1 (iF I)), inj_eqb in H.
    assert (Hm : zbit E modz 0 = Z.odd (1 - k)) by (apply modz_bit; unfold E; apply upd_same).
    change (Z.testbit (bvz (eval modz E)) 0 = Z.odd (1 - k)) in Hm.
    destruct Ho as [->| ->]; [rewrite H0 in H by auto; rename H into G|rewrite H1 in H by auto; rename H into G];
      cbn [eval map eval_op bvbin fold1 fold_left] in G; unfold bv2 in G; cbn [bvz eval_const cbv] in G;
      rewrite ?Z.lxor_spec, ?Z.land_spec in G; fold (eval modz E) in G; change (eval_pop PIntToBv [tInt 1] [eval tZ E]) with (eval modz E) in G; rewrite Hm in G; destruct Hkv; subst k; cbn in G; discriminate.
Qed.
Lemma pb_xor_refuted : rule_refuted r_pb_xor.
Proof.
  apply (capture_refuted OBvXor pb_xor_bit 0 (xor_body (int_of 0 modz) (int_of 0 (cbv 0 1)) tZ)); [(left; reflexivity) || (right; reflexivity)|reflexivity || discriminate|reflexivity || discriminate|reflexivity|vm_compute; reflexivity|..].
  - intros x s. cbn. unfold svar_eqb. cbn [fst snd]. destruct (String.eqb x "z" && sort_eqb s SInt) eqn:E; cbn; rewrite ?E; reflexivity.
  - intros I E k Hk. change (xor_body (int_of 0 modz) (int_of 0 (cbv 0 1)) tZ) with (xor_cs (int_of 0 modz) (int_of 0 (cbv 0 1)) tZ (tInt 2)).
    rewrite (xor_cs_val E _ _ _ _ (b2z (Z.odd k)) 0 k); try (apply is_numb_int).
    + unfold xor_p, b2z. destruct (Z.odd k); lia.
    + rewrite nval_intof, (modz_bit E k Hk). reflexivity.
    + rewrite nval_intof. reflexivity.
    + unfold nval, tZ. cbn [eval]. rewrite Hk. reflexivity.
Qed.
Lemma pb_and_refuted : rule_refuted r_pb_and.
Proof.
  apply (capture_refuted OBvAnd pb_and_bit 1 (and_body (int_of 0 modz) (int_of 0 (cbv 1 1)) tZ)); [(left; reflexivity) || (right; reflexivity)|reflexivity || discriminate|reflexivity || discriminate|reflexivity|vm_compute; reflexivity|..].
  - intros x s. cbn. unfold svar_eqb. cbn [fst snd]. destruct (String.eqb x "z" && sort_eqb s SInt) eqn:E; cbn; rewrite ?E; reflexivity.
  - intros I E k Hk. change (and_body (int_of 0 modz) (int_of 0 (cbv 1 1)) tZ) with (and_cs (int_of 0 modz) (int_of 0 (cbv 1 1)) tZ (tInt 1)).
    rewrite (and_cs_val E _ _ _ _ (b2z (Z.odd k)) 1 k); try (apply is_numb_int).
    + unfold and_p, b2z. destruct (Z.odd k); lia.
    + rewrite nval_intof, (modz_bit E k Hk). reflexivity.
    + rewrite nval_intof. reflexivity.
    + unfold nval, tZ. cbn [eval]. rewrite Hk. reflexivity.
Qed.
(** (6) the constraints of one bit instantiated with integers that are not bits *)
Lemma ith_refuted (r : rule) t args : r [t] [] args = ROk tt -> clause_wt [t] = true -> (forall I (E : env I), env_ok E -> holds E t = false) -> rule_refuted r.
Proof.
  intros Hr Hw Hf. exists [t], [], args. split; auto. split; auto. split; auto. intros I. destruct (env_exists (I := I)) as [E HE]. exists E. split; auto. split; [intros p []|].
  apply not_clause_b. cbn [existsb]. rewrite Hf; auto.
Qed.
Lemma choice_int {I} (E : env I) body : exists k, nval E (choice_of body) = inj k.
Proof.
  unfold choice_of, nval. set (f := fun v : value I => truth (eval (TOp OAnd body) (upd E "z" SInt v))). change (exists k, num (ichoice I SInt f) = inj k). pose proof (ichoice_dom I SInt f) as Hd. apply dom_int in Hd. destruct Hd as [k ->]. exists k. reflexivity.
Qed.
Lemma pb_xor_ith_refuted : rule_refuted r_pb_xor_ith.
Proof.
  set (r := choice_of (xor_body (tInt 5) (tInt 0) tZ)). apply (ith_refuted _ (TOp OAnd (xor_body (tInt 5) (tInt 0) r)) [tInt 5; tInt 0]); [reflexivity|vm_compute; reflexivity|].
  intros I E HE. destruct (choice_int E (xor_body (tInt 5) (tInt 0) tZ)) as [k Hk]. fold r in Hk. change (xor_body (tInt 5) (tInt 0) r) with (xor_cs (tInt 5) (tInt 0) r (tInt 2)).
  rewrite (xor_cs_val E (tInt 5) (tInt 0) _ _ 5 0 k eq_refl eq_refl Hk (is_numb_int 2)). unfold xor_p. lia.
Qed.
Lemma pb_and_ith_refuted : rule_refuted r_pb_and_ith.
Proof.
  set (r := choice_of (and_body (tInt 5) (tInt 5) tZ)). apply (ith_refuted _ (TOp OAnd (and_body (tInt 5) (tInt 5) r)) [tInt 5; tInt 5]); [reflexivity|vm_compute; reflexivity|].
  intros I E HE. destruct (choice_int E (and_body (tInt 5) (tInt 5) tZ)) as [k Hk]. fold r in Hk. change (and_body (tInt 5) (tInt 5) r) with (and_cs (tInt 5) (tInt 5) r (tInt 1)).
  rewrite (and_cs_val E (tInt 5) (tInt 5) _ _ 5 5 k eq_refl eq_refl Hk (is_numb_int 1)). unfold and_p. lia.
Qed.

(** (7) The choice term of pbblast_bvand is not a bit: when both bits are 0, its constraints allow -1. *)
Section Minus.
  Variable I : interp.
  Definition m1 : value I := vint (-1).
  (** choose -1 when it satisfies the condition *)
  Definition choice_m1 (s : sort) (f : value I -> bool) : value I := if sort_eqb s SInt && f m1 then m1 else ichoice I s f.
  Lemma m1_dom : idom I SInt m1 = true.
  Proof. apply dom_int. eexists. reflexivity. Qed.
  Lemma choice_m1_dom s f : idom I s (choice_m1 s f) = true.
  Proof. unfold choice_m1. destruct (sort_eqb s SInt && f m1) eqn:E; [|apply ichoice_dom]. apply andb_true_iff in E. destruct E as [E _]. apply sort_eqb_eq in E. subst s. apply m1_dom. Qed.
  Lemma choice_m1_spec s f v : idom I s v = true -> f v = true -> f (choice_m1 s f) = true.
  Proof. intros Hv Hf. unfold choice_m1. destruct (sort_eqb s SInt && f m1) eqn:E; [|apply (ichoice_spec I s f v); auto]. apply andb_true_iff in E. tauto. Qed.
  Lemma choice_m1_ext s f g : (forall v, idom I s v = true -> f v = g v) -> choice_m1 s f = choice_m1 s g.
  Proof.
    intros H. unfold choice_m1. destruct (sort_eqb s SInt) eqn:E; cbn [andb]; [|apply ichoice_ext; auto]. apply sort_eqb_eq in E. subst s. rewrite (H m1 m1_dom). destruct (g m1); auto. apply ichoice_ext; auto.
  Qed.
  Definition with_m1 : interp :=
    mkI (iF I) (iU I) (ieqU I) (ieqU_eq I) (iudom I) (iapp I) (iop I) (ipop I) (iall I) (iall_spec I) choice_m1
      choice_m1_dom choice_m1_spec choice_m1_ext (ilam I) (ilam_ext I) (iapp_dom I) (iop_dom I) (ipop_dom I) (ilam_dom I) (ire I).
End Minus.
(** the bit of (bvand #b0 #b0) *)
Definition and_body00 : list term := and_body (int_of 0 (cbv 0 1)) (int_of 0 (cbv 0 1)) tZ.
Definition and00 : term := choice_of and_body00.
Lemma and00_val (I : interp) (E : env (with_m1 I)) : nval E and00 = inj (-1).
Proof.
  unfold and00, choice_of, nval. set (f := fun v : value (with_m1 I) => holds (upd E "z" SInt v) (TOp OAnd and_body00)).
  change (num (choice_m1 I SInt f) = @inj (iF I) (-1)). unfold choice_m1.
  assert (Hf : f (m1 I) = true).
  { unfold f. change (and_body00) with (and_cs (int_of 0 (cbv 0 1)) (int_of 0 (cbv 0 1)) tZ (tInt 1)).
    rewrite (and_cs_val (I := with_m1 I) _ _ _ _ _ 0 0 (-1)); [reflexivity|..|apply is_numb_int]; try (rewrite nval_intof; reflexivity).
    unfold nval, tZ. cbn [eval]. rewrite upd_same. reflexivity. }
  rewrite Hf. reflexivity.
Qed.
(** bvand #b0 #b0 is blasted to a pbbterm over this choice term ... *)
Definition and_step : term := tEq (TOp OBvAnd [cbv 0 1; cbv 0 1]) (TOp OBvPBbTerm [and00]).
(** ... and the blasted vector is compared with zero *)
Definition and_cmp : term := tEq (tEq (TOp OBvPBbTerm [and00]) (TOp OBvPBbTerm [tInt 0])) (tEq (TOp OSub [and00; tInt 0]) (tInt 0)).
Lemma pb_and_minus : r_pb_and [and_step] [] [] = ROk tt /\ r_pb_eq [and_cmp] [] [] = ROk tt /\ clause_wt [and_step; and_cmp] = true /\
  forall I : interp, exists I' (E : env I'), env_ok E /\ holds E and_step = true /\ holds E and_cmp = false.
Proof.
  split; [reflexivity|]. split; [reflexivity|]. split; [vm_compute; reflexivity|]. intros I. exists (with_m1 I). destruct (env_exists (I := with_m1 I)) as [E HE]. exists E. split; auto.
  assert (Hp : eval (TOp OBvPBbTerm [and00]) E = VBV 1 0).
  { cbn [eval map eval_op List.length]. change (num (eval and00 E)) with (nval E and00). rewrite and00_val, <- (inj_1 (iF (with_m1 I))), inj_eqb. reflexivity. }
  split; [apply (eqv_iff E); rewrite Hp; reflexivity|]. destruct (holds E and_cmp) eqn:H; auto. apply (eqv_iff E) in H.
  rewrite (eval_eqnum E (TOp OSub [and00; tInt 0]) (tInt 0) 0 (is_numb_int 0)) in H by reflexivity.
  change (nval E (TOp OSub [and00; tInt 0])) with (osub (nval E and00) (inj 0 : iF (with_m1 I))) in H. rewrite and00_val, bits_sub, inj_eqb in H.
  unfold tEq in H. remember (TOp OBvPBbTerm [and00]) as u. cbn [eval map eval_op chain] in H. change (eval_op OBvPBbTerm [eval (tInt 0) E]) with (eval (TOp OBvPBbTerm [tInt 0]) E) in H.
  rewrite Hp in H. assert (H0 : eval (TOp OBvPBbTerm [tInt 0]) E = VBV 1 0).
  { cbn [eval map eval_op List.length]. change (num (eval (tInt 0) E)) with (inj 0 : iF (with_m1 I)). rewrite <- (inj_1 (iF (with_m1 I))), inj_eqb. reflexivity. }
  cbn [eval map eval_op List.length] in H0. change (List.length [eval (tInt 0) E]) with 1 in H. rewrite H0 in H. discriminate.
Qed.
(** (8) every rule panics on an empty conclusion (the rules for one bit: with two arguments) *)
Lemma pb_empty : forall name r, In (name, r) pb_rules -> r [] [] [tInt 0; tInt 0] = RPanic.
Proof. intros name r H. cbn in H. repeat match type of H with _ \/ _ => destruct H as [H|H] end; try (injection H as _ <-; reflexivity). destruct H. Qed.
