(** Soundness of term evaluation (R_Eval.v) when no signed bit-vector operation meets a set sign bit, no extraction reads a set
    top bit, and integer division and remainder are applied to non-negative dividends. *)
From Coq Require Import List String ZArith QArith Qround Bool Arith Lia.
From Verif Require Import Base Term Field Sem Sorting Rules Num Std R_AC R_Eval.
Import ListNotations.
Local Open Scope nat_scope.

Definition msb_clear (v : cval) : bool := match v with EBV z w => negb (bvmsb w z) | _ => true end.
Definition nonneg (v : cval) : bool := match v with EI z => Z.leb 0 z | _ => true end.
Definition op_safe (o : op) (l : list cval) : bool :=
  match o with
  | OIntDiv => forallb nonneg (removelast l)
  | OMod => match l with a :: _ => nonneg a | [] => true end
  | OBvSub | OBvSDiv | OBvSRem | OBvSMod | OBvSLt | OBvSLe | OBvSGt | OBvSGe | OSBvToInt => forallb msb_clear l
  | OPow2 | OLog2 | OIsPow2 => false
  | _ => true
  end.
Definition pop_safe (o : pop) (ol l : list cval) : bool :=
  match o, ol, l with
  | PBvExtract, EI i :: _, [EBV z w] => negb (Z.testbit z i)
  | PSignExtend, _, _ => forallb msb_clear l
  | _, _, _ => true
  end.
Definition const_ok (c : const) : bool := match c with CBV v w => Z.leb 0 v && Z.ltb v (2 ^ Z.of_nat w) | _ => true end.
Fixpoint eval_safe (t : term) : bool :=
  match t with
  | TConst c => const_ok c
  | TOp o args => forallb eval_safe args &&
      match omap evaluate args with
      | ROk args' => match values args' with Some vs => op_safe o vs | None => true end
      | _ => true
      end
  | TPOp o oargs args => forallb eval_safe args &&
      match omap evaluate oargs, omap evaluate args with
      | ROk oargs', ROk args' => match values oargs', values args' with Some ovs, Some vs => pop_safe o ovs vs | _, _ => true end
      | _, _ => true
      end
  | _ => true
  end.

(** a value, its sort, and the range of a bit-vector *)
Definition vsort (v : cval) : sort :=
  match v with EB _ => SBool | EI _ => SInt | ER _ => SReal | ES _ => SString | EBV _ w => SBV w end.
Definition vok (v : cval) : Prop := match v with EBV z w => (0 <= z < 2 ^ Z.of_nat w)%Z | _ => True end.
Definition nq (v : cval) : Q := match v with EI z => inject_Z z | ER q => q | _ => 0%Q end.

Section ValueLemmas.
  Context {I : interp}.
  Add Field evF : (o_th (iF I)).
  Notation value := (value I).
  Definition vval (v : cval) : value :=
    match v with EB b => VB b | EI z => vint z | ER q => VN (injQ q) | ES s => VS s | EBV z w => VBV w z end.

  Lemma vval_dom v : vok v -> idom I (vsort v) (vval v) = true.
  Proof.
    destruct v; simpl; intros H; auto.
    - apply dom_vint.
    - apply dom_VBV. lia.
  Qed.
  Lemma vval_doms vs : Forall vok vs -> Forall2 (fun s v => idom I s v = true) (map vsort vs) (map vval vs).
  Proof. induction 1; simpl; constructor; auto. apply vval_dom; auto. Qed.

  Lemma sort_bool v : vsort v = SBool -> exists b, v = EB b. Proof. destruct v; try discriminate. eauto. Qed.
  Lemma sort_int v : vsort v = SInt -> exists z, v = EI z. Proof. destruct v; try discriminate. eauto. Qed.
  Lemma sort_real v : vsort v = SReal -> exists q, v = ER q. Proof. destruct v; try discriminate. eauto. Qed.
  Lemma sort_bv v w : vsort v = SBV w -> exists z, v = EBV z w. Proof. destruct v; try discriminate. intros [= ->]. eauto. Qed.
  Lemma sort_isbv v : is_bv_sort (vsort v) = true -> exists z w, v = EBV z w. Proof. destruct v; try discriminate. eauto. Qed.
  Lemma num_vval v : is_num_sort (vsort v) = true -> vval v = VN (injQ (nq v)).
  Proof. destruct v; try discriminate; intros _; simpl; [|reflexivity]. unfold vint. rewrite injQ_Z. reflexivity. Qed.

  Lemma list_bools vs : Forall (fun s => s = SBool) (map vsort vs) -> exists bs, vs = map EB bs.
  Proof.
    induction vs as [|v vs IH]; intros H; [exists []; auto|]. inversion H; subst. destruct (IH H3) as [bs ->]. destruct (sort_bool _ H2) as [b ->].
    exists (b :: bs). reflexivity.
  Qed.
  Lemma list_ints vs : Forall (fun s => s = SInt) (map vsort vs) -> exists zs, vs = map EI zs.
  Proof.
    induction vs as [|v vs IH]; intros H; [exists []; auto|]. inversion H; subst. destruct (IH H3) as [bs ->]. destruct (sort_int _ H2) as [b ->].
    exists (b :: bs). reflexivity.
  Qed.
  Lemma list_bvs w vs : Forall (fun s => s = SBV w) (map vsort vs) -> exists zs, vs = map (fun z => EBV z w) zs.
  Proof.
    induction vs as [|v vs IH]; intros H; [exists []; auto|]. inversion H; subst. destruct (IH H3) as [bs ->]. destruct (sort_bv _ _ H2) as [b ->].
    exists (b :: bs). reflexivity.
  Qed.

  (** conclusions about one operator *)
  Definition op_spec (o : op) (vs : list cval) (v : cval) : Prop :=
    vval v = eval_op (I := I) o (map vval vs) /\ vsort v = op_sort o (map vsort vs).

  Lemma and_fold bs acc : tfold (fun acc a => if acc : bool then oq (as_b a) (fun b => ROk (Some b)) else ROk (Some false)) acc (map EB bs)
    = ROk (Some (acc && forallb (fun b => b) bs)).
  Proof.
    revert acc. induction bs as [|b bs IH]; intros acc; simpl; [rewrite andb_true_r; auto|].
    destruct acc; simpl; rewrite IH; auto.
  Qed.
  Lemma or_fold bs acc : tfold (fun acc a => if acc : bool then ROk (Some true) else oq (as_b a) (fun b => ROk (Some b))) acc (map EB bs)
    = ROk (Some (acc || existsb (fun b => b) bs)).
  Proof.
    revert acc. induction bs as [|b bs IH]; intros acc; simpl; [rewrite orb_false_r; auto|].
    destruct acc; simpl; rewrite IH; auto.
  Qed.
  Lemma xor_fold bs acc : tfold (fun acc a => oq (as_b a) (fun b => ROk (Some (xorb acc b)))) acc (map EB bs)
    = ROk (Some (fold_left xorb bs acc)).
  Proof. revert acc. induction bs as [|b bs IH]; intros acc; simpl; [auto|]. apply IH. Qed.
  Lemma imp_fold bs acc : tfold (fun acc a => if acc : bool then ROk (Some true) else oq (as_b a) (fun b => ROk (Some (negb b)))) acc (map EB bs)
    = ROk (Some (acc || negb (forallb (fun b => b) bs))).
  Proof.
    revert acc. induction bs as [|b bs IH]; intros acc; simpl; [rewrite orb_false_r; auto|].
    destruct acc; simpl; rewrite IH; auto. destruct b; auto.
  Qed.
  Lemma truth_vals bs : map (truth (I := I)) (map vval (map EB bs)) = bs.
  Proof. induction bs; simpl; congruence. Qed.
  Lemma forallb_map {A B} (f : B -> bool) (g : A -> B) l : forallb f (map g l) = forallb (fun x => f (g x)) l.
  Proof. induction l; simpl; congruence. Qed.
  Lemma existsb_map {A B} (f : B -> bool) (g : A -> B) l : existsb f (map g l) = existsb (fun x => f (g x)) l.
  Proof. induction l; simpl; congruence. Qed.
  Lemma removelast_map {A B} (g : A -> B) l : removelast (map g l) = map g (removelast l).
  Proof. induction l as [|a [|b l] IH]; simpl in *; auto. f_equal. exact IH. Qed.
  Lemma last_map {A B} (g : A -> B) l d : l <> [] -> last (map g l) (g d) = g (last l d).
  Proof. induction l as [|a [|b l] IH]; intros H; simpl in *; [contradiction|auto|]. apply IH. discriminate. Qed.
  Lemma implies_vals bs : bs <> [] ->
    implies_list (I := I) (map vval (map EB bs)) = negb (forallb (fun b => b) (removelast bs)) || last bs true.
  Proof.
    induction bs as [|a [|b bs] IH]; intros H; [contradiction|reflexivity|]. cbn [map implies_list] in *.
    rewrite IH by discriminate. cbn [removelast last forallb truth vval]. destruct a; simpl; auto.
  Qed.

  (** chains *)
  Lemma windows_eq_chain vs s : Forall (fun x => x = s) (map vsort vs) -> Forall vok vs ->
    windows_eq vs = chain (I := I) veqb (map vval vs).
  Proof.
    assert (Heq : forall a b, vsort a = vsort b -> cval_eqb a b = veqb (vval a) (vval b)).
    { intros a b Hs. destruct a, b; try discriminate Hs; simpl; auto.
      - unfold veqb, vint. simpl. rewrite inj_eqb. reflexivity.
      - unfold veqb. simpl. rewrite injQ_eqb. reflexivity.
      - unfold veqb. simpl. apply andb_comm. }
    induction vs as [|a [|b r] IH]; intros H Ho; [reflexivity|reflexivity|]. inversion H; subst. inversion H3; subst. inversion Ho; subst.
    cbn [windows_eq map chain] in *. rewrite IH by auto. rewrite Heq by congruence. reflexivity.
  Qed.

  Lemma all_diff_pairwise vs s : Forall (fun x => x = s) (map vsort vs) ->
    all_diff vs = pairwise (I := I) (fun a b => negb (veqb a b)) (map vval vs).
  Proof.
    assert (Heq : forall a b, vsort a = vsort b -> cval_eqb a b = veqb (I := I) (vval a) (vval b)).
    { intros a b Hs. destruct a, b; try discriminate Hs; simpl; auto.
      - unfold veqb, vint. simpl. rewrite inj_eqb. reflexivity.
      - unfold veqb. simpl. rewrite injQ_eqb. reflexivity.
      - unfold veqb. simpl. apply andb_comm. }
    induction vs as [|a r IH]; intros H; [reflexivity|]. inversion H; subst.
    cbn [all_diff map pairwise] in *. rewrite IH by auto. f_equal. rewrite forallb_map. clear - Heq H3.
    induction r as [|b r IHr]; simpl; auto. inversion H3; subst. rewrite IHr by auto. rewrite Heq by congruence. reflexivity.
  Qed.
  Lemma cmp_chain fq (g : value -> value -> bool) vs :
    (forall a b, is_num_sort (vsort a) = true -> is_num_sort (vsort b) = true -> compare fq a b = Some (g (vval a) (vval b))) ->
    forallb is_num_sort (map vsort vs) = true -> forall acc,
    cmp_go fq acc vs = some (EB (acc && chain (I := I) g (map vval vs))).
  Proof.
    intros Hc. induction vs as [|a [|b r] IH]; intros H acc; simpl in H; [simpl; rewrite andb_true_r; auto|simpl; rewrite andb_true_r; auto|].
    apply andb_true_iff in H. destruct H as [H1 H2]. pose proof H2 as H2'. apply andb_true_iff in H2'. destruct H2' as [H3 H4].
    specialize (IH H2). cbn [cmp_go map chain] in *. destruct acc.
    - rewrite Hc by auto. cbn [oq]. rewrite IH. reflexivity.
    - rewrite IH. reflexivity.
  Qed.
  Lemma compare_num fq a b : is_num_sort (vsort a) = true -> is_num_sort (vsort b) = true -> compare fq a b = Some (fq (nq a) (nq b)).
  Proof. destruct a, b; try discriminate; reflexivity. Qed.

  (** arithmetic *)
  Lemma is_num_val_sort v : is_num_sort (vsort v) = is_num_val v. Proof. destruct v; reflexivity. Qed.
  Lemma arith_fold (fi : Z -> Z -> Z) (fq : Q -> Q -> Q) (g : iF I -> iF I -> iF I) :
    (forall a b, inject_Z (fi a b) == fq (inject_Z a) (inject_Z b))%Q ->
    (forall a b, injQ (fq a b) = g (injQ a) (injQ b)) ->
    forall l acc, is_num_val acc = true -> forallb is_num_sort (map vsort l) = true ->
    exists v, tfold (mixed (ok2 fi) (ok2 fq) false) acc l = ROk (Some v) /\ is_num_val v = true /\
      injQ (nq v) = fold_left g (map num (map (vval) l)) (injQ (nq acc)) /\
      vsort v = (if existsb (sort_eqb SReal) (vsort acc :: map vsort l) then SReal else SInt).
  Proof.
    intros Hi Hg. induction l as [|a l IH]; intros acc Ha Hl.
    - exists acc. cbn. repeat split; auto. destruct acc; try discriminate; reflexivity.
    - cbn [map forallb] in Hl. apply andb_true_iff in Hl. destruct Hl as [H1 H2].
      assert (Hm : exists v, mixed (ok2 fi) (ok2 fq) false acc a = ROk (Some v) /\ is_num_val v = true /\
        injQ (nq v) = g (injQ (nq acc)) (injQ (nq a)) /\ vsort v = if existsb (sort_eqb SReal) [vsort acc; vsort a] then SReal else SInt).
      { destruct acc, a; try discriminate; cbn; eexists; (split; [reflexivity|]); repeat split; cbn; rewrite <- ?Hg; try reflexivity.
        apply injQ_eq. apply Hi. }
      destruct Hm as [v [Hm [Hv [Hq Hs]]]]. destruct (IH v Hv H2) as [v' [Hf [Hv' [Hq' Hs']]]]. exists v'.
      cbn [tfold]. rewrite Hm. cbn [oo]. split; [exact Hf|]. split; [exact Hv'|]. split.
      + rewrite Hq', Hq. cbn [map fold_left]. rewrite (num_vval a H1). reflexivity.
      + rewrite Hs', Hs. cbn [map existsb]. destruct acc, a; try discriminate; reflexivity.
  Qed.
  Lemma num_list_vals l : forallb is_num_sort (map vsort l) = true -> map (num (I := I)) (map vval l) = map (fun v => injQ (nq v)) l.
  Proof.
    induction l as [|a l IH]; intros H; auto. cbn [map forallb] in *. apply andb_true_iff in H. destruct H as [H1 H2].
    rewrite IH by auto. rewrite num_vval by auto. reflexivity.
  Qed.
  Lemma num_val_eq v : is_num_val v = true -> vval v = VN (injQ (nq v)).
  Proof. intros H. apply num_vval. rewrite is_num_val_sort. auto. Qed.

  Lemma rdiv_fold l : forall acc v, is_num_val acc = true -> forallb is_num_sort (map vsort l) = true ->
    tfold (mixed quot_i quot_q true) acc l = ROk (Some v) ->
    is_num_val v = true /\ vval v = fold_left (rdiv (I := I)) (map vval l) (vval acc) /\ (l <> [] -> vsort v = SReal).
  Proof.
    induction l as [|a l IH]; intros acc v Ha Hl H; cbn [tfold] in H.
    - injection H as <-. repeat split; auto. congruence.
    - cbn [map forallb] in Hl. apply andb_true_iff in Hl. destruct Hl as [H1 H2].
      assert (Hm : mixed quot_i quot_q true acc a = do r <- quot_q (nq acc) (nq a) ; some (ER r)) by (destruct acc, a; try discriminate; reflexivity).
      rewrite Hm in H. unfold quot_q in H at 1. destruct (Qeq_bool (nq a) 0) eqn:E0; [discriminate|]. cbn in H.
      destruct (IH _ _ (eq_refl : is_num_val (ER (nq acc / nq a)) = true) H2 H) as [Hv [He Hs]]. split; [exact Hv|]. split.
      + rewrite He. cbn [map fold_left]. f_equal. rewrite (num_val_eq acc Ha), (num_vval a H1). unfold rdiv. cbn [num vval].
        rewrite <- injQ_0, injQ_eqb, E0. f_equal. apply injQ_div. intros HQ. apply Qeq_bool_iff in HQ. congruence.
      + intros _. destruct l; [|apply Hs; discriminate]. cbn in H. injection H as <-. reflexivity.
  Qed.
  Lemma quot_ediv a b : (0 <= a)%Z -> (b <> 0)%Z -> Z.quot a b = ediv a b.
  Proof.
    intros Ha Hb. unfold ediv. destruct (Z.ltb_spec b 0).
    - rewrite <- (Z.opp_involutive b) at 1. rewrite Z.quot_opp_r by lia. rewrite Z.quot_div_nonneg by lia. reflexivity.
    - apply Z.quot_div_nonneg; lia.
  Qed.
  Lemma rem_emod a b : (0 <= a)%Z -> (b <> 0)%Z -> Z.rem a b = emod a b.
  Proof.
    intros Ha Hb. unfold emod. destruct (Z.ltb_spec b 0).
    - rewrite Z.abs_neq by lia. rewrite <- (Z.opp_involutive b) at 1. rewrite Z.rem_opp_r by lia. apply Z.rem_mod_nonneg; lia.
    - rewrite Z.abs_eq by lia. apply Z.rem_mod_nonneg; lia.
  Qed.
  Lemma idiv_fold l : forall acc v, (forallb nonneg (removelast (EI acc :: map EI l)) = true) ->
    tfold (mixed quot_i quot_q false) (EI acc) (map EI l) = ROk (Some v) ->
    vsort v = SInt /\ vval v = fold_left (idiv (I := I)) (map vval (map EI l)) (vval (EI acc)).
  Proof.
    induction l as [|a l IH]; intros acc v Hn H; cbn [tfold map] in H.
    - injection H as <-. auto.
    - cbn [mixed] in H. unfold quot_i at 1 in H. destruct (Z.eqb_spec a 0) as [|E0]; [discriminate|]. cbn [obind oo some] in H.
      assert (Ha : (0 <= acc)%Z) by (destruct l; cbn in Hn; rewrite andb_true_iff in Hn; destruct Hn; lia).
      cbn [map removelast forallb] in Hn. destruct l as [|b l].
      + cbn in H. injection H as <-. split; auto. cbn [map fold_left]. unfold idiv. cbn [num vval vint]. rewrite <- inj_0, inj_eqb.
        destruct (Z.eqb_spec a 0); [contradiction|]. rewrite !floor_inj, quot_ediv by auto. reflexivity.
      + assert (Hn' : forallb nonneg (removelast (EI (Z.quot acc a) :: map EI (b :: l))) = true).
        { cbn [map removelast forallb] in *. apply andb_true_iff in Hn. destruct Hn as [_ Hn]. apply andb_true_iff in Hn. destruct Hn as [Hn1 Hn2].
          rewrite Hn2, andb_true_r. cbn in *. apply Z.leb_le in Hn1. apply Z.leb_le. apply Z.quot_pos; lia. }
        destruct (IH _ _ Hn' H) as [Hs Hv]. split; auto. rewrite Hv. cbn [map fold_left]. f_equal. f_equal.
        unfold idiv. cbn [num vval vint]. rewrite <- inj_0, inj_eqb. destruct (Z.eqb_spec a 0); [contradiction|].
        rewrite !floor_inj, quot_ediv by auto. reflexivity.
  Qed.

  (** bit-vectors *)
  Local Open Scope Z_scope.
  Definition inw (w : nat) (z : Z) : Prop := 0 <= z < 2 ^ Z.of_nat w.
  Lemma bvmod_id w z : inw w z -> bvmod w z = z.
  Proof. intros H. apply Z.mod_small. exact H. Qed.
  Lemma bvmod_in w z : inw w (bvmod w z). Proof. apply bvmod_range. Qed.
  Lemma bvmod_lnot w z : inw w z -> bvmod w (Z.lnot z) = 2 ^ Z.of_nat w - 1 - z.
  Proof.
    intros H. unfold inw in H. unfold bvmod, Z.lnot. symmetry. apply Z.mod_unique with (q := -1); [left|]; unfold Z.pred; lia.
  Qed.
  Lemma bvop_fold f f' o w : bvbin o = Some f' ->
    (forall x y, inw w x -> inw w y -> f' w x y = bvmod w (f x y)) ->
    forall zs acc, Forall (inw w) zs -> inw w acc ->
    exists z, tfold (fun acc a => oq (as_bv a) (fun b => ROk (Some (bvmod w (f acc (fst b)))))) acc (map (fun z => EBV z w) zs) = ROk (Some z) /\
      inw w z /\ VBV w z = fold_left (bv2 (I := I) f') (map vval (map (fun z => EBV z w) zs)) (VBV w acc).
  Proof.
    intros Ho Hf. induction zs as [|a zs IH]; intros acc Hz Ha; [exists acc; auto|]. inversion Hz; subst.
    destruct (IH (bvmod w (f acc a)) H2 (bvmod_in _ _)) as [z [H3 [H4 H5]]]. exists z. split; [exact H3|]. split; [exact H4|].
    rewrite H5. cbn [map fold_left vval]. f_equal. unfold bv2. cbn [bvw bvz]. rewrite Hf by auto. reflexivity.
  Qed.
  Lemma bvop_sound f f' o w vs v : bvbin o = Some f' ->
    (forall x y, inw w x -> inw w y -> f' w x y = bvmod w (f x y)) ->
    (2 <= List.length vs)%nat -> Forall (fun s => s = SBV w) (map vsort vs) -> Forall vok vs ->
    bvop f vs = ROk (Some v) -> vval v = fold1 (I := I) o (bv2 f') (map vval vs) /\ vsort v = SBV w.
  Proof.
    intros Ho Hf Hl Hs Hok H. destruct (list_bvs _ _ Hs) as [zs ->]. destruct zs as [|a [|b zs]]; cbn in Hl; try lia.
    assert (Hz : Forall (inw w) (a :: b :: zs)).
    { apply Forall_forall. intros z Hin. rewrite Forall_forall in Hok. apply (Hok (EBV z w)). apply (in_map (fun z => EBV z w)). exact Hin. }
    inversion Hz; subst.
    destruct (bvop_fold f f' o w Ho Hf (b :: zs) a H3 H2) as [z [H4 [H5 H6]]].
    unfold bvop in H. change (map (fun z => EBV z w) (a :: b :: zs)) with (EBV a w :: map (fun z => EBV z w) (b :: zs)) in H. cbv iota beta in H.
    rewrite H4 in H. cbn [oo] in H. injection H as <-. unfold new_bv. rewrite bvmod_id by auto. split; [|reflexivity].
    cbn [vval]. rewrite H6. reflexivity.
  Qed.

  Lemma sbv_clear z w : msb_clear (EBV z w) = true -> as_sbv (EBV z w) = RPanic \/ as_sbv (EBV z w) = ROk (Some (z, w)).
  Proof.
    cbn [msb_clear]. unfold bvmsb. intros H. destruct w as [|k]; [left; reflexivity|right]. unfold as_sbv.
    replace (Z.of_nat (S k) - 1) with (Z.of_nat k) in H by lia. destruct (Z.testbit z (Z.of_nat k)); [discriminate|reflexivity].
  Qed.
  Lemma bvsigned_clear z w : msb_clear (EBV z w) = true -> bvsigned w z = z.
  Proof. cbn [msb_clear]. unfold bvmsb, bvsigned. destruct (Z.testbit _ _); [discriminate|reflexivity]. Qed.

  (** arithmetic shift right *)
  Lemma ashr_msb w x n : inw w x -> 0 <= n <= Z.of_nat w ->
    bvmod w (Z.lor (Z.shiftr x n) (Z.shiftl (Z.shiftl 1 n - 1) (Z.of_nat w - n))) = bvmod w ((x - 2 ^ Z.of_nat w) / 2 ^ n).
  Proof.
    intros Hx Hn. unfold inw in Hx. assert (Hpw : 2 ^ Z.of_nat w = 2 ^ (Z.of_nat w - n) * 2 ^ n) by (rewrite <- Z.pow_add_r by lia; f_equal; lia).
    assert (Hp1 : 0 < 2 ^ n) by (apply Z.pow_pos_nonneg; lia). assert (Hp2 : 0 < 2 ^ (Z.of_nat w - n)) by (apply Z.pow_pos_nonneg; lia).
    assert (Hsm : Z.shiftr x n = Z.shiftr x n mod 2 ^ (Z.of_nat w - n)).
    { symmetry. apply Z.mod_small. rewrite Z.shiftr_div_pow2 by lia. split; [apply Z.div_pos; lia|]. apply Z.div_lt_upper_bound; lia. }
    assert (Hd : Z.land (Z.shiftr x n) (Z.shiftl (Z.shiftl 1 n - 1) (Z.of_nat w - n)) = 0).
    { apply Z.bits_inj'. intros k Hk. rewrite Z.land_spec, Z.bits_0. destruct (Z.ltb_spec k (Z.of_nat w - n)).
      - rewrite Z.shiftl_spec_low by lia. apply andb_false_r.
      - rewrite Hsm, Z.mod_pow2_bits_high by lia. reflexivity. }
    rewrite <- Z.lxor_lor, <- Z.add_nocarry_lxor by exact Hd. rewrite Z.shiftr_div_pow2, !Z.shiftl_mul_pow2 by lia.
    replace (x - 2 ^ Z.of_nat w) with (x + (- 2 ^ (Z.of_nat w - n)) * 2 ^ n) by (rewrite Hpw; ring). rewrite Z.div_add by lia.
    unfold bvmod. replace (x / 2 ^ n + (1 * 2 ^ n - 1) * 2 ^ (Z.of_nat w - n)) with (x / 2 ^ n + - 2 ^ (Z.of_nat w - n) + 1 * 2 ^ Z.of_nat w) by (rewrite Hpw; ring).
    apply Z.mod_add. rewrite Hpw. lia.
  Qed.

  (** binary operators: the value [z] computed by the code agrees with the semantics *)
  Lemma bv2u_sound f f' o w x y v : bvbin o = Some f' -> inw w x -> inw w y ->
    (forall z, f w x y = ROk (Some z) -> bvmod w z = f' w x y) ->
    bv2u f [EBV x w; EBV y w] = ROk (Some v) -> vval v = bin2 (I := I) o (bv2 f') [VBV w x; VBV w y] /\ vsort v = SBV w.
  Proof.
    intros Ho Hx Hy Hf H. unfold bv2u, arg, oq in H. cbn in H. destruct (f w x y) as [[z|]| |] eqn:E; try discriminate. cbn in H.
    injection H as <-. unfold new_bv. rewrite (Hf z eq_refl). split; reflexivity.
  Qed.
  Lemma bv2s_sound f f' o w x y v : bvbin o = Some f' -> inw w x -> inw w y ->
    msb_clear (EBV x w) = true -> msb_clear (EBV y w) = true ->
    (forall z, f w x y = ROk (Some z) -> bvmod w z = f' w x y) ->
    bv2s f [EBV x w; EBV y w] = ROk (Some v) -> vval v = bin2 (I := I) o (bv2 f') [VBV w x; VBV w y] /\ vsort v = SBV w.
  Proof.
    intros Ho Hx Hy Cx Cy Hf H. unfold bv2s, arg in H. cbn [nth_error] in H.
    destruct (sbv_clear _ _ Cx) as [E1|E1]; rewrite E1 in H; [discriminate|].
    destruct (sbv_clear _ _ Cy) as [E2|E2]; rewrite E2 in H; [discriminate|]. cbn [oo fst snd] in H.
    destruct (f w x y) as [[z|]| |] eqn:E; try discriminate. cbn in H.
    injection H as <-. unfold new_bv. rewrite (Hf z eq_refl). split; reflexivity.
  Qed.
  Lemma bvcmp_u_sound f o w x y v : bvcmp o = Some (fun _ => f) ->
    bvcmp_u f [EBV x w; EBV y w] = ROk (Some v) -> vval v = VB (f x y) /\ vsort v = SBool.
  Proof. intros _ H. cbn in H. injection H as <-. split; reflexivity. Qed.
  Lemma bvcmp_s_sound f w x y v : msb_clear (EBV x w) = true -> msb_clear (EBV y w) = true ->
    bvcmp_s f [EBV x w; EBV y w] = ROk (Some v) -> vval v = VB (f (bvsigned w x) (bvsigned w y)) /\ vsort v = SBool.
  Proof.
    intros Cx Cy H. unfold bvcmp_s, arg in H. cbn [nth_error] in H.
    destruct (sbv_clear _ _ Cx) as [E1|E1]; rewrite E1 in H; [discriminate|].
    destruct (sbv_clear _ _ Cy) as [E2|E2]; rewrite E2 in H; [discriminate|]. cbn [oo fst snd] in H. injection H as <-.
    rewrite !bvsigned_clear by auto. split; reflexivity.
  Qed.

  (** concatenation *)
  Lemma concat_fold l : forall za wa, inw wa za -> forallb is_bv_sort (map vsort l) = true -> Forall vok l ->
    exists z w, tfold (fun acc a => oq (as_bv a) (fun b => ROk (Some (Z.shiftl (fst acc) (Z.of_nat (snd b)) + fst b, (snd acc + snd b)%nat)))) (za, wa) l = ROk (Some (z, w)) /\
      inw w z /\ VBV w z = fold_left (fun a b : value => VBV (bvw a + bvw b) (bvz a * 2 ^ Z.of_nat (bvw b) + bvz b)) (map vval l) (VBV wa za : value) /\
      SBV w = fold_left (fun acc s => match acc, s with SBV a, SBV b => SBV (a + b) | _, _ => SType end) (map vsort l) (SBV wa).
  Proof.
    induction l as [|a l IH]; intros za wa Ha Hs Hok; [exists za, wa; auto|].
    cbn [map forallb] in Hs. apply andb_true_iff in Hs. destruct Hs as [Hs1 Hs2]. destruct (sort_isbv _ Hs1) as [b [j ->]].
    inversion Hok; subst. cbn [vok] in H1.
    assert (Hn : inw (wa + j) (Z.shiftl za (Z.of_nat j) + b)).
    { unfold inw in *. rewrite Z.shiftl_mul_pow2 by lia. rewrite bv_pow_add. nia. }
    destruct (IH _ _ Hn Hs2 H2) as [z [w [H3 [H4 [H5 H6]]]]]. exists z, w. split; [exact H3|]. split; [exact H4|]. split.
    - rewrite H5. cbn [map fold_left vval bvw bvz]. rewrite Z.shiftl_mul_pow2 by lia. reflexivity.
    - rewrite H6. reflexivity.
  Qed.
  Lemma set_bits_bool bs : set_bits as_b (map EB bs) = Some (bits_val bs).
  Proof. induction bs as [|b bs IH]; [reflexivity|]. cbn [map set_bits]. rewrite IH. destruct b; reflexivity. Qed.
  Lemma set_bits_int zs : set_bits (fun a => option_map (Z.eqb 1) (as_i a)) (map EI zs) = Some (bits_val (map (Z.eqb 1) zs)).
  Proof. induction zs as [|b bs IH]; [reflexivity|]. cbn [map set_bits]. rewrite IH. reflexivity. Qed.

  Local Open Scope nat_scope.
  Lemma sorts1 s vs : sorts_are [s] (map vsort vs) = true -> exists a, vs = [a] /\ vsort a = s.
  Proof. intros H. apply sorts_are_eq in H. destruct vs as [|a [|b r]]; try discriminate. injection H as H. eauto. Qed.
  Lemma uniform_bv vs : forallb is_bv_sort (map vsort vs) = true -> all_eq (map vsort vs) = true -> vs <> [] ->
    exists w, Forall (fun s => s = SBV w) (map vsort vs).
  Proof.
    intros H1 H2 H3. destruct vs as [|a r]; [contradiction|]. apply all_eq_Forall in H2. cbn [map forallb hd] in *. apply andb_true_iff in H1.
    destruct (sort_isbv _ (proj1 H1)) as [z [w ->]]. exists w. exact H2.
  Qed.

  Lemma floor_injQ q : ofloor (injQ q : iF I) = Qfloor q.
  Proof.
    pose proof (floor_le (iF I) (injQ q)) as H1. pose proof (floor_lt (iF I) (injQ q)) as H2.
    pose proof (proj1 (injQ_le (iF I) _ _) (Qfloor_le q)) as H3. pose proof (proj1 (injQ_lt (iF I) _ _) (Qlt_floor q)) as H4. rewrite injQ_Z in H3, H4.
    pose proof (proj2 (inj_lt (iF I) _ _) (le_lt_trans _ _ _ _ H1 H4)). pose proof (proj2 (inj_lt (iF I) _ _) (le_lt_trans _ _ _ _ H3 H2)). lia.
  Qed.
  Lemma Qis_int_eq p z : (p == inject_Z z)%Q -> Qis_int p = true.
  Proof.
    unfold Qeq, Qis_int. cbn. intros H. rewrite Z.mul_1_r in H. rewrite H. rewrite Z.mod_mul by lia. reflexivity.
  Qed.

  Lemma ev_op_sound o vs v : op_wt o (map vsort vs) = true -> Forall vok vs -> op_safe o vs = true ->
    ev_op o vs = ROk (Some v) -> op_spec o vs v.
  Proof.
    intros Hw Hok Hs H. unfold op_spec.
    destruct o; try discriminate H; try discriminate Hs; cbn [op_wt ev_op op_safe eval_op op_sort] in *;
      (* n-ary bit-vector operators *)
      try (rewrite !andb_true_iff in Hw; destruct Hw as [[Hl Hb] He]; apply Nat.leb_le in Hl; rewrite map_length in Hl;
           destruct (uniform_bv _ Hb He) as [w Hu]; [destruct vs; [cbn in Hl; lia|discriminate]|];
           replace (match map vsort vs with SBV w0 :: _ => SBV w0 | _ => SType end) with (SBV w)
             by (destruct vs; [cbn in Hl; lia|]; cbn [map] in *; inversion Hu; subst; rewrite H2; reflexivity);
           eapply bvop_sound; [reflexivity| |exact Hl|exact Hu|exact Hok|exact H];
           intros x y Hx Hy; cbv beta; try reflexivity; symmetry; apply bvmod_id; first [apply land_range|apply lor_range|apply lxor_range]; auto; fail);
      (* binary bit-vector operators *)
      try (destruct vs as [|a [|b [|c r]]]; try discriminate Hw; cbn [map] in Hw; apply andb_true_iff in Hw; destruct Hw as [Hw1 Hw2];
           apply sort_eqb_eq in Hw2; destruct (sort_isbv _ Hw1) as [x [w ->]]; destruct (sort_bv b w (eq_sym Hw2)) as [y ->];
           inversion Hok as [|? ? Hx Hok1]; subst; inversion Hok1 as [|? ? Hy Hok2]; subst; clear Hok Hok1 Hok2; cbn [vok] in Hx, Hy).
    - injection H as <-; split; reflexivity.
    - injection H as <-; split; reflexivity.
    - destruct (sorts1 _ _ Hw) as [a [-> Ha]]; destruct (sort_bool _ Ha) as [x ->]; cbn in H; injection H as <-; split; reflexivity.
    - rewrite !andb_true_iff in Hw; destruct Hw as [Hl Hb]; apply forallb_sort_eq in Hb; destruct (list_bools _ Hb) as [bs ->]; destruct bs as [|b0 bs]; [discriminate Hl|]. remember (b0 :: bs) as l. assert (Hne : l <> []) by (subst; discriminate).
      destruct (map EB l) eqn:El; [subst; discriminate El|]. rewrite <- El in H. rewrite removelast_map, imp_fold in H. cbn [oo orb] in H.
      rewrite (last_map EB l true Hne) in H. cbn in H. injection H as <-. rewrite <- El. rewrite implies_vals by exact Hne. split; reflexivity.
    - rewrite !andb_true_iff in Hw; destruct Hw as [Hl Hb]; apply forallb_sort_eq in Hb; destruct (list_bools _ Hb) as [bs ->]; rewrite and_fold in H; cbn in H; injection H as <-; split; [|reflexivity]; cbn [vval]; rewrite !forallb_map; reflexivity.
    - rewrite !andb_true_iff in Hw; destruct Hw as [Hl Hb]; apply forallb_sort_eq in Hb; destruct (list_bools _ Hb) as [bs ->]; rewrite or_fold in H; cbn in H; injection H as <-; split; [|reflexivity]; cbn [vval]; rewrite !existsb_map; reflexivity.
    - rewrite !andb_true_iff in Hw; destruct Hw as [Hl Hb]; apply forallb_sort_eq in Hb; destruct (list_bools _ Hb) as [bs ->]; rewrite xor_fold in H; cbn in H; injection H as <-; split; [|reflexivity]; rewrite truth_vals; reflexivity.
    - apply andb_true_iff in Hw; destruct Hw as [_ He]; apply all_eq_Forall in He; injection H as <-; split; [|reflexivity]; cbn [vval]; rewrite (windows_eq_chain _ _ He Hok); reflexivity.
    - apply andb_true_iff in Hw; destruct Hw as [_ He]; apply all_eq_Forall in He; injection H as <-; split; [|reflexivity]; cbn [vval]; rewrite (all_diff_pairwise _ _ He); reflexivity.
    - destruct vs as [|c [|a [|b [|d r]]]]; try discriminate Hw. cbn [map] in Hw. apply andb_true_iff in Hw. destruct Hw as [Hc He]. apply sort_eqb_eq in Hc, He.
      destruct (sort_bool _ (eq_sym Hc)) as [x ->]. cbn in H. destruct x; cbn in H; injection H as <-; cbn; split; auto.
    - apply andb_true_iff in Hw; destruct Hw as [Hl Hb]. destruct vs as [|a vs]; [discriminate H|]. cbn [map forallb] in Hb. apply andb_true_iff in Hb. destruct Hb as [Ha Hb].
      unfold arith in H. rewrite <- is_num_val_sort, Ha in H. rewrite is_num_val_sort in Ha.
      destruct (arith_fold Z.add Qplus oadd ltac:(intros; rewrite inject_Z_plus; reflexivity) ltac:(intros; apply injQ_add) vs a Ha Hb) as [v' [Hf [Hv [Hq Hso]]]].
      rewrite Hf in H. injection H as <-. split; [|exact Hso]. rewrite (num_val_eq v' Hv), Hq. cbn [map fold_left]. rewrite (num_val_eq a Ha). cbn [num]. do 2 f_equal; ring.
    - apply andb_true_iff in Hw; destruct Hw as [Hl Hb]. destruct vs as [|a vs]; [discriminate H|]. cbn [map forallb] in Hb. apply andb_true_iff in Hb. destruct Hb as [Ha Hb].
      destruct vs as [|a2 vs].
      { destruct a; try discriminate Ha; injection H as <-; split; try reflexivity; cbn; unfold vint; rewrite ?inj_opp, ?injQ_opp; reflexivity. }
      assert (H' : arith (ok2 Z.sub) (ok2 Qminus) false (a :: a2 :: vs) = ROk (Some v)) by (destruct a; try discriminate Ha; exact H). clear H.
      unfold arith in H'. rewrite <- is_num_val_sort, Ha in H'. rewrite is_num_val_sort in Ha.
      destruct (arith_fold Z.sub Qminus osub ltac:(intros; unfold Qminus, Z.sub; rewrite inject_Z_plus, inject_Z_opp; reflexivity) ltac:(intros; apply injQ_sub) (a2 :: vs) a Ha Hb) as [v' [Hf [Hv [Hq Hso]]]].
      rewrite Hf in H'. injection H' as <-. split; [|exact Hso]. rewrite (num_val_eq v' Hv), Hq. cbn [map]. rewrite (num_val_eq a Ha). reflexivity.
    - apply andb_true_iff in Hw; destruct Hw as [Hl Hb]. destruct vs as [|a vs]; [discriminate H|]. cbn [map forallb] in Hb. apply andb_true_iff in Hb. destruct Hb as [Ha Hb].
      unfold arith in H. rewrite <- is_num_val_sort, Ha in H. rewrite is_num_val_sort in Ha.
      destruct (arith_fold Z.mul Qmult omul ltac:(intros; rewrite inject_Z_mult; reflexivity) ltac:(intros; apply injQ_mul) vs a Ha Hb) as [v' [Hf [Hv [Hq Hso]]]].
      rewrite Hf in H. injection H as <-. split; [|exact Hso]. rewrite (num_val_eq v' Hv), Hq. cbn [map fold_left]. rewrite (num_val_eq a Ha). cbn [num]. do 2 f_equal; ring.
    - apply andb_true_iff in Hw; destruct Hw as [Hl Hb]. apply forallb_sort_eq in Hb. destruct (list_ints _ Hb) as [zs ->].
      destruct zs as [|a [|b zs]]; try discriminate Hl. cbn [map arith is_num_val] in H.
      destruct (idiv_fold (b :: zs) a v Hs H) as [Hv He]. split; [|exact Hv]. rewrite He. reflexivity.
    - apply andb_true_iff in Hw; destruct Hw as [Hl Hb]. destruct vs as [|a vs]; [discriminate H|]. cbn [map forallb] in Hb. apply andb_true_iff in Hb. destruct Hb as [Ha Hb].
      destruct vs as [|b vs]; [discriminate Hl|]. unfold arith in H. rewrite <- is_num_val_sort, Ha in H. rewrite is_num_val_sort in Ha.
      destruct (rdiv_fold _ _ _ Ha Hb H) as [Hv [He Hso]]. split; [|apply Hso; discriminate]. rewrite He. reflexivity.
    - apply sorts_are_eq in Hw. destruct vs as [|a [|b [|c r]]]; try discriminate Hw. injection Hw as Ha Hb.
      destruct (sort_int _ Ha) as [x ->]. destruct (sort_int _ Hb) as [y ->]. cbn in H. destruct (Z.eqb_spec y 0) as [|E0]; [discriminate|]. injection H as <-.
      split; [|reflexivity]. cbn [map bin2 vval]. unfold imod. cbn [num vint]. rewrite <- inj_0, inj_eqb. destruct (Z.eqb_spec y 0); [contradiction|].
      rewrite !floor_inj. cbn in Hs. rewrite rem_emod by lia. reflexivity.
    - destruct vs as [|a [|b r]]; try discriminate Hw; cbn [map] in Hw; destruct a; try discriminate Hw; cbn in H; injection H as <-; split; try reflexivity; cbn [map vval num vint].
      { rewrite <- inj_0, inj_leb, <- inj_opp. unfold vint. destruct (Z.leb_spec 0 z); f_equal; f_equal; lia. }
      { rewrite <- injQ_0, injQ_leb. unfold zabs_q. destruct (Qle_bool 0 q); [reflexivity|]. rewrite injQ_opp. reflexivity. }
    - apply andb_true_iff in Hw; destruct Hw as [_ Hb].
      rewrite (cmp_chain _ (fun a b => oltb (num a) (num b))) in H; [|intros a b Ha Hb'; rewrite (compare_num _ a b Ha Hb'); f_equal; rewrite (num_vval a Ha), (num_vval b Hb'); cbn [num]; unfold oltb, qltb; rewrite injQ_leb; reflexivity|exact Hb].
      injection H as <-. split; reflexivity.
    - apply andb_true_iff in Hw; destruct Hw as [_ Hb].
      rewrite (cmp_chain _ (fun a b => oltb (num b) (num a))) in H; [|intros a b Ha Hb'; rewrite (compare_num _ a b Ha Hb'); f_equal; rewrite (num_vval a Ha), (num_vval b Hb'); cbn [num]; unfold oltb, qltb; rewrite injQ_leb; reflexivity|exact Hb].
      injection H as <-. split; reflexivity.
    - apply andb_true_iff in Hw; destruct Hw as [_ Hb].
      rewrite (cmp_chain _ (fun a b => oleb (num a) (num b))) in H; [|intros a b Ha Hb'; rewrite (compare_num _ a b Ha Hb'); f_equal; rewrite (num_vval a Ha), (num_vval b Hb'); cbn [num]; rewrite injQ_leb; reflexivity|exact Hb].
      injection H as <-. split; reflexivity.
    - apply andb_true_iff in Hw; destruct Hw as [_ Hb].
      rewrite (cmp_chain _ (fun a b => oleb (num b) (num a))) in H; [|intros a b Ha Hb'; rewrite (compare_num _ a b Ha Hb'); f_equal; rewrite (num_vval a Ha), (num_vval b Hb'); cbn [num]; rewrite injQ_leb; reflexivity|exact Hb].
      injection H as <-. split; reflexivity.
    - destruct (sorts1 _ _ Hw) as [a [-> Ha]]; destruct (sort_int _ Ha) as [x ->]; cbn in H; injection H as <-; split; [|reflexivity]; cbn; rewrite injQ_Z; reflexivity.
    - destruct (sorts1 _ _ Hw) as [a [-> Ha]]; destruct (sort_real _ Ha) as [x ->]; cbn in H; injection H as <-; split; [|reflexivity]; cbn; rewrite floor_injQ; reflexivity.
    - destruct (sorts1 _ _ Hw) as [a [-> Ha]]; destruct (sort_real _ Ha) as [x ->]; cbn in H; injection H as <-; split; [|reflexivity]; cbn; rewrite floor_injQ, <- injQ_Z, injQ_eqb.
      f_equal. destruct (Qis_int x) eqn:E; symmetry; [apply Qeq_bool_iff, Qis_int_floor, E|]. apply not_true_is_false. intros Hq. apply Qeq_bool_iff in Hq.
      pose proof (Qis_int_eq _ _ Hq) as E2. congruence.
    - destruct vs as [|a [|b r]]; try discriminate Hw; cbn [map] in Hw; destruct (sort_isbv _ Hw) as [x [w ->]]; inversion Hok; subst; cbn in H; injection H as <-; split; [|reflexivity]; cbn [map vval new_bv bvw bvz fst snd]; rewrite bvmod_lnot by auto; reflexivity.
    - destruct vs as [|a [|b r]]; try discriminate Hw; cbn [map] in Hw; destruct (sort_isbv _ Hw) as [x [w ->]]; cbn in H; injection H as <-; split; reflexivity.
    - eapply bv2u_sound; [reflexivity|exact Hx|exact Hy| |exact H]; cbv beta; intros z Hz; injection Hz as <-; unfold bvudiv; destruct (Z.eqb_spec y 0); [apply bvmod_id; unfold inw in *; lia|rewrite Z.quot_div_nonneg by lia; apply bvmod_id; pose proof (bvudiv_range w x y Hx ltac:(lia)) as Hr; unfold bvudiv in Hr; destruct (Z.eqb_spec y 0); [contradiction|exact Hr]].
    - eapply bv2u_sound; [reflexivity|exact Hx|exact Hy| |exact H]; cbv beta; intros z Hz; injection Hz as <-; unfold bvurem; destruct (Z.eqb_spec y 0); [apply bvmod_id; exact Hx|rewrite Z.rem_mod_nonneg by lia; apply bvmod_id; pose proof (Z.mod_pos_bound x y ltac:(lia)); unfold inw; lia].
    - eapply bv2u_sound; [reflexivity|exact Hx|exact Hy| |exact H]; cbv beta; intros z Hz; unfold usize in Hz; destruct (_ && _)%bool; [|discriminate Hz]; injection Hz as <-; rewrite Z.shiftl_mul_pow2 by lia; reflexivity.
    - eapply bv2u_sound; [reflexivity|exact Hx|exact Hy| |exact H]; cbv beta; intros z Hz; unfold usize in Hz; destruct (_ && _)%bool; [|discriminate Hz]; injection Hz as <-. rewrite Z.shiftr_div_pow2 by lia. apply bvmod_id. unfold inw.
      pose proof (Z.pow_pos_nonneg 2 y ltac:(lia) ltac:(lia)). split; [apply Z.div_pos; lia|]. apply Z.le_lt_trans with x; [|lia]. apply Z.div_le_upper_bound; nia.
    - cbn in H; injection H as <-; split; reflexivity.
    - apply andb_true_iff in Hw. destruct Hw as [Hl Hb]. destruct vs as [|a [|b vs]]; try discriminate Hl.
      destruct (concat_fold (a :: b :: vs) 0%Z 0%nat ltac:(unfold inw; cbn; lia) Hb Hok) as [z [w [H1 [H2 [H3 H4]]]]]. rewrite H1 in H. cbn [oo fst snd] in H.
      injection H as <-. unfold new_bv. rewrite bvmod_id by exact H2. split; [|exact H4]. cbn [vval]. rewrite H3. cbn [map forallb] in Hb. apply andb_true_iff in Hb.
      destruct (sort_isbv _ (proj1 Hb)) as [za [wa ->]]. cbn [map fold_left fold1 vval bvw bvz]. do 3 f_equal.
    - eapply bv2u_sound; [reflexivity|exact Hx|exact Hy| |exact H]; cbv beta; intros z Hz; injection Hz as <-; apply bvmod_lnot; apply land_range; auto.
    - eapply bv2u_sound; [reflexivity|exact Hx|exact Hy| |exact H]; cbv beta; intros z Hz; injection Hz as <-; apply bvmod_lnot; apply lor_range; auto.
    - eapply bv2u_sound; [reflexivity|exact Hx|exact Hy| |exact H]; cbv beta; intros z Hz; injection Hz as <-; apply bvmod_lnot; apply lxor_range; auto.
    - cbn in H; injection H as <-; split; [|reflexivity]; cbn [map bin2 vval bvz new_bv fst]; destruct (Z.eqb x y); reflexivity.
    - cbn [forallb] in Hs; rewrite !andb_true_iff in Hs; destruct Hs as [Cx [Cy _]]; eapply bv2s_sound; [reflexivity|exact Hx|exact Hy|exact Cx|exact Cy| |exact H]; cbv beta; intros z Hz; injection Hz as <-; reflexivity.
    - cbn [forallb] in Hs; rewrite !andb_true_iff in Hs; destruct Hs as [Cx [Cy _]]; eapply bv2s_sound; [reflexivity|exact Hx|exact Hy|exact Cx|exact Cy| |exact H]; cbv beta; intros z Hz; unfold msb_clear in Cx, Cy; destruct (Z.eqb_spec y 0) as [|E0]; [discriminate Hz|]; injection Hz as <-. unfold bvsdiv. destruct (bvmsb w x), (bvmsb w y); try discriminate.
      unfold bvudiv. destruct (Z.eqb_spec y 0); [contradiction|]. rewrite Z.quot_div_nonneg by lia. apply bvmod_id.
      pose proof (bvudiv_range w x y Hx ltac:(lia)) as Hr. unfold bvudiv in Hr. destruct (Z.eqb_spec y 0); [contradiction|exact Hr].
    - cbn [forallb] in Hs; rewrite !andb_true_iff in Hs; destruct Hs as [Cx [Cy _]]; eapply bv2s_sound; [reflexivity|exact Hx|exact Hy|exact Cx|exact Cy| |exact H]; cbv beta; intros z Hz; unfold msb_clear in Cx, Cy; destruct (Z.eqb_spec y 0) as [|E0]; [discriminate Hz|]; injection Hz as <-. unfold bvsrem. destruct (bvmsb w x), (bvmsb w y); try discriminate.
      unfold bvurem. destruct (Z.eqb_spec y 0); [contradiction|]. rewrite !Z.abs_eq by lia. rewrite Z.rem_mod_nonneg by lia.
      pose proof (Z.mod_pos_bound x y ltac:(lia)) as Hm. assert (Hx' : (x = 0 \/ 0 < x)%Z) by lia. destruct Hx' as [->|Hx'].
      { rewrite Z.mod_0_l by lia. reflexivity. }
      rewrite Z.sgn_pos by lia. rewrite Z.mul_1_r. apply bvmod_id. unfold inw. lia.
    - cbn [forallb] in Hs; rewrite !andb_true_iff in Hs; destruct Hs as [Cx [Cy _]]; eapply bv2s_sound; [reflexivity|exact Hx|exact Hy|exact Cx|exact Cy| |exact H]; cbv beta; intros z Hz; unfold msb_clear in Cx, Cy; destruct (Z.eqb_spec y 0) as [|E0]; [discriminate Hz|]; injection Hz as <-. unfold bvsmod. destruct (bvmsb w x), (bvmsb w y); try discriminate.
      unfold bvurem. destruct (Z.eqb_spec y 0); [contradiction|]. rewrite !Z.abs_eq by lia. rewrite Z.rem_mod_nonneg by lia.
      pose proof (Z.mod_pos_bound x y ltac:(lia)) as Hm. rewrite Z.sgn_pos by lia. rewrite Z.mul_1_r. destruct (Z.eqb _ _); apply bvmod_id; unfold inw; lia.
    - eapply bv2u_sound; [reflexivity|exact Hx|exact Hy| |exact H]; cbv beta; intros z Hz; unfold usize in Hz. destruct (Z.leb 0 y && Z.ltb y (2 ^ 64))%bool; [|discriminate Hz]. destruct w as [|k]; [discriminate Hz|]. unfold bvsigned.
      replace (Z.of_nat (S k) - 1)%Z with (Z.of_nat k) by lia. destruct (Z.testbit x (Z.of_nat k)).
      { destruct (Z.ltb_spec (Z.of_nat (S k)) y); [discriminate Hz|]. injection Hz as <-. apply ashr_msb; [exact Hx|lia]. }
      injection Hz as <-. rewrite Z.shiftr_div_pow2 by lia. reflexivity.
    - cbn in H; injection H as <-; split; reflexivity.
    - cbn in H; injection H as <-; split; reflexivity.
    - cbn in H; injection H as <-; split; reflexivity.
    - cbn [forallb] in Hs; rewrite !andb_true_iff in Hs; destruct Hs as [Cx [Cy _]]; exact (bvcmp_s_sound _ _ _ _ _ Cx Cy H).
    - cbn [forallb] in Hs; rewrite !andb_true_iff in Hs; destruct Hs as [Cx [Cy _]]; exact (bvcmp_s_sound _ _ _ _ _ Cx Cy H).
    - cbn [forallb] in Hs; rewrite !andb_true_iff in Hs; destruct Hs as [Cx [Cy _]]; exact (bvcmp_s_sound _ _ _ _ _ Cx Cy H).
    - cbn [forallb] in Hs; rewrite !andb_true_iff in Hs; destruct Hs as [Cx [Cy _]]; exact (bvcmp_s_sound _ _ _ _ _ Cx Cy H).
    - destruct vs as [|a [|b r]]; try discriminate Hw; cbn [map] in Hw; destruct (sort_isbv _ Hw) as [x [w ->]]; cbn in H; injection H as <-; split; reflexivity.
    - destruct vs as [|a [|b r]]; try discriminate Hw; cbn [map] in Hw; destruct (sort_isbv _ Hw) as [x [w ->]]. cbn [forallb] in Hs. rewrite andb_true_r in Hs. unfold arg in H. cbn [nth_error] in H.
      destruct (sbv_clear _ _ Hs) as [E1|E1]; rewrite E1 in H; [discriminate|]. cbn in H. injection H as <-. split; [|reflexivity]. cbn [map vval bvw bvz].
      rewrite (bvsigned_clear _ _ Hs). reflexivity.
    - apply andb_true_iff in Hw; destruct Hw as [Hl Hb]. apply forallb_sort_eq in Hb. destruct (list_ints _ Hb) as [zs ->]. rewrite set_bits_int in H. cbn in H. injection H as <-.
      rewrite !map_length. split; [|reflexivity]. cbn [vval]. do 2 f_equal. rewrite !map_map. apply map_ext. intros z. cbn [vval num vint]. rewrite <- inj_1, inj_eqb. apply Z.eqb_sym.
    - rewrite !andb_true_iff in Hw; destruct Hw as [Hl Hb]; apply forallb_sort_eq in Hb; destruct (list_bools _ Hb) as [bs ->]; rewrite set_bits_bool in H; cbn in H; injection H as <-; rewrite !map_length; split; [|reflexivity]; rewrite truth_vals; reflexivity.
    - destruct vs as [|a [|b r]]; try discriminate Hw; cbn [map] in Hw; destruct (sort_isbv _ Hw) as [x [w ->]]; cbn in H; injection H as <-; split; reflexivity.
  Qed.

  (** indexed operators *)
  Definition idx_val (t : term) (v : cval) : Prop := forall n, as_const_nat t = Some n -> exists z, t = TConst (CInt z) /\ v = EI z /\ (0 <= z)%Z /\ n = Z.to_nat z.
  Lemma const_nat_inv t n : as_const_nat t = Some n -> exists z, t = TConst (CInt z) /\ (0 <= z)%Z /\ n = Z.to_nat z.
  Proof.
    unfold as_const_nat, as_const_int. destruct t as [[z| | | ]| | | | | | |]; try discriminate. destruct (Z.leb_spec 0 z); [|discriminate].
    intros [= <-]. eauto.
  Qed.
  Lemma extract_mod z i j : (j <= i)%nat -> Z.testbit z (Z.of_nat i) = false ->
    bvmod (i - j + 1) (Z.shiftr (bvmod i z) (Z.of_nat j)) = bvmod (i - j + 1) (z / 2 ^ Z.of_nat j).
  Proof.
    intros Hj Ht. rewrite <- Z.shiftr_div_pow2 by lia. unfold bvmod. apply Z.bits_inj'. intros k Hk.
    destruct (Z.ltb_spec k (Z.of_nat (i - j + 1))); [|rewrite !Z.mod_pow2_bits_high by lia; reflexivity].
    rewrite !Z.mod_pow2_bits_low by lia. rewrite !Z.shiftr_spec by lia.
    destruct (Z.ltb_spec (k + Z.of_nat j) (Z.of_nat i)); [rewrite Z.mod_pow2_bits_low by lia; reflexivity|].
    rewrite Z.mod_pow2_bits_high by lia. replace (k + Z.of_nat j)%Z with (Z.of_nat i) by lia. auto.
  Qed.
  Lemma rot_eq w k z : (k <= w)%nat -> (Z.shiftl (bvmod k z) (Z.of_nat (w - k)) = bvmod w (z * 2 ^ Z.of_nat (w - k)))%Z.
  Proof.
    intros Hk. rewrite Z.shiftl_mul_pow2 by lia. unfold bvmod.
    replace (2 ^ Z.of_nat w)%Z with (2 ^ Z.of_nat k * 2 ^ Z.of_nat (w - k))%Z by (rewrite <- bv_pow_add; f_equal; lia).
    rewrite Z.mul_mod_distr_r; [reflexivity| |]; pose proof (pow2_pos k); pose proof (pow2_pos (w - k)); lia.
  Qed.
  Lemma usize_some z k : usize z = Some k -> k = z.
  Proof. unfold usize. destruct (_ && _); [|discriminate]. congruence. Qed.
  Lemma op_usize_ok {B} z ol n (f : nat -> outcome (option B)) r : nth_error ol n = Some (EI z) -> op_usize ol n f = ROk (Some r) -> f (Z.to_nat z) = ROk (Some r).
  Proof.
    intros Hn H. unfold op_usize, arg in H. rewrite Hn in H. cbn [as_i oq] in H. destruct (usize z) eqn:E; [|discriminate].
    apply usize_some in E. subst. exact H.
  Qed.

  Lemma ev_pop_sound o oargs ovs vs v : pop_wt o oargs (map vsort vs) = true -> Forall vok vs ->
    values oargs = Some ovs -> pop_safe o ovs vs = true -> ev_pop o ovs vs = ROk (Some v) ->
    vval v = eval_pop (I := I) o oargs (map vval vs) /\ vsort v = pop_sort o oargs (map vsort vs).
  Proof.
    intros Hw Hok Ho Hs H.
    destruct o; try discriminate H; unfold pop_wt in Hw;
      (destruct oargs as [|i oargs]; [discriminate Hw|]; cbn [map] in Hw; destruct (as_const_nat i) as [n|] eqn:Ei; [|discriminate Hw];
       destruct (const_nat_inv _ _ Ei) as [zi [-> [Hzi ->]]]; destruct oargs as [|j oargs]; cbn [map] in Hw; try discriminate Hw).
    (* extract *)
    { destruct (as_const_nat j) as [m|] eqn:Ej; [|discriminate Hw]. destruct oargs; [|discriminate Hw]. destruct (const_nat_inv _ _ Ej) as [zj [-> [Hzj ->]]].
      destruct vs as [|a [|b r]]; try discriminate Hw; [|destruct a; discriminate Hw]. destruct a as [| | | |z w]; try discriminate Hw. cbn [map vsort] in Hw.
      apply andb_true_iff in Hw. destruct Hw as [Hw1 Hw2]. apply Nat.ltb_lt in Hw1. apply Nat.leb_le in Hw2. injection Ho as <-.
      cbn [ev_pop] in H. apply (op_usize_ok zi) in H; [|reflexivity]. apply (op_usize_ok zj) in H; [|reflexivity]. cbn [arg nth_error as_bv oq fst] in H.
      destruct (Nat.ltb_spec (Z.to_nat zi) (Z.to_nat zj)); [lia|]. injection H as <-. unfold eval_pop, pop_sort. cbn [map]. rewrite Ei, Ej.
      rewrite (proj2 (Nat.leb_le _ _) Hw2). split; [|reflexivity]. unfold new_bv. cbn [vval bvz]. f_equal. apply extract_mod; [exact Hw2|].
      cbn in Hs. rewrite Z2Nat.id by lia. destruct (Z.testbit z zi); [discriminate|reflexivity]. }
    all: try (destruct (as_const_nat j); discriminate Hw).
    all: destruct vs as [|a [|b r]]; try discriminate Hw; try (destruct a; discriminate Hw); destruct a as [|z| | |z w]; try discriminate Hw; injection Ho as <-;
      cbn [ev_pop] in H; apply (op_usize_ok zi) in H; try reflexivity; unfold arg in H; cbn [nth_error as_bv as_i oq fst snd] in H;
      unfold eval_pop, pop_sort; cbn [map vsort]; rewrite Ei; inversion Hok as [|? ? Hz Hok']; subst; cbn [vok] in Hz.
    - injection H as <-. split; reflexivity.
    - injection H as <-. split; reflexivity.
    - injection H as <-. unfold new_bv. split; [|cbn; f_equal; lia]. cbn [vval bvw bvz]. replace (w + Z.to_nat zi) with (Z.to_nat zi + w) by lia.
      f_equal. apply bvmod_id. unfold inw. rewrite bv_pow_add. pose proof (pow2_pos (Z.to_nat zi)). nia.
    - cbn [pop_safe forallb] in Hs. rewrite andb_true_r in Hs. destruct (sbv_clear _ _ Hs) as [E1|E1]; rewrite E1 in H; [discriminate|]. cbn [oo fst snd] in H. injection H as <-.
      unfold new_bv. split; [|cbn; f_equal; lia]. cbn [vval bvw bvz]. rewrite (bvsigned_clear _ _ Hs). replace (w + Z.to_nat zi) with (Z.to_nat zi + w) by lia. reflexivity.
    - destruct (Nat.ltb_spec w (Z.to_nat zi)) as [|Hle]; [discriminate H|]. unfold rotr in H. destruct w as [|w']; [discriminate H|]. cbn [obind] in H. remember (S w') as w eqn:Ew.
      injection H as <-. unfold new_bv. split; [|reflexivity]. cbn [vval bvw bvz]. f_equal.
      assert (Hk : exists k, (k <= w)%nat /\ Nat.modulo (Z.to_nat zi) w = k /\ (w - Nat.modulo (w - Z.to_nat zi) w = k \/ (k = 0 /\ Nat.modulo (w - Z.to_nat zi) w = 0))%nat).
      { destruct (Nat.eq_dec (Z.to_nat zi) w) as [->|Hne].
        - exists 0%nat. rewrite Nat.mod_same by lia. rewrite Nat.sub_diag, Nat.mod_0_l by lia. split; [lia|]. split; auto.
        - exists (Z.to_nat zi). rewrite Nat.mod_small by lia. split; [lia|]. split; [reflexivity|]. destruct (Nat.eq_dec (Z.to_nat zi) 0) as [->|Hn0].
          + right. rewrite Nat.sub_0_r, Nat.mod_same by lia. auto.
          + left. rewrite Nat.mod_small by lia. lia. }
      destruct Hk as [k [Hkw [-> Hk]]]. destruct Hk as [Hk|[-> Hk]].
      + assert (Hk' : Nat.modulo (w - Z.to_nat zi) w = (w - k)%nat) by (pose proof (Nat.mod_upper_bound (w - Z.to_nat zi) w ltac:(lia)); lia).
        rewrite Hk'. rewrite rot_eq by lia. replace (w - (w - k))%nat with k by lia. rewrite Z.shiftr_div_pow2 by lia. apply bvmod_id. apply rot_range; auto.
      + rewrite Hk, Nat.sub_0_r. change (Z.of_nat 0) with 0%Z. rewrite Z.pow_0_r, Z.mul_1_r. rewrite Z.shiftr_0_r.
        replace (bvmod 0 z) with 0%Z by (unfold bvmod; cbn; symmetry; apply Z.mod_1_r). rewrite Z.shiftl_0_l. cbn [Z.add]. rewrite Z.div_small by exact Hz. rewrite Z.add_0_r. reflexivity.
    - unfold rotr in H. destruct w as [|w']; [discriminate H|]. cbn [obind] in H. remember (S w') as w eqn:Ew. injection H as <-. unfold new_bv. split; [|reflexivity]. cbn [vval bvw bvz]. f_equal.
      set (k := Nat.modulo (Z.to_nat zi) w). assert (Hk : (k < w)%nat) by (apply Nat.mod_upper_bound; lia).
      rewrite rot_eq by lia. rewrite Z.shiftr_div_pow2 by lia. rewrite Z.add_comm. apply bvmod_id. rewrite Z.add_comm.
      pose proof (rot_range w (w - k) z ltac:(lia) Hz) as Hr. replace (w - (w - k))%nat with k in Hr by lia. exact Hr.
    - injection H as <-. unfold new_bv. split; [|cbn; f_equal; lia]. cbn [vval bvw bvz]. replace (w * Z.to_nat zi) with (Z.to_nat zi * w) by lia. f_equal.
      assert (He : Nat.iter (Z.to_nat zi) (fun r => (Z.shiftl r (Z.of_nat w) + z)%Z) 0%Z = Nat.iter (Z.to_nat zi) (fun acc => (acc * 2 ^ Z.of_nat w + z)%Z) 0%Z).
      { generalize (Z.to_nat zi). intros m. induction m as [|m IH]; [reflexivity|]. unfold Nat.iter in *. cbn [nat_rect]. rewrite IH, Z.shiftl_mul_pow2 by lia. reflexivity. }
      rewrite He. apply bvmod_id. apply repeat_range. exact Hz.
    - injection H as <-. unfold new_bv. split; [|reflexivity]. cbn [vval num vint]. rewrite floor_inj. reflexivity.
  Qed.
End ValueLemmas.

Lemma omap_evaluate_const n t : as_const_nat t = Some n -> evaluate t = ROk t.
Proof. intros H. destruct (const_nat_inv _ _ H) as [z [-> _]]. reflexivity. Qed.
Lemma pop_wt_const o oargs ss : pop_wt o oargs ss = true -> o = PArrayConst \/ forall t, In t oargs -> exists n, as_const_nat t = Some n.
Proof.
  intros H. unfold pop_wt in H. destruct o; auto; right;
    (destruct oargs as [|i [|j [|k r]]]; cbn [map] in H;
     [try discriminate H; intros t []|destruct (as_const_nat i) eqn:Ei|destruct (as_const_nat i) eqn:Ei, (as_const_nat j) eqn:Ej|destruct (as_const_nat i), (as_const_nat j)];
     try discriminate H; intros t Ht; cbn in Ht; intuition (subst; eauto)).
Qed.
Lemma pop_oargs o oargs ss : pop_wt o oargs ss = true -> omap evaluate oargs = ROk oargs.
Proof.
  intros H.
  assert (Hc : (exists s, oargs = [TSort s]) \/ forall t, In t oargs -> exists n, as_const_nat t = Some n).
  { destruct (pop_wt_const _ _ _ H) as [->|Hc]; [left|right; exact Hc]. unfold pop_wt in H.
    destruct (map as_const_nat oargs), ss as [|s [|]]; try discriminate H;
      (destruct oargs as [|[| | | |s0| | |] [|]]; try discriminate H; eauto; destruct s0; discriminate H). }
  destruct Hc as [[s ->]|Hc]; [reflexivity|]. clear H. induction oargs as [|t r IH]; [reflexivity|]. cbn. destruct (Hc t (or_introl eq_refl)) as [n Hn].
  rewrite (omap_evaluate_const _ _ Hn). cbn. rewrite IH by (intros; apply Hc; right; assumption). reflexivity.
Qed.

Section EvaluateSound.
  Context {I : interp}.
  Variable E : env I.
  (** what is known about an evaluated term *)
  Definition evald (t t' : term) : Prop :=
    eval t' E = eval t E /\ wt t' = true /\ sort_of t' = sort_of t /\ (forall v, from_term t' = Some v -> vok v).
  Lemma from_term_eval t v : wt t = true -> from_term t = Some v -> vok v -> eval t E = vval v /\ vsort v = sort_of t.
  Proof.
    intros Hw H Hv. destruct t as [c| | |o args| | | |]; try discriminate H.
    - injection H as <-. destruct c; cbn in *; auto. split; [|reflexivity]. unfold eval_const. rewrite bvmod_id by exact Hv. reflexivity.
    - destruct o; try discriminate H; injection H as <-; split; reflexivity.
  Qed.
  Lemma into_term_eval v : vok v -> eval (into_term v) E = vval v /\ wt (into_term v) = true /\ sort_of (into_term v) = vsort v /\ (forall v', from_term (into_term v) = Some v' -> vok v').
  Proof.
    intros Hv. destruct v as [[]| | | |z w]; cbn [into_term]; repeat split; auto; try (intros v' [= <-]; exact Logic.I); try (intros v' [= <-]; exact Hv).
    - cbn. unfold eval_const. f_equal. apply injQ_eq. apply Qred_correct.
    - cbn. unfold eval_const. rewrite bvmod_id by exact Hv. reflexivity.
  Qed.
  Lemma evald_list ts ts' : Forall2 evald ts ts' ->
    map (fun a => eval a E) ts' = map (fun a => eval a E) ts /\ forallb wt ts' = true /\ map sort_of ts' = map sort_of ts.
  Proof.
    induction 1 as [|t t' ts ts' [H1 [H2 [H3 _]]] _ IH]; [repeat split|]. destruct IH as [I1 [I2 I3]].
    cbn [map forallb]. rewrite H1, H2, H3, I1, I2, I3. repeat split.
  Qed.
  Lemma evald_values ts ts' vs : Forall2 evald ts ts' -> values ts' = Some vs ->
    Forall vok vs /\ map vval vs = map (fun a => eval a E) ts /\ map vsort vs = map sort_of ts.
  Proof.
    intros H. revert vs. induction H as [|t t' ts ts' [H1 [H2 [H3 H4]]] _ IH]; intros vs Hv; cbn in Hv.
    - injection Hv as <-. repeat split. constructor.
    - destruct (from_term t') as [v|] eqn:Ef; [|discriminate Hv]. fold (values ts') in Hv. destruct (values ts') as [r|]; [|discriminate Hv]. injection Hv as <-.
      destruct (IH r eq_refl) as [I1 [I2 I3]]. destruct (from_term_eval _ _ H2 Ef (H4 _ eq_refl)) as [E1 E2].
      split; [constructor; auto|]. cbn [map]. rewrite I2, I3, <- E1, E2, H1, H3. split; reflexivity.
  Qed.
  Lemma evald_omap ts ts' : Forall (fun t => forall t', wt t = true -> eval_safe t = true -> evaluate t = ROk t' -> evald t t') ts ->
    forallb wt ts = true -> forallb eval_safe ts = true -> omap evaluate ts = ROk ts' -> Forall2 evald ts ts'.
  Proof.
    intros HF. revert ts'. induction HF as [|t ts Ht _ IH]; intros ts' Hw Hs H; cbn in *.
    - injection H as <-. constructor.
    - apply andb_true_iff in Hw, Hs. destruct Hw, Hs. apply obind_ok in H. destruct H as [t' [H5 H6]]. apply obind_ok in H6. destruct H6 as [r [H7 H8]].
      injection H8 as <-. constructor; auto.
  Qed.
  Lemma vok_dom v s : vsort v = s -> idom I s (vval v) = true -> vok v.
  Proof. intros <- H. destruct v; cbn [vok]; auto. cbn [vsort vval] in H. apply dom_bv in H. destruct H as [z' [[= <-] H]]. exact H. Qed.

  Theorem evaluate_sound t : forall t', wt t = true -> eval_safe t = true -> evaluate t = ROk t' -> evald t t'.
  Proof.
    induction t as [c|x s|f args IHf IHargs|o args IHargs|s|b vs t IHt|bs t IHbs IHt|o oargs args IHo IHargs] using term_ind'; intros t' Hw Hs H.
    - injection H as <-. assert (Hv : vok (from_const c)) by (destruct c; cbn in *; auto; lia).
      destruct (into_term_eval _ Hv) as [H1 [H2 [H3 H4]]]. split; [|split; [exact H2|split; [|exact H4]]].
      + rewrite H1. symmetry. apply (from_term_eval (TConst c)); auto.
      + rewrite H3. destruct c; reflexivity.
    - injection H as <-. repeat split; auto. discriminate.
    - injection H as <-. repeat split; auto. discriminate.
    - cbn [evaluate eval_safe] in *. apply andb_true_iff in Hs. destruct Hs as [Hs1 Hs2]. pose proof (wt_op_sort _ _ Hw) as Hso. destruct (wt_op_args _ _ Hw) as [Hw1 Hw2].
      apply obind_ok in H. destruct H as [args' [Ha H]]. rewrite Ha in Hs2. pose proof (evald_omap _ _ IHargs Hw1 Hs1 Ha) as HF.
      destruct (evald_list _ _ HF) as [L1 [L2 L3]].
      assert (Hre : evald (TOp o args) (TOp o args')).
      { split; [cbn [eval]; rewrite L1; reflexivity|]. assert (Hw' : wt (TOp o args') = true) by (cbn [wt]; rewrite L2, L3; exact Hw2).
        split; [exact Hw'|]. split; [rewrite (wt_op_sort _ _ Hw'), Hso, L3; reflexivity|].
        intros v Hv. destruct o; try discriminate Hv; injection Hv as <-; exact Logic.I. }
      destruct (values args') as [vs|] eqn:Ev; [|injection H as <-; exact Hre]. apply obind_ok in H. destruct H as [r [Hr H]].
      destruct r as [v|]; [|injection H as <-; exact Hre]. injection H as <-. destruct (evald_values _ _ _ HF Ev) as [V1 [V2 V3]].
      rewrite <- V3 in Hw2. destruct (ev_op_sound (I := I) o vs v Hw2 V1 Hs2 Hr) as [S1 S2].
      assert (Hv : vok v).
      { apply (vok_dom v _ S2). rewrite S1. apply eval_op_dom; [exact Hw2|]. apply vval_doms. exact V1. }
      destruct (into_term_eval _ Hv) as [T1 [T2 [T3 T4]]]. split; [|split; [exact T2|split; [|exact T4]]].
      + rewrite T1, S1, V2. reflexivity.
      + rewrite T3, S2, V3, Hso. reflexivity.
    - injection H as <-. repeat split; auto. discriminate.
    - injection H as <-. repeat split; auto. discriminate.
    - injection H as <-. repeat split; auto. discriminate.
    - cbn [evaluate eval_safe] in *. apply andb_true_iff in Hs. destruct Hs as [Hs1 Hs2]. pose proof Hw as Hw0. cbn [wt] in Hw. apply andb_true_iff in Hw. destruct Hw as [Hw1 Hw2].
      rewrite (pop_oargs _ _ _ Hw2) in H, Hs2. cbn [obind] in H.
      apply obind_ok in H. destruct H as [args' [Ha H]]. rewrite Ha in Hs2. pose proof (evald_omap _ _ IHargs Hw1 Hs1 Ha) as HF.
      destruct (evald_list _ _ HF) as [L1 [L2 L3]].
      assert (Hre : evald (TPOp o oargs args) (TPOp o oargs args')).
      { split; [cbn [eval]; rewrite L1; reflexivity|]. split; [cbn [wt]; rewrite L2, L3; exact Hw2|].
        split; [cbn [sort_of]; rewrite L3; reflexivity|]. discriminate. }
      destruct (values oargs) as [ovs|] eqn:Eo; [|injection H as <-; exact Hre].
      destruct (values args') as [vs|] eqn:Ev; [|injection H as <-; exact Hre]. apply obind_ok in H. destruct H as [r [Hr H]].
      destruct r as [v|]; [|injection H as <-; exact Hre]. injection H as <-. destruct (evald_values _ _ _ HF Ev) as [V1 [V2 V3]].
      rewrite <- V3 in Hw2. destruct (ev_pop_sound (I := I) o oargs ovs vs v Hw2 V1 Eo Hs2 Hr) as [S1 S2].
      assert (Hv : vok v).
      { apply (vok_dom v _ S2). rewrite S1. apply eval_pop_dom; [exact Hw2|]. apply vval_doms. exact V1. }
      destruct (into_term_eval _ Hv) as [T1 [T2 [T3 T4]]]. split; [|split; [exact T2|split; [|exact T4]]].
      + rewrite T1, S1, V2. reflexivity.
      + rewrite T3, S2. cbn [sort_of]. rewrite V3. reflexivity.
  Qed.
End EvaluateSound.

(** The rule evaluate *)
Definition evaluate_ok (c : clause) (_ : list clause) (_ : list term) : bool :=
  match c with [TOp OEquals [t; _]] => eval_safe t | _ => false end.
Lemma evaluate_rule_sound c ps args : r_evaluate c ps args = ROk tt -> evaluate_ok c ps args = true -> clause_wt c = true -> entails ps c.
Proof.
  intros H Hok Hw I E HE _. unfold r_evaluate in H. destruct c as [|t0 [|t1 r]]; [discriminate Hok| |discriminate H].
  destruct t0 as [| | |o [|t [|v [|]]]| | | |]; try discriminate Hok; destruct o; try discriminate Hok. cbn in Hok.
  cbn [len_is List.length Nat.eqb rassert obind idx nth_error ok_or] in H. cbn in H. apply obind_ok in H. destruct H as [t' [H1 H2]]. apply teq_ok in H2. subst t'.
  unfold clause_wt in Hw. cbn [forallb] in Hw. rewrite andb_true_r in Hw. apply bool_term_wt in Hw. destruct (eq_args_wt _ _ Hw) as [Wt _].
  destruct (evaluate_sound E t v Wt Hok H1) as [He _].
  eexists. split; [left; reflexivity|]. rewrite holds_eq', He. apply veqb_eq. reflexivity.
Qed.
