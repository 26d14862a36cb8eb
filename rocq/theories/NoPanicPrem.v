(** Rules that panic depending on their premises: bfun_elim and the cprop rules. *)
From Coq Require Import List String ZArith NArith QArith Bool Arith Lia.
From Verif Require Import Base Term Field Sem Sorting Rules Utils Num R_Eq R_Str StrSound2 R_Bfun BfunSound R_Eval Polyeq PolyeqSound Subst NoPanic NoPanicBv NoPanicPoly NoPanicCtx NoPanicRules NoPanicStr.
Import ListNotations.
Local Open Scope nat_scope.

(** ** bfun_elim: premises without [let] and real division *)
Lemma subst1_calm x v t r : calm v = true -> calm t = true -> subst1 x v t = ROk r -> calm (fst r) = true.
Proof.
  intros Hv Ht H. unfold subst1 in H. apply obind_ok in H. destruct H as [m [Hm H]]. apply obind_ok in H. destruct H as [[[r0 S'] ok] [Hr H]]. injection H as <-. cbn [fst snd].
  assert (E : m = [(TVar (fst x) (snd x), v)]). { unfold subst_new in Hm. apply obind_ok in Hm. destruct Hm as [? [_ Hm]]. injection Hm as <-. reflexivity. } subst m.
  assert (Hi : inv_p kc (sub_of [(TVar (fst x) (snd x), v)])).
  { apply inv_p_of. apply (mapP_sins kc [] (TVar (fst x) (snd x)) v); [apply mapP_nil|]. intros _. exact Hv. }
  destruct (sub_apply_calm _ _ Hi Ht) as (r1 & S1 & ok1 & E & _ & C). rewrite E in Hr. injection Hr as <- _ _. exact C.
Qed.
Lemma first_step_calm : forall rbs t l, calm t = true -> first_step rbs t = ROk l -> fst l <> [] /\ forallb calm (fst l) = true.
Proof.
  induction rbs as [|x rbs IH]; intros t l Ht H; cbn [first_step] in H. { injection H as <-. cbn [fst forallb]. rewrite Ht. split; [discriminate|reflexivity]. }
  destruct (sort_eqb (snd x) SBool); [|eapply IH; eauto].
  apply obind_ok in H. destruct H as [a [Ha H]]. apply obind_ok in H. destruct H as [l0 [H0 H]]. apply obind_ok in H. destruct H as [b [Hb H]]. apply obind_ok in H. destruct H as [l1 [H1 H]]. injection H as <-.
  apply subst1_calm in Ha; [|reflexivity|exact Ht]. apply subst1_calm in Hb; [|reflexivity|exact Ht]. destruct (IH _ _ Ha H0) as [A1 A2]. destruct (IH _ _ Hb H1) as [B1 B2].
  cbn [fst]. rewrite forallb_app, A2, B2. split; [|reflexivity]. destruct (fst l0); [congruence|discriminate].
Qed.
Lemma second_step_calm f : calm f = true -> forall args done, forallb calm done = true -> forallb calm args = true -> calm (second_step f done args) = true.
Proof.
  intros Hf. induction args as [|a args IH]; intros done Hd Ha; cbn [second_step]. { cbn [calm]. rewrite Hf, Hd. reflexivity. }
  apply fcons in Ha. destruct Ha as [Ha1 Ha2]. destruct (_ && _).
  - cbn [calm forallb]. rewrite Ha1, !IH by (auto; rewrite forallb_app, Hd; reflexivity). reflexivity.
  - apply IH; [|exact Ha2]. rewrite forallb_app, Hd. cbn [forallb]. rewrite Ha1. reflexivity.
Qed.
Lemma omap_calm n : (forall t r, calm t = true -> bfun n t = ROk r -> calm (fst r) = true) ->
  forall args l, forallb calm args = true -> omap (bfun n) args = ROk l -> forallb calm (map fst l) = true /\ List.length l = List.length args.
Proof.
  intros IH. induction args as [|a args IHa]; intros l Hc H; cbn [omap] in H. { injection H as <-. auto. } apply fcons in Hc. destruct Hc as [H1 H2].
  apply obind_ok in H. destruct H as [r [Hr H]]. apply obind_ok in H. destruct H as [rs [Hrs H]]. injection H as <-. destruct (IHa _ H2 Hrs) as [A B]. cbn [map forallb List.length]. rewrite A, B, (IH _ _ H1 Hr). auto.
Qed.
Lemma bfun_calm : forall n t r, calm t = true -> bfun n t = ROk r -> calm (fst r) = true.
Proof.
  induction n as [|n IH]; intros t r Ht H; [discriminate|]. cbn [bfun] in H. destruct t as [c|x s|f args|o args|s|b vs inner|bs inner|o oa args]; cbn [calm] in Ht; try (injection H as <-; exact Ht).
  - apply andb_true_iff in Ht. destruct Ht as [H1 H2]. apply obind_ok in H. destruct H as [l [Hl H]]. injection H as <-. destruct (omap_calm n IH _ _ H2 Hl) as [A _]. cbn [fst]. apply second_step_calm; auto.
  - rewrite !andb_true_iff in Ht. destruct Ht as [[H0 H1] H2]. apply obind_ok in H. destruct H as [l [Hl H]]. injection H as <-. destruct (omap_calm n IH _ _ H2 Hl) as [A B]. cbn [fst calm].
    rewrite map_length, B, A, H0, H1. reflexivity.
  - assert (G : forall o, In o [OAnd; OOr] -> (do l <- first_step (rev vs) inner ;
       (let ot := match fst l with [a] => a | _ => TOp o (fst l) end in
        do r <- bfun n ot ; ROk (match filter not_bool vs with [] => fst r | _ => TBind b (filter not_bool vs) (fst r) end, snd l && snd r))) = ROk r -> calm (fst r) = true).
    { intros o Ho H'. apply obind_ok in H'. destruct H' as [l [Hl H']]. cbv zeta in H'. apply obind_ok in H'. destruct H' as [r1 [Hr1 H']]. injection H' as <-. destruct (first_step_calm _ _ _ Ht Hl) as [N C].
      apply IH in Hr1; [destruct (filter not_bool vs); exact Hr1|]. destruct (fst l) as [|a [|a2 l2]]; [congruence|cbn [forallb] in C; rewrite andb_true_r in C; exact C|].
      cbn [calm]. rewrite C. destruct Ho as [<-|[<-|[]]]; reflexivity. }
    destruct b; [apply (G OAnd); [left; reflexivity|exact H]|apply (G OOr); [right; left; reflexivity|exact H]| |];
      (apply obind_ok in H; destruct H as [r1 [Hr1 H]]; injection H as <-; cbn [fst calm]; eapply IH; eauto).
  - discriminate.
Qed.
Lemma bfun_elim_safe c ps args : forallb tame c = true -> forallb (forallb calm) ps = true -> r_bfun_elim c ps args <> RPanic.
Proof.
  intros Hc Hp. unfold r_bfun_elim. npstep. npstep. npstep. apply np_bind; [apply np_premise|]. intros psi Hpsi. pose proof (prem1 calm _ _ _ Hp Hpsi) as Hcalm.
  destruct (bfun_total psi (calm_no_let _ Hcalm)) as [r E]. rewrite E. cbn [obind]. apply fcons in Hc. apply np_assert_polyeq; [tauto|]. apply calm_tame. eapply bfun_calm; eauto.
Qed.

(** ** The cprop rules: premises without empty strings *)
Fixpoint noempty (t : term) : bool :=
  match t with
  | TConst (CStr []) => false
  | TOp _ l => forallb noempty l
  | _ => true
  end.
Lemma wt_concat l : wt (TOp OStrConcat l) = true -> forallb wt l = true /\ 2 <= List.length l.
Proof.
  intros H. apply op_wt_of in H. destruct H as [H1 H2]. split; [exact H1|]. destruct l as [|a [|b l]]; cbn [List.length]; [discriminate| |lia].
  exfalso. cbn in H2. discriminate.
Qed.
Lemma flat_nonempty t : wt t = true -> noempty t = true -> flat t <> [].
Proof.
  induction t as [c|x s|f l IHf H|o l H|s|b vs t IHt|bs t H IHt|o oa l Hoa H] using term_ind'; intros Hw Hn; cbn [flat]; try discriminate.
  - destruct c as [| |s|]; try discriminate. destruct s; [discriminate|]. discriminate.
  - destruct (op_eqb o OStrConcat) eqn:E; [|discriminate]. apply op_eqb_eq in E. subst o. apply wt_concat in Hw. destruct Hw as [Hw Hl]. cbn [noempty] in Hn. destruct l as [|a l]; [cbn in Hl; lia|].
    apply fcons in Hw, Hn. inversion H as [|? ? Ha _]; subst. cbn [flat_map]. specialize (Ha (proj1 Hw) (proj1 Hn)). destruct (flat a); [congruence|discriminate].
Qed.
Lemma cprop_args_ok s rv l i a : wt s = true -> noempty s = true -> cprop_args s rv = ROk l -> i = (if rv then 1 else 0) -> idx l i = ROk a -> flat a <> [].
Proof.
  intros Hw Hn H Hi Ha. unfold cprop_args in H. destruct s as [c| | |o args| | | |]; try discriminate.
  - destruct c as [| |s|]; try discriminate. destruct s as [|ch s]; [discriminate|]. injection H as <-. destruct rv; subst i; injection Ha as <-; cbn [flat map]; discriminate.
  - destruct (op_eqb o OStrConcat) eqn:E; [|discriminate]. injection H as <-. apply op_eqb_eq in E. subst o. apply wt_concat in Hw. destruct Hw as [Hw _]. cbn [noempty] in Hn.
    assert (HI : In a args). { unfold idx, unwrap in Ha. destruct (nth_error args i) eqn:E; [|discriminate]. injection Ha as <-. eapply nth_error_In; eauto. }
    rewrite forallb_forall in Hw, Hn. apply flat_nonempty; auto.
Qed.
Lemma cprop_args_len s rv l : wt s = true -> cprop_args s rv = ROk l -> 2 <= List.length l.
Proof.
  intros Hw H. unfold cprop_args in H. destruct s as [c| | |o args| | | |]; try discriminate.
  - destruct c as [| |s|]; try discriminate. destruct s as [|ch s]; [discriminate|]. injection H as <-. destruct rv; cbn; lia.
  - destruct (op_eqb o OStrConcat) eqn:E; [|discriminate]. injection H as <-. apply op_eqb_eq in E. subst o. apply wt_concat in Hw. tauto.
Qed.
Lemma np_cprop_args s rv : cprop_args s rv <> RPanic.
Proof. unfold cprop_args. destruct s as [c| | |o args| | | |]; try discriminate; [destruct c as [| |s|]; try discriminate; destruct s; discriminate|destruct (op_eqb o OStrConcat); discriminate]. Qed.
Lemma eq_right h ts : bool_term h = true -> noempty h = true -> m_op2 OEquals h = ROk ts -> wt (snd ts) = true /\ noempty (snd ts) = true.
Proof.
  intros Hw Hn H. apply m_op2_ok in H. subst h. unfold bool_term in Hw. apply andb_true_iff in Hw. destruct Hw as [Hw _]. apply op_wt_of in Hw. destruct Hw as [Hw _].
  cbn [noempty forallb] in Hw, Hn. rewrite !andb_true_iff in Hw, Hn. tauto.
Qed.
Lemma cprop_prefix_safe c ps args : forallb clause_wt ps = true -> forallb (forallb noempty) ps = true -> r_cprop_prefix c ps args <> RPanic.
Proof.
  intros Hw Hn. unfold r_cprop_prefix. npstep. npstep. npstep. apply np_bind; [np|]. intros lr _. apply np_bind; [np|]. intros _ _. apply np_bind; [apply np_premise|]. intros h Hp.
  pose proof (prem1 bool_term _ _ _ Hw Hp) as Hb. pose proof (prem1 noempty _ _ _ Hn Hp) as Hne. apply np_bind; [apply np_premise|]. intros h1 _. apply np_bind; [np|]. intros ts Hts.
  destruct (eq_right _ _ Hb Hne Hts) as [Hws Hns]. apply np_bind; [apply np_not_len0|]. intros t1 _. apply np_bind; [unfold extract_arguments; np|]. intros at_ _. apply np_bind; [np|]. intros _ _.
  apply np_bind; [apply np_cprop_args|]. intros ss Hss. pose proof (cprop_args_len _ _ _ Hws Hss) as Hl. apply np_bind; [apply idx_lt; lia|]. intros s0 Hs0.
  pose proof (cprop_args_ok _ _ _ _ _ Hws Hns Hss eq_refl Hs0) as Hf. apply np_bind; [destruct (flat s0); [congruence|discriminate]|]. intros. np.
Qed.
Lemma cprop_suffix_safe c ps args : forallb clause_wt ps = true -> forallb (forallb noempty) ps = true -> r_cprop_suffix c ps args <> RPanic.
Proof.
  intros Hw Hn. unfold r_cprop_suffix. npstep. npstep. npstep. apply np_bind; [np|]. intros lr _. apply np_bind; [np|]. intros _ _. apply np_bind; [apply np_premise|]. intros h Hp.
  pose proof (prem1 bool_term _ _ _ Hw Hp) as Hb. pose proof (prem1 noempty _ _ _ Hn Hp) as Hne. apply np_bind; [apply np_premise|]. intros h1 _. apply np_bind; [np|]. intros ts Hts.
  destruct (eq_right _ _ Hb Hne Hts) as [Hws Hns]. apply np_bind; [apply np_not_len0|]. intros t1 _. apply np_bind; [unfold extract_arguments; np|]. intros at_ _. apply np_bind; [np|]. intros _ _.
  apply np_bind; [apply np_cprop_args|]. intros ss Hss. pose proof (cprop_args_len _ _ _ Hws Hss) as Hl. apply np_bind; [apply idx_lt; lia|]. intros s0 Hs0.
  pose proof (cprop_args_ok _ _ _ _ _ Hws Hns Hss eq_refl Hs0) as Hf. apply np_bind; [|intros; np].
  destruct (rev (flat s0)) eqn:E; [|discriminate]. apply (f_equal (@rev _)) in E. rewrite rev_involutive in E. cbn in E. congruence.
Qed.

(** ** evaluate: terms without the operators that panic on some values *)
(** the number of arguments an operator reads; [None] if it panics on some values *)
Definition ev_need (o : op) : option nat :=
  match o with
  | OIntDiv | ORealDiv | OMod | OBvSub | OBvSDiv | OBvSRem | OBvSMod | OBvAShr | OBvSLt | OBvSLe | OBvSGt | OBvSGe | OSBvToInt | OBvConst => None
  | OIte => Some 3
  | OBvUDiv | OBvURem | OBvShl | OBvLShr | OBvULt | OBvULe | OBvUGt | OBvUGe | OBvNAnd | OBvNOr | OBvXNor | OBvComp => Some 2
  | OTrue | OFalse | OAnd | OOr | OXor | OEquals | ODistinct | OLt | OGt | OLe | OGe | OBvConcat | OBvBbTerm | OBvPBbTerm => Some 0
  | ONot | OImplies | OAdd | OSub | OMult | OAbs | OPow2 | OLog2 | OIsPow2 | OToReal | OToInt | OIsInt | OBvNot | OBvNeg | OBvAnd | OBvOr | OBvXor | OBvAdd | OBvMul
  | OUBvToInt | OBvSize => Some 1
  | _ => Some 0
  end.
(** a numeral different from zero *)
Definition nz_lit (t : term) : bool :=
  match t with TConst (CInt z) => negb (Z.eqb z 0) | TConst (CReal q) => negb (Qeq_bool q 0) | _ => false end.
(** a division by numerals different from zero *)
Definition ev_div (o : op) (l : list term) : bool :=
  match o, l with
  | OIntDiv, _ :: r | ORealDiv, _ :: r => forallb nz_lit r
  | OMod, [_; b] => nz_lit b
  | _, _ => false
  end.
(** a signed operation on bit-vectors of positive width; an arithmetic shift by a literal of at most the width *)
Definition pos_bv (s : sort) : bool := match s with SBV (S _) => true | _ => false end.
Definition ev_sign (o : op) (l : list term) : bool :=
  match o, l with
  | (OBvSub | OBvSDiv | OBvSRem | OBvSMod | OBvSLt | OBvSLe | OBvSGt | OBvSGe), a :: _ => pos_bv (sort_of a)
  | OSBvToInt, a :: _ => pos_bv (sort_of a)
  | OBvAShr, [a; TConst (CBV n _)] => match sort_of a with SBV (S k) => Z.leb 0 n && Z.leb n (Z.of_nat (S k)) && Z.ltb n (2 ^ 64) | _ => false end
  | _, _ => false
  end.
(** indices below 2^64; sign_extend and the rotations need a positive width, and rotate_left an index of at most the width *)
Definition idx_small (t : term) : bool := match t with TConst (CInt z) => Z.ltb z (2 ^ 64) | _ => false end.
Definition ev_idx (o : pop) (oargs l : list term) : bool :=
  match o, oargs, map sort_of l with
  | PArrayConst, _, _ => true
  | (PSignExtend | PRotateRight), _, [s] => forallb idx_small oargs && pos_bv s
  | PRotateLeft, [TConst (CInt z)], [SBV (S k)] => forallb idx_small oargs && Z.leb z (Z.of_nat (S k))
  | (PSignExtend | PRotateRight | PRotateLeft), _, _ => false
  | _, _, _ => forallb idx_small oargs
  end.
Fixpoint ev_calm (t : term) : bool :=
  match t with
  | TOp o l => ((match ev_need o with Some _ => true | None => false end) || ev_div o l || ev_sign o l) && forallb ev_calm l
  | TPOp o oargs l => ev_idx o oargs l && forallb ev_calm l
  | _ => true
  end.
Lemma sorts_are_len l ss : sorts_are l ss = true -> List.length ss = List.length l.
Proof. unfold sorts_are. revert l. induction ss as [|s ss IH]; intros [|a l] H; try discriminate; [reflexivity|]. cbn [list_eqb] in H. apply andb_true_iff in H. cbn. f_equal. apply IH. tauto. Qed.
Lemma min_len_ge {A} n (l : list A) : min_len n l = true -> n <= List.length l.
Proof. unfold min_len. apply Nat.leb_le. Qed.
Lemma wt_need o ss n : op_wt o ss = true -> ev_need o = Some n -> n <= List.length ss.
Proof.
  intros Hw Hn. destruct o; try discriminate Hn; injection Hn as <-; try lia; cbn [op_wt] in Hw;
  repeat match goal with
  | H : _ && _ = true |- _ => apply andb_true_iff in H; destruct H
  | H : min_len _ _ = true |- _ => apply min_len_ge in H
  | H : sorts_are _ _ = true |- _ => apply sorts_are_len in H; cbn in H
  | H : match ?l with _ => _ end = true |- _ => destruct l as [|? l]; try discriminate
  end; cbn [List.length]; lia.
Qed.
Lemma np_oo {A B} (x : outcome (option A)) (f : A -> outcome (option B)) : x <> RPanic -> (forall a, f a <> RPanic) -> oo x f <> RPanic.
Proof. intros Hx Hf. unfold oo. destruct x as [[a|]| |]; auto; discriminate. Qed.
Lemma np_oq {A B} (x : option A) (f : A -> outcome (option B)) : (forall a, f a <> RPanic) -> oq x f <> RPanic.
Proof. intros Hf. destruct x; [apply Hf|discriminate]. Qed.
Lemma np_tfold {A} (f : A -> cval -> outcome (option A)) : (forall a v, f a v <> RPanic) -> forall l acc, tfold f acc l <> RPanic.
Proof. intros Hf. induction l as [|v l IH]; intros acc; cbn [tfold]; [discriminate|]. apply np_oo; auto. Qed.
Lemma np_mixed fi fq real acc a : (forall x y, fi x y <> RPanic) -> (forall x y, fq x y <> RPanic) -> mixed fi fq real acc a <> RPanic.
Proof. intros H1 H2. unfold mixed. destruct acc, a; try discriminate; try (destruct real); (apply np_bind; [auto|intros; discriminate]). Qed.
Lemma np_arith fi fq real l : (forall x y, fi x y <> RPanic) -> (forall x y, fq x y <> RPanic) -> l <> [] -> arith fi fq real l <> RPanic.
Proof. intros H1 H2 Hl. destruct l as [|a l]; [congruence|]. cbn [arith]. destruct (is_num_val a); [|discriminate]. apply np_tfold. intros. apply np_mixed; auto. Qed.
Lemma np_bvop f l : l <> [] -> bvop f l <> RPanic.
Proof. intros Hl. destruct l as [|a l]; [congruence|]. cbn [bvop]. destruct a; try discriminate. apply np_oo; [|intros; discriminate]. apply np_tfold. intros. apply np_oq. intros. discriminate. Qed.
Lemma np_cmp_go fq l : forall acc, cmp_go fq acc l <> RPanic.
Proof.
  induction l as [|a l IH]; intros acc; [discriminate|]. cbn [cmp_go]. destruct l as [|b l]; [discriminate|]. destruct acc; [|apply IH]. apply np_oq. intros x. apply IH.
Qed.
Lemma np_opt {A} (x : option A) f : opt x f <> RPanic.
Proof. unfold opt. apply np_oq. discriminate. Qed.
Ltac evs :=
  repeat match goal with
  | |- oo _ _ <> RPanic => apply np_oo; [|intros ?]
  | |- oq _ _ <> RPanic => apply np_oq; intros ?
  | |- opt _ _ <> RPanic => apply np_opt
  | |- tfold _ _ _ <> RPanic => apply np_tfold; intros ? ?
  | |- (if ?b then _ else _) <> RPanic => destruct b
  | |- (match ?x with _ => _ end) <> RPanic => destruct x
  | |- _ => discriminate
  end.
Lemma np_ev_op o l n : ev_need o = Some n -> n <= List.length l -> ev_op o l <> RPanic.
Proof.
  intros Hn Hl. destruct o; try discriminate Hn; injection Hn as <-; cbn [ev_op]; try discriminate; try apply np_cmp_go; try apply np_opt;
  try (apply np_arith; [discriminate|discriminate|]; intros ->; cbn in Hl; lia);
  try (apply np_bvop; intros ->; cbn in Hl; lia);
  try (evs; fail).
  all: repeat match goal with H : S _ <= List.length ?l |- _ => destruct l as [|? l]; [cbn in H; lia|cbn [List.length] in H; apply le_S_n in H] end;
    unfold bv2u, bvcmp_u, arg, okz, some; cbn [nth_error]; try (evs; fail).
  all: try (destruct c; try discriminate; try (destruct l; [discriminate|])); try (apply np_arith; [discriminate|discriminate|discriminate]).
Qed.
Lemma np_omap {A B} (f : A -> outcome B) l : (forall a, In a l -> f a <> RPanic) -> omap f l <> RPanic.
Proof.
  induction l as [|a l IH]; intros H; cbn [omap]; [discriminate|]. apply np_bind; [apply H; left; reflexivity|]. intros b _. apply np_bind; [apply IH; intros x Hx; apply H; right; exact Hx|]. discriminate.
Qed.
Lemma omap_len {A B} (f : A -> outcome B) l : forall l', omap f l = ROk l' -> List.length l' = List.length l.
Proof.
  induction l as [|a l IH]; intros l' H; cbn [omap] in H; [injection H as <-; reflexivity|]. apply obind_ok in H. destruct H as [b [_ H]]. apply obind_ok in H. destruct H as [bs [Hb H]]. injection H as <-.
  cbn [List.length]. f_equal. apply IH, Hb.
Qed.
Lemma values_len l : forall vs, values l = Some vs -> List.length vs = List.length l.
Proof.
  induction l as [|t l IH]; intros vs H; cbn [values fold_right] in H; [injection H as <-; reflexivity|]. fold (values l) in H. destruct (from_term t); [|discriminate].
  destruct (values l) as [r|]; [|discriminate]. injection H as <-. cbn [List.length]. f_equal. apply IH. reflexivity.
Qed.
(** division by values different from zero *)
Definition nz_val (v : cval) : Prop := match v with EI z => z <> 0%Z | ER q => ~ (q == 0)%Q | _ => False end.
Lemma nz_lit_val t t' v : nz_lit t = true -> evaluate t = ROk t' -> from_term t' = Some v -> nz_val v.
Proof.
  intros Hn He Hv. destruct t as [[z|q| |]| | | | | | |]; try discriminate; cbn in He; injection He as <-; cbn in Hv; injection Hv as <-; cbn [nz_lit nz_val] in *; apply negb_true_iff in Hn.
  - apply Z.eqb_neq. exact Hn.
  - intros H. rewrite Qred_correct in H. apply Qeq_bool_iff in H. congruence.
Qed.
Lemma nz_lits_vals l : forall l' vs, forallb nz_lit l = true -> omap evaluate l = ROk l' -> values l' = Some vs -> Forall nz_val vs.
Proof.
  induction l as [|t l IH]; intros l' vs Hn Ho Hv; cbn [omap] in Ho; [injection Ho as <-; cbn in Hv; injection Hv as <-; constructor|]. apply fcons in Hn. destruct Hn as [Hn1 Hn2].
  apply obind_ok in Ho. destruct Ho as [t' [He Ho]]. apply obind_ok in Ho. destruct Ho as [r [Hr Ho]]. injection Ho as <-. cbn [values fold_right] in Hv. fold (values r) in Hv.
  destruct (from_term t') as [v|] eqn:Ev; [|discriminate]. destruct (values r) as [w|] eqn:Ew; [|discriminate]. injection Hv as <-. constructor; [eapply nz_lit_val; eauto|eapply IH; eauto].
Qed.
Lemma quot_i_nz x y : y <> 0%Z -> quot_i x y <> RPanic.
Proof. intros H. unfold quot_i. destruct (Z.eqb_spec y 0); [contradiction|discriminate]. Qed.
Lemma quot_q_nz x y : ~ (y == 0)%Q -> quot_q x y <> RPanic.
Proof. intros H. unfold quot_q. destruct (Qeq_bool y 0) eqn:E; [apply Qeq_bool_iff in E; contradiction|discriminate]. Qed.
Lemma inject_nz z : z <> 0%Z -> ~ (inject_Z z == 0)%Q.
Proof. intros H E. unfold Qeq in E. cbn in E. lia. Qed.
Lemma mixed_nz real acc v : nz_val v -> mixed quot_i quot_q real acc v <> RPanic.
Proof.
  intros H. unfold mixed. destruct acc, v; cbn [nz_val] in H; try contradiction; try discriminate; try destruct real;
  (apply np_bind; [first [apply quot_i_nz; exact H|apply quot_q_nz; first [exact H|apply inject_nz; exact H]]|discriminate]).
Qed.
Lemma np_div_fold real l : Forall nz_val l -> forall acc, tfold (mixed quot_i quot_q real) acc l <> RPanic.
Proof. induction 1 as [|v l H1 H2 IH]; intros acc; cbn [tfold]; [discriminate|]. apply np_oo; [apply mixed_nz; exact H1|apply IH]. Qed.
Lemma np_ev_div o l l' vs : ev_div o l = true -> omap evaluate l = ROk l' -> values l' = Some vs -> ev_op o vs <> RPanic.
Proof.
  intros Hd Ho Hv.
  assert (X : forall a r, l = a :: r -> forallb nz_lit r = true -> exists v w, vs = v :: w /\ Forall nz_val w).
  { intros a r -> Hn. cbn [omap] in Ho. apply obind_ok in Ho. destruct Ho as [t' [He Ho]]. apply obind_ok in Ho. destruct Ho as [r' [Hr Ho]]. injection Ho as <-.
    cbn [values fold_right] in Hv. fold (values r') in Hv. destruct (from_term t') as [v|]; [|discriminate]. destruct (values r') as [w|] eqn:Ew; [|discriminate]. injection Hv as <-.
    exists v, w. split; [reflexivity|]. eapply nz_lits_vals; eauto. }
  unfold ev_div in Hd. destruct o; try discriminate Hd; destruct l as [|a r]; try discriminate Hd.
  - destruct (X a r eq_refl Hd) as (v & w & -> & Hw). cbn [ev_op arith]. destruct (is_num_val v); [|discriminate]. apply np_div_fold. exact Hw.
  - destruct (X a r eq_refl Hd) as (v & w & -> & Hw). cbn [ev_op arith]. destruct (is_num_val v); [|discriminate]. apply np_div_fold. exact Hw.
  - destruct r as [|b [|? ?]]; try discriminate Hd. destruct (X a [b] eq_refl) as (v & w & -> & Hw); [cbn [forallb]; rewrite Hd; reflexivity|].
    apply values_len in Hv. apply omap_len in Ho. rewrite Ho in Hv. cbn in Hv. destruct w as [|y w]; [discriminate|]. inversion Hw as [|? ? Hy _]; subst.
    cbn [ev_op]. unfold arg. cbn [nth_error]. destruct v; try discriminate. cbn [as_i oq]. destruct y; try discriminate. cbn [as_i oq nz_val] in *. destruct (Z.eqb_spec z0 0); [contradiction|discriminate].
Qed.
(** the width of the value of a well-sorted term is that of its sort *)
Definition compat (v : cval) (s : sort) : Prop := match v with EBV _ w => s = SBV w | _ => True end.
Lemma tfold_num fi fq real l : forall acc v, is_num_val acc = true -> tfold (mixed fi fq real) acc l = ROk (Some v) -> is_num_val v = true.
Proof.
  induction l as [|a l IH]; intros acc v Ha H; cbn [tfold] in H; [injection H as <-; exact Ha|]. destruct (mixed fi fq real acc a) as [[b|]| |] eqn:E; try discriminate. cbn [oo] in H.
  apply (IH b v); [|exact H]. unfold mixed in E. destruct acc, a; try discriminate; try destruct real; unfold some in E;
  match type of E with context[obind ?x _] => destruct x; try discriminate; cbn [obind] in E; injection E as <-; reflexivity end.
Qed.
Lemma arith_num fi fq real l v : arith fi fq real l = ROk (Some v) -> is_num_val v = true.
Proof. destruct l as [|a l]; [discriminate|]. cbn [arith]. destruct (is_num_val a) eqn:E; [|discriminate]. apply tfold_num. exact E. Qed.
Lemma num_compat v s : is_num_val v = true -> compat v s.
Proof. destruct v; try discriminate; intros; exact I. Qed.
Lemma cmp_go_bool fq l : forall acc v, cmp_go fq acc l = ROk (Some v) -> exists b, v = EB b.
Proof.
  induction l as [|a l IH]; intros acc v H; cbn [cmp_go] in H; [injection H as <-; eauto|]. destruct l as [|b l]; [injection H as <-; eauto|]. destruct acc; [|apply (IH _ _ H)].
  destruct (compare fq a b); [|discriminate]. cbn [oq] in H. apply (IH _ _ H).
Qed.
Lemma concat_width l : forall ss acc x, Forall2 compat l ss ->
  tfold (fun acc a => oq (as_bv a) (fun b => ROk (Some ((Z.shiftl (fst acc) (Z.of_nat (snd b)) + fst b)%Z, snd acc + snd b)))) acc l = ROk (Some x) ->
  fold_left (fun acc s => match acc, s with SBV a, SBV b => SBV (a + b) | _, _ => SType end) ss (SBV (snd acc)) = SBV (snd x).
Proof.
  induction l as [|a l IH]; intros ss acc x Hf H; inversion Hf as [|? s ? ss' H1 H2]; subst; cbn [tfold] in H; [injection H as <-; reflexivity|].
  destruct a; try discriminate. cbn [as_bv oq oo] in H. cbn [compat] in H1. subst s. cbn [fold_left]. apply (IH ss' _ _ H2 H).
Qed.
Ltac crush H :=
  repeat (cbn [oo oq as_bv as_b as_i as_r obind fst snd nth_error] in H;
          first [discriminate H | match type of H with context[match ?x with _ => _ end] => destruct x eqn:? end]);
  try discriminate H; try (injection H as <-; cbn; auto; fail).
Lemma f2_len {A B} (R : A -> B -> Prop) l m : Forall2 R l m -> List.length l = List.length m.
Proof. induction 1; cbn; congruence. Qed.
Lemma bv2u_width f l v : bv2u f l = ROk (Some v) -> exists z z' w r, l = EBV z w :: r /\ v = EBV z' w.
Proof.
  unfold bv2u, arg. destruct l as [|a l]; [discriminate|]. cbn [nth_error]. destruct a; try discriminate. cbn [as_bv oq fst snd]. destruct l as [|b l]; [discriminate|]. destruct b; try discriminate.
  cbn [as_bv oq fst snd]. destruct (f w z z0) as [[z1|]| |]; try discriminate. cbn [oo]. intros H. injection H as <-. unfold new_bv. eauto 10.
Qed.
Lemma bv2s_width f l v : bv2s f l = ROk (Some v) -> exists z z' w r, l = EBV z w :: r /\ v = EBV z' w.
Proof.
  unfold bv2s, arg. destruct l as [|a l]; [discriminate|]. cbn [nth_error]. destruct a; try discriminate. destruct w as [|w]; [discriminate|]. cbn [as_sbv oo fst snd]. destruct l as [|b l]; [discriminate|].
  cbn [nth_error]. destruct (as_sbv b) as [[y|]| |]; try discriminate. cbn [oo].
  match goal with |- oo ?x _ = _ -> _ => destruct x as [[z1|]| |]; try discriminate end. cbn [oo]. intros H. injection H as <-. unfold new_bv. eauto 10.
Qed.
Lemma ev_op_compat o vs ss v : op_wt o ss = true -> Forall2 compat vs ss -> ev_op o vs = ROk (Some v) -> compat v (op_sort o ss).
Proof.
  intros Hw Hf H.
  destruct o; cbn [ev_op] in H; try discriminate H;
  try (apply num_compat, (arith_num _ _ _ _ _ H));
  try (destruct (cmp_go_bool _ _ _ _ H) as [b ->]; exact I);
  try (unfold bvcmp_u, bvcmp_s, arg, opt, oq, oo, some in H; crush H; fail).
  all: try (first [apply bv2u_width in H|apply bv2s_width in H]; destruct H as (z & z' & w & r & -> & ->); inversion Hf as [|? s1 ? ? C1 Hf1]; subst; cbn [compat] in *; subst s1; reflexivity).
  all: try (cbn [op_wt] in Hw; destruct ss as [|s1 [|? ?]]; try discriminate Hw; inversion Hf as [|v1 ? r1 ? C1 Hf1]; subst; inversion Hf1; subst;
    unfold arg, opt, some in H; cbn [nth_error] in H; destruct v1; try discriminate H; cbn [as_bv oq fst snd compat] in *; subst; injection H as <-; reflexivity).
  all: try (inversion Hf as [|v1 s1 r1 ss1 C1 Hf1]; subst; [discriminate H|]; cbn [bvop] in H; destruct v1; try discriminate H; cbn [compat] in C1; subst;
    match type of H with oo ?x _ = _ => destruct x as [[z'|]| |]; try discriminate H end; injection H as <-; reflexivity).
  - cbn [op_wt] in Hw. destruct ss as [|s1 [|s2 [|s3 [|? ?]]]]; try discriminate Hw. apply andb_true_iff in Hw. destruct Hw as [_ Hw]. apply sort_eqb_eq in Hw. subst s3.
    inversion Hf as [|v1 ? r1 ? C1 Hf1]; subst. inversion Hf1 as [|v2 ? r2 ? C2 Hf2]; subst. inversion Hf2 as [|v3 ? r3 ? C3 Hf3]; subst.
    unfold arg in H. cbn [nth_error] in H. destruct v1; try discriminate H. cbn [as_b oq] in H. destruct b; injection H as <-; assumption.
  - apply num_compat. destruct vs as [|a [|b l]]; [discriminate H| |destruct a; apply (arith_num _ _ _ _ _ H)]. destruct a; try discriminate H; injection H as <-; reflexivity.
  - match type of H with oo ?x _ = _ => destruct x as [[x0|]| |] eqn:E; try discriminate H end. injection H as <-. cbn [op_sort compat new_bv].
    apply (concat_width _ _ (0%Z, 0) _ Hf E).
  - unfold opt in H. destruct (set_bits _ vs); [|discriminate H]. injection H as <-. cbn [op_sort compat]. rewrite (f2_len _ _ _ Hf). reflexivity.
  - unfold opt in H. destruct (set_bits _ vs); [|discriminate H]. injection H as <-. cbn [op_sort compat]. rewrite (f2_len _ _ _ Hf). reflexivity.
Qed.
Lemma const_nat_int t n : as_const_nat t = Some n -> exists z, t = TConst (CInt z) /\ (0 <= z)%Z /\ n = Z.to_nat z.
Proof.
  unfold as_const_nat, as_const_int. destruct t as [[z| | |]| | | | | | |]; try discriminate. destruct (Z.leb_spec 0 z); [|discriminate]. intros E. injection E as <-. eauto.
Qed.
Lemma op_usize_go {B} z r n (f : nat -> outcome (option B)) vs : nth_error vs n = Some (EI z) -> op_usize vs n f = ROk (Some r) -> f (Z.to_nat z) = ROk (Some r).
Proof. intros Hn H. unfold op_usize, arg in H. rewrite Hn in H. cbn [as_i oq] in H. unfold usize in H. destruct (_ && _); [exact H|discriminate]. Qed.
Lemma op_usize_np {B} z n (f : nat -> outcome (option B)) vs : nth_error vs n = Some (EI z) -> (0 <= z < 2 ^ 64)%Z -> f (Z.to_nat z) <> RPanic -> op_usize vs n f <> RPanic.
Proof.
  intros Hn Hz Hf. unfold op_usize, arg. rewrite Hn. cbn [as_i oq]. unfold usize. rewrite (proj2 (Z.leb_le 0 z)), (proj2 (Z.ltb_lt z _)) by lia. exact Hf.
Qed.
(** the indices of a well-sorted indexed operator *)
Lemma pop_shape o oargs ss : pop_wt o oargs ss = true -> o <> PArrayConst ->
  (exists zs, oargs = map (fun z => TConst (CInt z)) zs /\ Forall (fun z => (0 <= z)%Z) zs /\ (List.length zs = 1 \/ (List.length zs = 2 /\ (o = PBvExtract \/ o = PReLoop))) /\
     (o = PBvExtract -> List.length zs = 2 /\ (nth 1 zs 0 <= nth 0 zs 0)%Z)) /\ List.length ss = 1.
Proof.
  intros Hw Ho. unfold pop_wt in Hw.
  assert (X : forall l ns, map as_const_nat l = map Some ns -> exists zs, l = map (fun z => TConst (CInt z)) zs /\ Forall (fun z => (0 <= z)%Z) zs /\ ns = map Z.to_nat zs).
  { induction l as [|t l IH]; intros [|n ns] E; try discriminate; [exists []; auto|]. cbn [map] in E. injection E as E1 E2. destruct (const_nat_int _ _ E1) as (z & -> & Hz & ->).
    destruct (IH _ E2) as (zs & -> & Hzs & ->). exists (z :: zs). auto. }
  destruct o; try congruence; destruct (map as_const_nat oargs) as [|[n1|] [|[n2|] [|? ?]]] eqn:E; try discriminate Hw; destruct ss as [|s [|? ?]]; try discriminate Hw; try (destruct s; discriminate Hw);
  (split; [|reflexivity]).
  all: first [destruct (X oargs [n1; n2] E) as (zs & -> & Hzs & En) | destruct (X oargs [n1] E) as (zs & -> & Hzs & En)]; exists zs; (split; [reflexivity|]); (split; [exact Hzs|]);
    pose proof (f_equal (@List.length _) En) as El; rewrite map_length in El; cbn in El; (split; [auto|]); intros Eo; try discriminate Eo.
  split; [auto|]. destruct s; try discriminate Hw. apply andb_true_iff in Hw. destruct Hw as [_ Hw]. apply Nat.leb_le in Hw. destruct zs as [|a [|b [|? ?]]]; try discriminate El. injection En as -> ->.
  inversion Hzs as [|? ? Ha Hz2]; subst. inversion Hz2 as [|? ? Hb _]; subst. cbn [nth]. lia.
Qed.
Lemma lits_eval zs : omap evaluate (map (fun z => TConst (CInt z)) zs) = ROk (map (fun z => TConst (CInt z)) zs).
Proof. induction zs as [|z zs IH]; [reflexivity|]. cbn [map omap evaluate from_const into_term obind]. rewrite IH. reflexivity. Qed.
Lemma lits_vals zs : values (map (fun z => TConst (CInt z)) zs) = Some (map EI zs).
Proof. induction zs as [|z zs IH]; [reflexivity|]. cbn [map values fold_right]. fold (values (map (fun z => TConst (CInt z)) zs)). rewrite IH. reflexivity. Qed.
Lemma ev_pop_compat o zs vs ss v : pop_wt o (map (fun z => TConst (CInt z)) zs) ss = true -> Forall2 compat vs ss -> ev_pop o (map EI zs) vs = ROk (Some v) ->
  compat v (pop_sort o (map (fun z => TConst (CInt z)) zs) ss).
Proof.
  intros Hw Hf H. destruct (match o with PArrayConst => true | _ => false end) eqn:Eo; [destruct o; try discriminate; discriminate H|].
  destruct (pop_shape _ _ _ Hw ltac:(intros ->; discriminate)) as [(zs' & Ez & Hz & Hl & Hx) Hs].
  assert (zs' = zs). { apply (f_equal values) in Ez. rewrite !lits_vals in Ez. injection Ez as Ez. clear -Ez. revert zs Ez. induction zs' as [|a l IH]; intros [|b m] E; try discriminate; [reflexivity|]. injection E as -> E. f_equal. auto. }
  subst zs'. destruct ss as [|s [|? ?]]; try discriminate Hs. inversion Hf as [|v1 ? r ? C Hf']; subst. inversion Hf'; subst. clear Hf Hf' Hs.
  destruct zs as [|z1 zs]; [destruct Hl as [Hl|[Hl _]]; discriminate Hl|]. inversion Hz as [|? ? Hz1 Hz2]; subst.
  assert (En : as_const_nat (TConst (CInt z1)) = Some (Z.to_nat z1)). { unfold as_const_nat. cbn. rewrite (proj2 (Z.leb_le 0 z1) Hz1). reflexivity. }
  destruct o; try discriminate Eo; try discriminate H; cbn [ev_pop map] in H;
  try (apply (op_usize_go z1) in H; [|reflexivity]).
  - destruct (Hx eq_refl) as [Hl2 Hle]. destruct zs as [|z2 [|? ?]]; try discriminate Hl2. inversion Hz2 as [|? ? Hz3 _]; subst. apply (op_usize_go z2) in H; [|reflexivity].
    unfold arg in H. cbn [nth_error] in H. destruct v1; try discriminate H. cbn [as_bv oq fst snd] in H. destruct (Nat.ltb_spec (Z.to_nat z1) (Z.to_nat z2)) as [|Hnl]; [discriminate H|]. injection H as <-.
    cbn [pop_sort map compat new_bv]. rewrite En. unfold as_const_nat. cbn [as_const_int]. rewrite (proj2 (Z.leb_le 0 z2) Hz3). rewrite (proj2 (Nat.leb_le _ _) Hnl). reflexivity.
  - unfold arg in H. cbn [nth_error] in H. destruct v1; try discriminate H. injection H as <-. exact I.
  - unfold arg in H. cbn [nth_error] in H. destruct v1; try discriminate H. injection H as <-. exact I.
  - unfold arg in H. cbn [nth_error] in H. destruct v1; try discriminate H. cbn [as_bv oq fst snd] in H. injection H as <-. cbn [compat] in C. subst s. cbn [pop_sort map compat new_bv].
    rewrite En. f_equal. lia.
  - unfold arg in H. cbn [nth_error] in H. destruct v1; try discriminate H. cbn [compat] in C. subst s. destruct w as [|w]; [discriminate H|]. cbn [as_sbv oo fst snd] in H. injection H as <-.
    cbn [pop_sort map compat new_bv]. rewrite En. f_equal. lia.
  - unfold arg in H. cbn [nth_error] in H. destruct v1; try discriminate H. cbn [as_bv oq fst snd] in H. cbn [compat] in C. subst s. destruct (Nat.ltb w (Z.to_nat z1)); [discriminate H|].
    destruct (rotr z w (w - Z.to_nat z1)); try discriminate H. cbn [obind] in H. injection H as <-. reflexivity.
  - unfold arg in H. cbn [nth_error] in H. destruct v1; try discriminate H. cbn [as_bv oq fst snd] in H. cbn [compat] in C. subst s.
    destruct (rotr z w (Z.to_nat z1)); try discriminate H. cbn [obind] in H. injection H as <-. reflexivity.
  - unfold arg in H. cbn [nth_error] in H. destruct v1; try discriminate H. cbn [as_bv oq fst snd] in H. injection H as <-. cbn [compat] in C. subst s. cbn [pop_sort map compat new_bv].
    rewrite En. f_equal. lia.
  - discriminate Hw.
  - unfold arg in H. cbn [nth_error] in H. destruct v1; try discriminate H. cbn [as_i oq] in H. injection H as <-. cbn [pop_sort map compat new_bv]. rewrite En. reflexivity.
Qed.
Lemma vals_compat l : Forall (fun t => wt t = true -> forall t' v, evaluate t = ROk t' -> from_term t' = Some v -> compat v (sort_of t)) l -> forallb wt l = true ->
  forall l' vs, omap evaluate l = ROk l' -> values l' = Some vs -> Forall2 compat vs (map sort_of l).
Proof.
  induction 1 as [|t l H1 H2 IH]; intros Hw l' vs Ho Hv; cbn [omap] in Ho; [injection Ho as <-; cbn in Hv; injection Hv as <-; constructor|]. apply fcons in Hw. destruct Hw as [Hw1 Hw2].
  apply obind_ok in Ho. destruct Ho as [t' [He Ho]]. apply obind_ok in Ho. destruct Ho as [r [Hr Ho]]. injection Ho as <-. cbn [values fold_right] in Hv. fold (values r) in Hv.
  destruct (from_term t') as [v|] eqn:Ev; [|discriminate]. destruct (values r) as [w|] eqn:Ew; [|discriminate]. injection Hv as <-. cbn [map]. constructor; [eapply H1; eauto|eapply IH; eauto].
Qed.
Lemma into_from v v' s : compat v s -> from_term (into_term v) = Some v' -> compat v' s.
Proof. destruct v as [[|]| | | |]; cbn; intros H E; injection E as <-; exact H. Qed.
Lemma evaluate_compat t : wt t = true -> forall t' v, evaluate t = ROk t' -> from_term t' = Some v -> compat v (sort_of t).
Proof.
  induction t as [c|x s|f l IHf H|o l H|s|b vs t IHt|bs t H IHt|o oa l Hoa H] using term_ind'; intros Hw t' v He Hv; cbn [evaluate] in He; try (injection He as <-; discriminate Hv).
  - injection He as <-. apply (into_from (from_const c)); [|exact Hv]. destruct c; exact I || reflexivity.
  - apply obind_ok in He. destruct He as [l' [Hl' He]]. apply op_wt_of in Hw. destruct Hw as [Hw Ho].
    destruct (values l') as [vs|] eqn:E; [|injection He as <-; destruct o; try discriminate Hv; injection Hv as <-; exact I].
    apply obind_ok in He. destruct He as [r [Hr He]]. injection He as <-. destruct r as [u|]; [|destruct o; try discriminate Hv; injection Hv as <-; exact I].
    apply (into_from u); [|exact Hv]. pose proof (ev_op_compat o vs (map sort_of l) u Ho (vals_compat l H Hw _ _ Hl' E) Hr) as C.
    destruct o; try exact C. discriminate Ho.
  - cbn [wt] in Hw. apply andb_true_iff in Hw. destruct Hw as [Hw Hp]. apply obind_ok in He. destruct He as [oa' [Hoa' He]]. apply obind_ok in He. destruct He as [l' [Hl' He]].
    destruct (values oa') as [ovs|] eqn:Eo; [|injection He as <-; discriminate Hv]. destruct (values l') as [vs|] eqn:E; [|injection He as <-; discriminate Hv].
    apply obind_ok in He. destruct He as [r [Hr He]]. injection He as <-. destruct r as [u|]; [|discriminate Hv]. apply (into_from u); [|exact Hv].
    destruct (match o with PArrayConst => true | _ => false end) eqn:Ea; [destruct o; try discriminate; discriminate Hr|].
    destruct (pop_shape _ _ _ Hp ltac:(intros ->; discriminate)) as [(zs & -> & _) _]. rewrite lits_eval in Hoa'. injection Hoa' as <-. rewrite lits_vals in Eo. injection Eo as <-.
    cbn [sort_of]. apply (ev_pop_compat o zs vs _ u Hp (vals_compat l H Hw _ _ Hl' E) Hr).
Qed.
Lemma all_compat l : forall l' vs, forallb wt l = true -> omap evaluate l = ROk l' -> values l' = Some vs -> Forall2 compat vs (map sort_of l).
Proof. intros l' vs Hw. apply vals_compat; [|exact Hw]. rewrite Forall_forall. intros t _. apply evaluate_compat. Qed.

Lemma np_ev_sign o l l' vs : forallb wt l = true -> op_wt o (map sort_of l) = true -> ev_sign o l = true -> omap evaluate l = ROk l' -> values l' = Some vs -> ev_op o vs <> RPanic.
Proof.
  intros Hw Ho Hs Hl Hv. pose proof (all_compat l l' vs Hw Hl Hv) as Hc. unfold ev_sign in Hs.
  assert (X : forall a r, l = a :: r -> pos_bv (sort_of a) = true -> exists v vs', vs = v :: vs' /\ forall z, v <> EBV z 0).
  { intros a r -> Hp. cbn [map] in Hc. inversion Hc as [|v ? vs' ? C1 C2]; subst. exists v, vs'. split; [reflexivity|]. intros z ->. cbn [compat] in C1. rewrite C1 in Hp. discriminate. }
  assert (Y : forall a b, l = [a; b] -> sort_eqb (sort_of a) (sort_of b) = true -> pos_bv (sort_of a) = true ->
    exists v u, vs = [v; u] /\ (as_sbv v <> RPanic) /\ (as_sbv u <> RPanic)).
  { intros a b -> He Hp. apply sort_eqb_eq in He. cbn [map] in Hc. inversion Hc as [|v ? vs1 ? C1 C2]; subst. inversion C2 as [|u ? vs2 ? C3 C4]; subst. inversion C4; subst.
    exists v, u. split; [reflexivity|]. rewrite <- He in C3. destruct (sort_of a) eqn:Es; try discriminate Hp. destruct w as [|k]; [discriminate Hp|].
    split; [destruct v; try discriminate; cbn [compat] in C1; injection C1 as <-; discriminate | destruct u; try discriminate; cbn [compat] in C3; injection C3 as <-; discriminate]. }
  destruct o; try discriminate Hs.
  all: try (cbn [op_wt] in Ho; destruct l as [|a [|b [|? ?]]]; try discriminate Hs; try discriminate Ho; cbn [map] in Ho; apply andb_true_iff in Ho; destruct Ho as [_ Ho];
    destruct (Y a b eq_refl Ho Hs) as (v & u & -> & Hv1 & Hu1); cbn [ev_op]; unfold bv2s, bvcmp_s, arg; cbn [nth_error]; apply np_oo; [exact Hv1|]; intros x; apply np_oo; [exact Hu1|]; intros y;
    first [discriminate | apply np_oo; [evs|discriminate]]; fail).
  - (* arithmetic shift *)
    destruct l as [|a [|b [|? ?]]]; try discriminate Hs; destruct b as [[| | |n m]| | | | | | |]; try discriminate Hs. cbn [map] in Hc. inversion Hc as [|v ? vs1 ? C1 C2]; subst.
    inversion C2 as [|u ? vs2 ? C3 C4]; subst. inversion C4; subst. destruct (sort_of a); try discriminate Hs. destruct w as [|k]; [discriminate Hs|]. rewrite !andb_true_iff in Hs.
    destruct Hs as [[Hn1 Hn2] Hn3]. cbn [omap evaluate from_const into_term obind] in Hl. destruct (evaluate a) as [a'| |]; try discriminate Hl. cbn [obind] in Hl. injection Hl as <-.
    cbn [values fold_right] in Hv. destruct (from_term a') as [v0|]; [|discriminate Hv]. cbn [from_term from_const] in Hv. injection Hv as <- <-. cbn [ev_op]. unfold bv2u, arg. cbn [nth_error].
    destruct v0; try discriminate. cbn [as_bv oq fst snd]. cbn [compat] in C1. injection C1 as <-. unfold usize. rewrite Hn1, Hn3. cbn [andb]. apply np_oo; [|discriminate].
    destruct (Z.testbit z (Z.of_nat k)); [|discriminate]. destruct (Z.ltb_spec (Z.of_nat (S k)) n); [apply Z.leb_le in Hn2; lia|discriminate].
  - destruct l as [|a r]; [discriminate Hs|]. destruct (X a r eq_refl Hs) as (v & vs' & -> & Hz). cbn [ev_op]. unfold arg. cbn [nth_error]. apply np_oo; [|discriminate].
    destruct v; try discriminate. destruct w; [exfalso; apply (Hz z); reflexivity|discriminate].
Qed.
Lemma np_ev_pop o zs l l' vs : forallb wt l = true -> pop_wt o (map (fun z => TConst (CInt z)) zs) (map sort_of l) = true -> ev_idx o (map (fun z => TConst (CInt z)) zs) l = true ->
  omap evaluate l = ROk l' -> values l' = Some vs -> ev_pop o (map EI zs) vs <> RPanic.
Proof.
  intros Hw Hp Hi Hl Hv. pose proof (all_compat l l' vs Hw Hl Hv) as Hc. destruct (match o with PArrayConst => true | _ => false end) eqn:Eo; [destruct o; discriminate|].
  destruct (pop_shape _ _ _ Hp ltac:(intros ->; discriminate)) as [(zs' & Ez & Hz & Hln & Hx) Hs].
  assert (zs' = zs). { apply (f_equal values) in Ez. rewrite !lits_vals in Ez. injection Ez as Ez. clear -Ez. revert zs Ez. induction zs' as [|a r IH]; intros [|b m] E; try discriminate; [reflexivity|]. injection E as -> E. f_equal. auto. }
  subst zs'. destruct (map sort_of l) as [|s [|? ?]] eqn:Es; try discriminate Hs. inversion Hc as [|v ? r ? C Hf']; subst. inversion Hf'; subst. clear Hc Hf' Hs.
  destruct zs as [|z1 zs]; [destruct Hln as [Hln|[Hln _]]; discriminate Hln|]. inversion Hz as [|? ? Hz1 Hz2]; subst.
  assert (Hsm : forallb idx_small (map (fun z => TConst (CInt z)) (z1 :: zs)) = true).
  { unfold ev_idx in Hi. rewrite Es in Hi. cbn [map] in Hi |- *. destruct o; try discriminate Eo; try exact Hi; try (apply andb_true_iff in Hi; tauto).
    destruct zs as [|? ?]; [|discriminate Hi]. cbn [map] in *. destruct s; try discriminate Hi. destruct w; [discriminate Hi|]. apply andb_true_iff in Hi. tauto. }
  cbn [map forallb idx_small] in Hsm. apply andb_true_iff in Hsm. destruct Hsm as [Hs1 Hs2]. apply Z.ltb_lt in Hs1.
  destruct o; try discriminate Eo; cbn [ev_pop map]; try discriminate; try (apply (op_usize_np z1); [reflexivity|lia|]); try (unfold arg; cbn [nth_error]; evs; fail).
  - destruct (Hx eq_refl) as [Hl2 Hle]. destruct zs as [|z2 [|? ?]]; try discriminate Hl2. inversion Hz2 as [|? ? Hz3 _]; subst. cbn [map forallb idx_small] in Hs2. rewrite andb_true_r in Hs2. apply Z.ltb_lt in Hs2.
    apply (op_usize_np z2); [reflexivity|lia|]. unfold arg. cbn [nth_error nth] in *. apply np_oq. intros x. destruct (Nat.ltb_spec (Z.to_nat z1) (Z.to_nat z2)); [lia|discriminate].
  - unfold ev_idx in Hi. rewrite Es in Hi. cbn [map] in Hi. apply andb_true_iff in Hi. destruct Hi as [_ Hi]. unfold arg. cbn [nth_error]. apply np_oo; [|discriminate]. destruct v; try discriminate.
    cbn [compat] in C. subst s. destruct w; [discriminate Hi|discriminate].
  - unfold ev_idx in Hi. rewrite Es in Hi. cbn [map] in Hi. destruct zs; [|discriminate Hi]. cbn [map] in Hi. destruct s as [| | | | | | | | |w| |]; try discriminate Hi. destruct w as [|k]; [discriminate Hi|].
    apply andb_true_iff in Hi. destruct Hi as [_ Hi]. apply Z.leb_le in Hi. unfold arg. cbn [nth_error]. destruct v; try discriminate. cbn [as_bv oq fst snd compat] in *. injection C as <-.
    destruct (Nat.ltb_spec (S k) (Z.to_nat z1)); [lia|]. unfold rotr. discriminate.
  - unfold ev_idx in Hi. rewrite Es in Hi. cbn [map] in Hi. apply andb_true_iff in Hi. destruct Hi as [_ Hi]. unfold arg. cbn [nth_error]. destruct v; try discriminate.
    cbn [as_bv oq fst snd compat] in *. subst s. destruct w; [discriminate Hi|]. unfold rotr. discriminate.
Qed.
Lemma np_evaluate t : wt t = true -> ev_calm t = true -> evaluate t <> RPanic.
Proof.
  induction t as [c|x s|f l IHf H|o l H|s|b vs t IHt|bs t H IHt|o oa l Hoa H] using term_ind'; intros Hw Hc; try discriminate; cbn [evaluate].
  - apply op_wt_of in Hw. destruct Hw as [Hw Ho]. cbn [ev_calm] in Hc. apply andb_true_iff in Hc. destruct Hc as [Hn Hc]. pose proof Hw as Hwl.
    rewrite Forall_forall in H. rewrite forallb_forall in Hw, Hc. apply np_bind; [apply np_omap; intros a Ha; auto|]. intros l' Hl'. destruct (values l') as [vs|] eqn:E; [|discriminate].
    apply np_bind; [|discriminate]. rewrite !orb_true_iff in Hn. destruct Hn as [[Hn|Hn]|Hn]; [|apply (np_ev_div o l l' vs Hn Hl' E)|apply (np_ev_sign o l l' vs Hwl Ho Hn Hl' E)].
    destruct (ev_need o) as [n|] eqn:En; [|discriminate]. apply (np_ev_op o vs n En). rewrite (values_len _ _ E), (omap_len _ _ _ Hl').
    pose proof (wt_need _ _ _ Ho En) as Hle. rewrite map_length in Hle. exact Hle.
  - cbn [wt] in Hw. apply andb_true_iff in Hw. destruct Hw as [Hw Hp]. cbn [ev_calm] in Hc. apply andb_true_iff in Hc. destruct Hc as [Hi Hc]. pose proof Hw as Hwl.
    rewrite Forall_forall in H. rewrite forallb_forall in Hw, Hc.
    destruct (match o with PArrayConst => true | _ => false end) eqn:Eo.
    + destruct o; try discriminate Eo. assert (Hs : exists s, oa = [TSort s]).
      { destruct oa as [|x [|y r]]; [exfalso; unfold pop_wt in Hp; cbn [map] in Hp; destruct (map sort_of l) as [|? [|? ?]]; discriminate Hp| |]; unfold pop_wt in Hp; cbn [map] in Hp.
        - destruct x; try (exfalso; destruct (map sort_of l) as [|? [|? ?]]; discriminate Hp). eauto.
        - exfalso. destruct (map sort_of l) as [|? [|? ?]]; try discriminate Hp; destruct x; try discriminate Hp; destruct s0; discriminate Hp. }
      destruct Hs as [s ->]. apply np_bind; [cbn; discriminate|].
      intros oa' _. apply np_bind; [apply np_omap; intros a Ha; auto|]. intros l' _. destruct (values oa'); [|discriminate]. destruct (values l'); discriminate.
    + destruct (pop_shape _ _ _ Hp ltac:(intros ->; discriminate)) as [(zs & -> & _) _]. rewrite lits_eval. cbn [obind]. apply np_bind; [apply np_omap; intros a Ha; auto|]. intros l' Hl'.
      rewrite lits_vals. destruct (values l') as [vs|] eqn:E; [|discriminate]. apply np_bind; [|discriminate]. apply (np_ev_pop o zs l l' vs Hwl Hp Hi Hl' E).
Qed.
Lemma evaluate_safe c ps args : clause_wt c = true -> forallb ev_calm c = true -> r_evaluate c ps args <> RPanic.
Proof.
  intros Hw Hc. unfold r_evaluate. npstep. cbn [idx nth_error unwrap obind]. apply np_bind; [np|]. intros [a1 b1] Hab. apply fcons in Hc. destruct Hc as [Hc _].
  assert (Hwt : wt t = true). { unfold clause_wt in Hw. apply fcons in Hw. destruct Hw as [Hw _]. apply andb_true_iff in Hw. tauto. }
  pose proof (m_op2_wt _ _ _ _ Hab Hwt) as [Ha _]. apply m_op2_ok in Hab. cbn [fst snd] in *. subst t. cbn [ev_calm forallb] in Hc. rewrite !andb_true_iff in Hc.
  apply np_bind; [apply np_evaluate; tauto|]. intros. np.
Qed.
