(** Further rules that never panic on steps that meet simple conditions: ite_intro, forall_inst, qnt_cnf, aci_simp, cp_normalize, poly_simp, drup and drat. *)
From Coq Require Import List String ZArith NArith QArith Bool Arith Lia.
From Verif Require Import Base Term Field Sem Sorting Rules Utils Num R_Simp R_SimpArith R_AC R_Quant R_Bfun R_Poly R_CP R_ResExact R_Resolution R_Drup R_PB PBSound DrupSound DrupOrder
  Polyeq Subst Checker Context Table NoPanic NoPanicBv NoPanicPoly NoPanicMore NoPanicCtx.
Import ListNotations.
Local Open Scope nat_scope.

(** ** ite_intro *)
Lemma np_polyeq a b : tame a = true -> tame b = true -> polyeq a b <> RPanic.
Proof. intros Ha Hb. unfold polyeq. destruct (peq_total cfg_polyeq a b Ha Hb) as [r ->]. discriminate. Qed.
Lemma np_aand a b : a <> RPanic -> b <> RPanic -> aand a b <> RPanic.
Proof. intros Ha Hb. unfold aand. apply np_bind; [exact Ha|]. intros [|] _; [exact Hb|discriminate]. Qed.
Lemma np_aor a b : a <> RPanic -> b <> RPanic -> aor a b <> RPanic.
Proof. intros Ha Hb. unfold aor. apply np_bind; [exact Ha|]. intros [|] _; [discriminate|exact Hb]. Qed.
Lemma tame_args o l : tame (TOp o l) = true -> forallb tame l = true.
Proof. cbn [tame]. intros H. apply andb_true_iff in H. tauto. Qed.
Lemma np_ite_valid c a b d e : tame c = true -> tame a = true -> tame b = true -> tame d = true -> tame e = true -> ite_valid c a b d e <> RPanic.
Proof.
  intros Hc Ha Hb Hd He. unfold ite_valid. apply np_aand; [apply np_polyeq; auto|]. destruct (op3 OIte b) as [[[x y] z]|] eqn:E; [|discriminate].
  apply op3_some in E. cbn [fst snd] in E. subst b. apply tame_args in Hb. cbn [forallb] in Hb. rewrite !andb_true_iff in Hb. destruct Hb as (H1 & H2 & H3 & _).
  repeat apply np_aand; apply np_polyeq; auto.
Qed.
Lemma tame_op2 o t x : m_op2 o t = ROk x -> tame t = true -> tame (fst x) = true /\ tame (snd x) = true.
Proof. intros H Hc. apply m_op2_ok in H. subst t. apply tame_args in Hc. cbn [forallb] in Hc. rewrite andb_true_r in Hc. apply andb_true_iff in Hc. exact Hc. Qed.
Lemma np_ite_def u : tame u = true -> ite_def u <> RPanic.
Proof.
  intros Hu. unfold ite_def. apply np_bind; [apply np_m_op3|]. intros [[c e1] e2] H. apply m_op3_ok in H. cbn [fst snd] in H. subst u.
  apply tame_args in Hu. cbn [forallb] in Hu. rewrite !andb_true_iff in Hu. destruct Hu as (H1 & H2 & H3 & _).
  apply np_bind; [apply np_m_op2|]. intros [a b] K1. apply np_bind; [apply np_m_op2|]. intros [d e] K2.
  apply tame_op2 in K1; auto. apply tame_op2 in K2; auto. cbn [fst snd] in *. apply np_bind; [|intros; apply np_rassert].
  repeat apply np_aor; apply np_ite_valid; tauto.
Qed.
Lemma ite_intro_safe c ps args : clause_wt c = true -> forallb tame c = true -> r_ite_intro c ps args <> RPanic.
Proof.
  intros Hw Ht. unfold r_ite_intro. npstep. cbn [idx nth_error unwrap obind]. cbn [forallb] in Ht. rewrite andb_true_r in Ht. apply np_bind; [apply np_m_op2|]. intros [x u] H.
  pose proof H as H'. apply tame_op2 in H'; auto. cbn [fst snd] in H'. destruct H' as [Hx Hu].
  unfold clause_wt in Hw. cbn [forallb] in Hw. rewrite andb_true_r in Hw. apply bool_term_wt in Hw. apply (m_op2_wt _ _ _ _ H) in Hw. destruct Hw as [_ Wu].
  apply np_bind; [apply np_polyeq; auto|]. intros [|] _; [discriminate|]. apply np_bind; [apply np_m_ops|]. intros us Hus. apply m_ops_ok in Hus. subst u.
  apply op_wt_of in Wu. destruct Wu as [_ Wu]. apply tame_args in Hu. destruct us as [|u0 us]; [discriminate|]. cbn [idx nth_error unwrap obind forallb skipn] in *.
  apply andb_true_iff in Hu. apply np_bind; [apply np_assert_polyeq; tauto|]. intros _ _. apply np_bind; [|discriminate]. apply np_ofor. intros a1 Ha. apply np_ite_def.
  destruct Hu as [_ Hu]. rewrite forallb_forall in Hu. auto.
Qed.

(** ** forall_inst *)
Lemma inst_calm bs args : forallb calm args = true -> mapP kc (inst_map bs args).
Proof.
  intros Ha. unfold inst_map. assert (G : forall l m, (forall p, In p l -> calm (snd p) = true) -> mapP kc m ->
    mapP kc (fold_left (fun m p => sins m (TVar (fst (fst p)) (snd (fst p))) (snd p)) l m)).
  { induction l as [|p l IH]; intros m Hp Hm; cbn [fold_left]; [exact Hm|]. apply IH; [intros q Hq; apply Hp; right; exact Hq|]. apply mapP_sins; [exact Hm|]. intros _. apply Hp. left; reflexivity. }
  apply G; [|apply mapP_nil]. intros [v a] Hp. apply in_combine_r in Hp. rewrite forallb_forall in Ha. exact (Ha _ Hp).
Qed.
Lemma np_subst_new m : subst_new m <> RPanic.
Proof. unfold subst_new. np. Qed.
Lemma forall_inst_safe c ps args : forallb calm c = true -> forallb calm args = true -> r_forall_inst c ps args <> RPanic.
Proof.
  intros Hc Ha. unfold r_forall_inst. npstep. cbn [idx nth_error unwrap obind]. cbn [forallb] in Hc. rewrite andb_true_r in Hc. apply np_bind; [apply np_m_op2|]. intros [x y] H.
  apply calm_eq2 in H; auto. cbn [fst snd] in *. destruct H as [Hx Hy]. apply np_bind; [apply np_m_op1|]. intros n Hn. apply m_op1_ok in Hn. subst x. apply calm_args in Hx. cbn [forallb] in Hx. rewrite andb_true_r in Hx.
  apply np_bind; [apply np_m_bind|]. intros [vs b] Hb. apply m_bind_ok in Hb. cbn [fst snd] in *. subst n. cbn [calm] in Hx.
  apply np_bind; [apply np_len_is|]. intros _ _. apply np_bind; [np|]. intros _ _. apply np_bind; [apply np_subst_new|]. intros m Hm.
  assert (E : m = inst_map vs args). { unfold subst_new in Hm. apply obind_ok in Hm. destruct Hm as [? [_ Hm]]. injection Hm as <-. reflexivity. } subst m.
  destruct (sub_apply_calm (sub_of (inst_map vs args)) b (inv_p_of _ _ (inst_calm vs args Ha)) Hx) as (r & S' & ok & Er & _ & Cr).
  unfold subst. rewrite Er. cbn [obind fst]. apply np_bind; [apply np_alpha; auto|]. intros; apply np_rassert.
Qed.

(** ** qnt_cnf *)
(** conjunctions and disjunctions have arguments *)
Fixpoint full (t : term) : bool :=
  match t with
  | TOp o l => if op_eqb o OAnd || op_eqb o OOr then negb (Nat.eqb (List.length l) 0) && forallb full l else true
  | TBind BForall _ i => full i
  | _ => true
  end.
Lemma full_lit pol t : full t = true -> full (R_Quant.lit pol t) = true.
Proof. destruct pol; auto. Qed.
Lemma full_lit_op pol o l : op_eqb o OAnd || op_eqb o OOr = false -> full (R_Quant.lit pol (TOp o l)) = true.
Proof. intros H. apply full_lit. cbn [full]. rewrite H. reflexivity. Qed.
Lemma full_lit_rest pol t : full t = true -> full (R_Quant.lit pol t) = true. Proof. apply full_lit. Qed.
Lemma full_two pol a b c d : full a = true -> full b = true -> full c = true -> full d = true -> full (two_pairs pol a b c d) = true.
Proof. intros Ha Hb Hc Hd. unfold two_pairs. destruct pol; cbn [full forallb List.length op_eqb orb negb Nat.eqb]; cbn; rewrite Ha, Hb, Hc, Hd; reflexivity. Qed.
Lemma wt_args o l : wt (TOp o l) = true -> forall a, In a l -> wt a = true.
Proof. intros H a Ha. apply op_wt_of in H. destruct H as [H _]. rewrite forallb_forall in H. auto. Qed.
Lemma nnf_full t : wt t = true -> forall pol, full (nnf pol t) = true.
Proof.
  induction t as [c|x s|f l IHf H|o l H|s|b vs t IHt|bs t H IHt|o oa l Hoa H] using term_ind'; intros Hw pol; try (apply full_lit; reflexivity).
  - pose proof (wt_args _ _ Hw) as Ha. pose proof (proj2 (op_wt_of _ _ Hw)) as Ho. rewrite Forall_forall in H.
    assert (IH : forall a p, In a l -> full (nnf p a) = true) by (intros a p Hi; apply H; auto). clear H Hw.
    assert (G : forall p q, op_eqb p OAnd || op_eqb p OOr = true -> min_len 1 (map sort_of l) = true -> full (TOp p (map (nnf q) l)) = true).
    { intros p q Hp Hm. cbn [full]. rewrite Hp, map_length. unfold min_len in Hm. rewrite map_length in Hm. apply Nat.leb_le in Hm.
      apply andb_true_iff. split; [apply negb_true_iff, Nat.eqb_neq; lia|]. apply forallb_forall. intros y Hy. apply in_map_iff in Hy. destruct Hy as [a [<- Hy]]. apply IH, Hy. }
    cbn [nnf]. destruct (op_eqb o ONot) eqn:E1.
    { apply op_eqb_eq in E1. subst o. destruct l as [|a [|b l]]; try (apply full_lit_op; reflexivity). apply IH. left; reflexivity. }
    destruct (op_eqb o OAnd) eqn:E2. { apply op_eqb_eq in E2. subst o. cbn [op_wt] in Ho. apply andb_true_iff in Ho. apply G; [destruct pol; reflexivity|tauto]. }
    destruct (op_eqb o OOr) eqn:E3. { apply op_eqb_eq in E3. subst o. cbn [op_wt] in Ho. apply andb_true_iff in Ho. apply G; [destruct pol; reflexivity|tauto]. }
    assert (L : full (R_Quant.lit pol (TOp o l)) = true) by (apply full_lit_op; rewrite E2, E3; reflexivity).
    destruct (op_eqb o OImplies).
    { destruct l as [|a [|b [|? ?]]]; try exact L. destruct pol; cbn [full forallb List.length Nat.eqb negb andb orb op_eqb]; cbn -[nnf full]; rewrite !IH by (cbn; tauto); reflexivity. }
    destruct (op_eqb o OIte). { destruct l as [|a [|b [|d [|? ?]]]]; try exact L. apply full_two; apply IH; cbn; tauto. }
    destruct (op_eqb o OEquals). { destruct l as [|a [|b [|? ?]]]; try exact L. destruct (sort_eqb (sort_of a) SBool); [apply full_two; apply IH; cbn; tauto|exact L]. }
    exact L.
  - cbn [wt] in Hw. destruct b; cbn [nnf]; try (destruct pol; reflexivity).
    1,2: destruct pol; cbn [full]; auto; apply IHt; rewrite !andb_true_iff in Hw; tauto.
Qed.
Lemma prenex_full t : full t = true -> full (snd (prenex t)) = true.
Proof.
  induction t as [c|x s|f l IHf H|o l H|s|b vs t IHt|bs t H IHt|o oa l Hoa H] using term_ind'; intros Hf; try exact Hf.
  - cbn [prenex]. destruct (op_eqb o OAnd || op_eqb o OOr) eqn:E; [|exact Hf]. cbn [snd full] in *. rewrite E, map_length in *. apply andb_true_iff in Hf. destruct Hf as [H1 H2].
    rewrite H1. cbn [andb]. apply forallb_forall. intros y Hy. apply in_map_iff in Hy. destruct Hy as [a [<- Hy]]. rewrite Forall_forall in H. rewrite forallb_forall in H2. auto.
  - destruct b; try exact Hf. cbn [prenex snd full] in *. auto.
Qed.
Definition clauses_ok (cs : list (list term)) : Prop := forall c, In c cs -> c <> [].
Lemma distribute_ok fs : fs <> [] -> (forall f, In f fs -> clauses_ok f) -> exists cs, distribute fs = ROk cs /\ clauses_ok cs.
Proof.
  induction fs as [|f fs IH]; intros Hn Hf; [congruence|]. destruct fs as [|g fs]; [exists f; split; [reflexivity|apply Hf; left; reflexivity]|].
  destruct IH as [cs [E Hcs]]; [discriminate|intros h Hh; apply Hf; right; exact Hh|]. cbn [distribute] in *. rewrite E. cbn [obind]. eexists. split; [reflexivity|].
  intros c Hc. apply in_flat_map in Hc. destruct Hc as [h [Hh Hc]]. apply in_map_iff in Hc. destruct Hc as [k [<- Hk]]. intros E0. apply app_eq_nil in E0. destruct E0 as [-> _]. apply (Hf f (or_introl eq_refl) [] Hh eq_refl).
Qed.
Lemma cnf_ok t : full t = true -> exists cs, cnf t = ROk cs /\ clauses_ok cs.
Proof.
  assert (B : forall u, exists cs, ROk [[u]] = ROk cs /\ clauses_ok cs) by (intros u; exists [[u]]; split; [reflexivity|]; intros c [<-|[]]; discriminate).
  induction t as [c|x s|f l IHf H|o l H|s|b vs t IHt|bs t H IHt|o oa l Hoa H] using term_ind'; intros Hf; try apply B. cbn [cnf full] in *. rewrite Forall_forall in H.
  destruct (op_eqb o OAnd) eqn:E1; cbn [orb] in Hf; [|destruct (op_eqb o OOr) eqn:E2; [|apply B]]; apply andb_true_iff in Hf; destruct Hf as [H1 H2].
  all: assert (G : exists fs, omap cnf l = ROk fs /\ (forall f, In f fs -> clauses_ok f) /\ List.length fs = List.length l).
  1,3: clear H1; induction l as [|a l IH]; cbn [omap]; [exists []; repeat split; intros f []|]; cbn [forallb] in H2; apply andb_true_iff in H2; destruct H2 as [Ha Hl];
    destruct (H a (or_introl eq_refl) Ha) as [cs [Ec Hc]]; destruct IH as [fs [Ef [Hf' Hl']]]; [intros x Hx; apply H; right; exact Hx|exact Hl|]; rewrite Ec, Ef; cbn [obind]; exists (cs :: fs);
    (split; [reflexivity|]); split; [intros f [<-|Hi]; auto|cbn [List.length]; lia].
  all: destruct G as [fs [Ef [Hf' Hl']]]; rewrite Ef; cbn [obind].
  - eexists. split; [reflexivity|]. intros c Hc. apply in_concat in Hc. destruct Hc as [f [Hi Hc]]. exact (Hf' f Hi c Hc).
  - apply distribute_ok; auto. intros ->. cbn in Hl'. rewrite <- Hl' in H1. discriminate.
Qed.
Lemma qnt_cnf_safe : rule_safe r_qnt_cnf.
Proof.
  intros c ps args Hw _ _. unfold r_qnt_cnf. npstep. cbn [idx nth_error unwrap obind]. apply np_bind; [apply np_m_op2|]. intros [x y] H.
  unfold clause_wt in Hw. cbn [forallb] in Hw. rewrite andb_true_r in Hw. apply bool_term_wt in Hw. apply (m_op2_wt _ _ _ _ H) in Hw. destruct Hw as [Wx _]. cbn [fst snd].
  apply np_bind; [apply np_m_op1|]. intros l Hl. apply m_op1_ok in Hl. subst x. pose proof (wt_args _ _ Wx l (or_introl eq_refl)) as Wl.
  apply np_bind; [apply np_ok_or|]. intros [[lq lb] phi] Hq. apply ok_or_ok in Hq. apply np_bind; [apply np_ok_or|]. intros [[rq rb] phi'] _.
  assert (Wp : wt phi = true).
  { destruct l as [| | | | |[] vs i| |]; cbn [as_quant] in Hq; try discriminate; injection Hq as <- <- <-; cbn [wt] in Wl; rewrite !andb_true_iff in Wl; tauto. }
  apply np_bind; [apply np_rassert|]. intros _ _. apply np_bind; [apply np_rassert|]. intros _ _. destruct (prenex (nnf true phi)) as [new pre] eqn:Ep.
  assert (Hp : full pre = true). { pose proof (prenex_full _ (nnf_full _ Wp true)) as K. rewrite Ep in K. exact K. }
  destruct (cnf_ok _ Hp) as [cs [-> Hcs]]. cbn [obind]. apply np_bind; [|intros; np]. apply np_omap. intros k Hk. specialize (Hcs k Hk). destruct k as [|? [|? ?]]; [congruence|discriminate..].
Qed.

(** ** aci_simp *)
Lemma np_aci_side t c : wt t = true -> aci_side t c <> RPanic.
Proof.
  intros Hw. destruct t as [| | |o l| | | |]; try discriminate. cbn [aci_side]. apply np_bind; [|discriminate]. apply op_wt_of in Hw. destruct Hw as [_ Ho].
  assert (N : forall z, min_len 2 (map sort_of l) && forallb is_num_sort (map sort_of l) = true -> num_identity z l <> RPanic).
  { intros z H. destruct l as [|a l]; [discriminate|]. unfold num_identity. cbn [first_sort obind]. apply andb_true_iff in H. destruct H as [_ H]. cbn [map forallb] in H. apply andb_true_iff in H. destruct H as [H _].
    destruct (sort_of a); discriminate. }
  assert (V : forall v, min_len 2 (map sort_of l) && forallb is_bv_sort (map sort_of l) && all_eq (map sort_of l) = true -> bv_identity v l <> RPanic).
  { intros v H. destruct l as [|a l]; [discriminate|]. unfold bv_identity. cbn [first_sort obind]. rewrite !andb_true_iff in H. destruct H as [[_ H] _]. cbn [map forallb] in H. apply andb_true_iff in H. destruct H as [H _].
    destruct (sort_of a); discriminate. }
  unfold identity_of_op. destruct (op_eqb o OOr); [discriminate|]. destruct (op_eqb o OAnd); [discriminate|].
  destruct (op_eqb o OAdd) eqn:E1; [apply op_eqb_eq in E1; subst o; apply N; exact Ho|]. destruct (op_eqb o OMult) eqn:E2; [apply op_eqb_eq in E2; subst o; apply N; exact Ho|].
  destruct (op_eqb o OBvAdd || op_eqb o OBvOr || op_eqb o OBvXor) eqn:E3.
  { rewrite !orb_true_iff in E3. destruct E3 as [[E3|E3]|E3]; apply op_eqb_eq in E3; subst o; apply V; exact Ho. }
  destruct (op_eqb o OBvMul) eqn:E4; [apply op_eqb_eq in E4; subst o; apply V; exact Ho|]. destruct (op_eqb o OBvAnd) eqn:E5; [apply op_eqb_eq in E5; subst o; apply V; exact Ho|]. discriminate.
Qed.
Lemma aci_safe : rule_safe r_aci_simp.
Proof.
  intros c ps args Hw _ _. unfold r_aci_simp. npstep. cbn [idx nth_error unwrap obind]. apply np_bind; [apply np_m_op2|]. intros [x y] H.
  unfold clause_wt in Hw. cbn [forallb] in Hw. rewrite andb_true_r in Hw. apply bool_term_wt in Hw. apply (m_op2_wt _ _ _ _ H) in Hw. destruct Hw as [Wx Wy].
  apply np_bind; [apply np_aci_side; auto|]. intros [t1 ca] _. apply np_bind; [apply np_aci_side; auto|]. intros [t2 cb] _. apply np_rassert.
Qed.

(** ** cp_normalize *)
Lemma np_flatten t : wt t = true -> flatten t <> RPanic.
Proof.
  assert (O : forall u, match term_to_ctv u with inl x => ROk ([x], 0%Z) | inr k => ROk ([], k) end <> RPanic) by (intros u; destruct (term_to_ctv u); discriminate).
  induction t as [c|x s|f l IHf H|o l H|s|b vs t IHt|bs t H IHt|o oa l Hoa H] using term_ind'; intros Hw; try apply O; [destruct c; try apply O; discriminate|].
  pose proof (wt_args _ _ Hw) as Ha. pose proof (proj2 (op_wt_of _ _ Hw)) as Ho. rewrite Forall_forall in H.
  assert (G : forall r, incl r l -> (fix acc (l : list term) : outcome (list ctv * Z) :=
    match l with [] => ROk ([], 0%Z) | a :: r => do x <- flatten a ; do y <- acc r ; ROk ((fst x ++ fst y)%list, (snd x + snd y)%Z) end) r <> RPanic).
  { induction r as [|a r IH]; intros Hi; [discriminate|]. apply np_bind; [apply H; [apply Hi; left; reflexivity|apply Ha, Hi; left; reflexivity]|]. intros x _.
    apply np_bind; [apply IH; intros z Hz; apply Hi; right; exact Hz|discriminate]. }
  destruct o; try apply O.
  - apply G, incl_refl.
  - destruct l as [|a r]; [discriminate Ho|]. cbn [flatten]. apply np_bind; [apply H; [left; reflexivity|apply Ha; left; reflexivity]|]. intros x _.
    apply np_bind; [apply G; intros z Hz; right; exact Hz|discriminate].
Qed.
Lemma np_norm_side vs k g : norm_side vs k g <> RPanic.
Proof.
  unfold norm_side. apply np_bind; [apply np_m_op2|]. intros sk _. destruct (push_negation vs k) as [g1 kg]. apply np_bind; [unfold collect_addition; apply np_omap; intros a _; destruct (term_to_ctv a); discriminate|]. intros l _.
  apply np_bind; [unfold as_integer_err; apply np_ok_or|]. intros k' _. unfold check_pb. np.
Qed.
Lemma cp_normalize_safe : rule_safe r_cp_normalize.
Proof.
  intros c ps args Hw _ _. unfold r_cp_normalize. npstep. cbn [idx nth_error unwrap obind]. apply np_bind; [apply np_m_op2|]. intros [x y] H.
  unfold clause_wt in Hw. cbn [forallb] in Hw. rewrite andb_true_r in Hw. apply bool_term_wt in Hw. apply (m_op2_wt _ _ _ _ H) in Hw. destruct Hw as [Wx Wy]. cbn [fst snd].
  apply np_bind; [unfold match_relation; np|]. intros [[o a1] b1] Hm.
  assert (Hab : wt a1 = true /\ wt b1 = true).
  { destruct x as [| | |o' [|a' [|b' [|? ?]]]| | | |]; try discriminate. pose proof (wt_args _ _ Wx) as Ha. cbn [match_relation] in Hm. destruct o'; try discriminate; injection Hm as _ <- <-; split; apply Ha; cbn; tauto. }
  destruct Hab as [Ha Hb]. apply np_bind; [apply np_flatten; auto|]. intros la _. apply np_bind; [apply np_flatten; auto|]. intros lb _.
  destruct o; try apply np_norm_side.
  apply np_bind; [apply np_m_op2|]. intros xy _. apply np_bind; [apply np_m_op2|]. intros _ _. apply np_bind; [apply np_m_op2|]. intros _ _. apply np_bind; [apply np_norm_side|]. intros _ _.
  destruct (push_negation _ _) as [g kg]. apply np_norm_side.
Qed.

(** ** drup and drat *)
(** every argument is a clause, or the deletion of a clause that is not empty *)
Definition drup_arg (t : term) : bool :=
  match t with TOp OCl _ => true | TOp ODelete l => match l with [d] => match d with TOp OCl (_ :: _) => true | _ => false end | _ => false end | _ => false end.
Definition clean {K} (m : list (K * list dlit)) : Prop := forall c, In c (map snd m) -> NoDup c.
Section Drup.
  Context {K : Type} (keqb : K -> K -> bool) (hash : term -> K).
  Lemma clean_ins m k l : @clean K m -> NoDup l -> clean (dins keqb m k l).
  Proof.
    unfold dins, clean. intros Hm Hl. induction m as [|[a b] m IH]; cbn [im_insert]; [intros c [<-|[]]; exact Hl|]. destruct (keqb k a); cbn [map snd]; intros c [<-|Hc]; auto.
    - apply Hm. right; exact Hc.
    - apply Hm. left; reflexivity.
    - apply IH; [intros d Hd; apply Hm; right; exact Hd|exact Hc].
  Qed.
  Lemma clean_init ps : clean (dinit keqb hash ps).
  Proof.
    unfold dinit. assert (G : forall ps m, clean m -> clean (fold_left (fun m p => dins keqb m (hash_term hash p) (dclause p)) ps m)); [|apply G; intros c []].
    clear ps. induction ps as [|p ps IH]; intros m Hm; cbn [fold_left]; [exact Hm|]. apply IH, clean_ins; [exact Hm|apply lits_of_NoDup].
  Qed.
  Lemma np_rup cls goal : (forall c, In c cls -> NoDup c) -> rup cls goal <> RPanic.
  Proof. intros H. destruct (rup_total cls goal H) as [b ->]. discriminate. Qed.
  Lemma np_drat all np0 rest : (forall c, In c all -> NoDup c) -> forall cls, drat_loop all np0 rest cls <> RPanic.
  Proof.
    intros H. induction cls as [|c cls IH]; cbn [drat_loop]; [discriminate|]. destruct (memb blit_eqb np0 c); [|exact IH]. apply np_bind; [apply np_rup; exact H|]. intros [|] _; [exact IH|discriminate].
  Qed.
  Lemma dstep_safe rat m t : clean m -> drup_arg t = true -> dstep keqb hash rat m t <> RPanic /\ forall m', dstep keqb hash rat m t = ROk m' -> clean m'.
  Proof.
    intros Hm Ht. unfold dstep. destruct t as [| | |o l| | | |]; try discriminate. destruct o; try discriminate.
    - cbn [op1 as_op op_eqb]. change (op1 ODelete (TOp OCl l)) with (@None term). change (as_op OCl (TOp OCl l)) with (Some l). cbn beta iota. split.
      + apply np_bind; [apply np_rup; exact Hm|]. intros b _. apply np_bind; [|intros; np]. destruct b; [discriminate|]. destruct (rat && negb (Nat.eqb (List.length l) 0)) eqn:E; [|discriminate].
        destruct l as [|p l]; [apply andb_true_iff in E; destruct E; discriminate|]. cbn [check_drat]. apply np_drat. exact Hm.
      + intros m' H. apply obind_ok in H. destruct H as [b [_ H]]. apply obind_ok in H. destruct H as [b' [_ H]]. apply obind_ok in H. destruct H as [u [_ H]]. injection H as <-. apply clean_ins; [exact Hm|apply lits_of_NoDup].
    - destruct l as [|d [|? ?]]; try discriminate. destruct d as [| | |od ld| | | |]; try discriminate. destruct od; try discriminate. destruct ld as [|x ld]; try discriminate.
      change (op1 ODelete (TOp ODelete [TOp OCl (x :: ld)])) with (Some (TOp OCl (x :: ld))). change (as_op OCl (TOp OCl (x :: ld))) with (Some (x :: ld)). cbn beta iota. split; [discriminate|].
      intros m' H. injection H as <-. intros c Hc. apply Hm. unfold dremove in Hc. apply in_map_iff in Hc. destruct Hc as [p [<- Hp]]. apply filter_In in Hp. apply in_map. tauto.
  Qed.
  Lemma drup_safe rat c ps args : forallb drup_arg args = true -> r_drup keqb hash rat c ps args <> RPanic.
  Proof.
    intros Ha. unfold r_drup. apply np_bind; [|intros; apply np_rassert]. generalize (clean_init (map (TOp OCl) ps)). generalize (dinit keqb hash (map (TOp OCl) ps)).
    induction args as [|t args IH]; intros m Hm; cbn [dsteps]; [discriminate|]. cbn [forallb] in Ha. apply andb_true_iff in Ha. destruct Ha as [H1 H2]. destruct (dstep_safe rat m t Hm H1) as [A B].
    apply np_bind; [exact A|]. intros m' E. apply IH; auto.
  Qed.
End Drup.

(** ** poly_simp *)
Lemma int_iff q : Qis_int q = true <-> exists z, (q == inject_Z z)%Q.
Proof.
  split; [intros H; eexists; apply Qis_int_floor; exact H|]. intros [z H]. destruct q as [n d]. unfold Qis_int, Qeq, inject_Z in *. cbn [Qnum Qden] in *. apply Z.eqb_eq. rewrite Z.mul_1_r in H. rewrite H. apply Z.mod_mul. discriminate.
Qed.
Definition int (q : Q) : Prop := Qis_int q = true.
Lemma int_add a b : int a -> int b -> int (a + b).
Proof. unfold int. rewrite !int_iff. intros [x Hx] [y Hy]. exists (x + y)%Z. rewrite Hx, Hy, inject_Z_plus. reflexivity. Qed.
Lemma int_mul a b : int a -> int b -> int (a * b).
Proof. unfold int. rewrite !int_iff. intros [x Hx] [y Hy]. exists (x * y)%Z. rewrite Hx, Hy, inject_Z_mult. reflexivity. Qed.
Lemma int_opp a : int a -> int (- a).
Proof. unfold int. rewrite !int_iff. intros [x Hx]. exists (- x)%Z. rewrite Hx, inject_Z_opp. reflexivity. Qed.
Section PolyInt.
  Variable meqb : monomial -> monomial -> bool.
  Variable srt : list term -> list term.
  Definition ints (l : list (monomial * Q)) : Prop := forall x, In x l -> int (snd x).
  Definition pint (p : poly) : Prop := ints (fst p) /\ int (snd p).
  Lemma ints_insert l k v : ints l -> int v -> ints (im_insert meqb l k v).
  Proof.
    intros Hl Hv. induction l as [|[a b] l IH]; cbn [im_insert]; [intros x [<-|[]]; exact Hv|].
    assert (H1 : ints l) by (intros x Hx; apply Hl; right; exact Hx). assert (H2 : int b) by (apply (Hl (a, b)); left; reflexivity).
    destruct (meqb k a); intros x [<-|Hx]; auto. apply IH; auto.
  Qed.
  Lemma ints_get l k v : ints l -> im_get meqb l k = Some v -> int v.
  Proof.
    intros Hl. induction l as [|[a b] l IH]; cbn [im_get]; [discriminate|]. destruct (meqb k a); [intros H; injection H as <-; apply (Hl (a, b)); left; reflexivity|].
    apply IH. intros x Hx. apply Hl. right; exact Hx.
  Qed.
  Lemma remove_in (l : list (monomial * Q)) k x : In x (im_swap_remove meqb l k) -> In x l.
  Proof.
    induction l as [|[a b] l IH]; cbn [im_swap_remove]; [auto|]. destruct (meqb k a).
    - destruct l as [|y l]; [intros []|]. intros H. right. eapply Permutation.Permutation_in; [apply (last_removelast_perm l y y)|exact H].
    - intros [<-|H]; [left; reflexivity|right; auto].
  Qed.
  Lemma pint_insert p k v : pint p -> int v -> pint (p_insert meqb p k v).
  Proof.
    intros [H1 H2] Hv. unfold p_insert. destruct (Qeq_bool v 0); [split; auto|]. destruct (im_get meqb (fst p) k) as [old|] eqn:E.
    - pose proof (ints_get _ _ _ H1 E) as Ho. destruct (Qeq_bool (old + v) 0); (split; [|exact H2]); cbn [fst snd]; [intros x Hx; apply H1; eapply remove_in; eauto|apply ints_insert; auto; apply int_add; auto].
    - split; [apply ints_insert; auto|exact H2].
  Qed.
  Lemma pint_fold {A} (g : A -> monomial) (h : A -> Q) l : (forall x, In x l -> int (h x)) -> forall p, pint p -> pint (fold_left (fun r x => p_insert meqb r (g x) (h x)) l p).
  Proof. induction l as [|x l IH]; intros Hl p Hp; cbn [fold_left]; [exact Hp|]. apply IH; [intros y Hy; apply Hl; right; exact Hy|]. apply pint_insert; [exact Hp|apply Hl; left; reflexivity]. Qed.
  Lemma pint_new : pint p_new.
  Proof. split; [intros x []|reflexivity]. Qed.
  Lemma pint_mul a b : pint a -> pint b -> pint (p_mul meqb srt a b).
  Proof.
    intros [A1 A2] [B1 B2]. unfold p_mul. cbv zeta.
    assert (H1 : forall l r, ints l -> pint r -> pint (fold_left (fun r x => p_insert meqb (fold_left (fun r y => p_insert meqb r (mon_mul srt (fst x) (fst y)) (snd x * snd y)%Q) (fst b) r) (fst x) (snd x * snd b)%Q) l r)).
    { induction l as [|x l IH]; intros r Hl Hr; cbn [fold_left]; [exact Hr|]. assert (Hx : int (snd x)) by (apply Hl; left; reflexivity).
      apply IH; [intros y Hy; apply Hl; right; exact Hy|]. apply pint_insert; [|apply int_mul; auto]. apply (pint_fold (fun y => mon_mul srt (fst x) (fst y)) (fun y => snd x * snd y)%Q); [|exact Hr].
      intros y Hy. apply int_mul; auto. }
    specialize (H1 (fst a) p_new A1 pint_new).
    pose proof (pint_fold (fun y => fst y) (fun y => snd y * snd a)%Q (fst b) (fun y Hy => int_mul _ _ (B1 y Hy) A2) _ H1) as H2.
    split; [apply H2|]. cbn [snd]. apply int_add; [apply H2|apply int_mul; auto].
  Qed.

  (** no panic *)
  Lemma np_p_other t q p : nodiv0 t = true -> p_other meqb t q p <> RPanic.
  Proof. intros H. unfold p_other. apply np_bind; [apply np_fraction; auto|]. intros [f|] _; [discriminate|]. destruct t as [[]| | | | | | |]; discriminate. Qed.
  Lemma np_p_all (f : term -> poly -> outcome poly) l : (forall a p, In a l -> f a p <> RPanic) -> forall p, p_add_all f l p <> RPanic.
  Proof. induction l as [|a l IH]; intros H p; cbn [p_add_all]; [discriminate|]. apply np_bind; [apply H; left; reflexivity|]. intros p' _. apply IH. intros b q Hb. apply H. right; exact Hb. Qed.
  Lemma np_p_from (f : term -> outcome poly) l : (forall a, In a l -> f a <> RPanic) -> forall p, p_prod_from meqb srt f p l <> RPanic.
  Proof. induction l as [|a l IH]; intros H p; cbn [p_prod_from]; [discriminate|]. apply np_bind; [apply H; left; reflexivity|]. intros p' _. apply IH. intros b Hb. apply H. right; exact Hb. Qed.
  Lemma np_p_add t : forall q p, wt t = true -> nodiv0 t = true -> p_add_term meqb srt t q p <> RPanic.
  Proof.
    induction t as [c|x s|f l IHf H|o l H|s|b vs t IHt|bs t H IHt|o oa l Hoa H] using term_ind'; intros q p Hw Hd; try (apply np_p_other; exact Hd).
    pose proof (wt_args _ _ Hw) as Ha. pose proof (proj2 (op_wt_of _ _ Hw)) as Ho. pose proof (nodiv0_args _ _ Hd) as Hn. rewrite forallb_forall in Hn. rewrite Forall_forall in H.
    assert (IH : forall a q p, In a l -> p_add_term meqb srt a q p <> RPanic) by (intros a q' p' Hi; apply H; auto). clear H.
    assert (HO : p_other meqb (TOp o l) q p <> RPanic) by (apply np_p_other; exact Hd).
    cbn [p_add_term]. destruct (op_eqb o OAdd || op_eqb o OBvAdd); [apply np_p_all; intros; apply IH; auto|].
    destruct ((op_eqb o OSub || op_eqb o OBvNeg) && one_arg l); [apply np_p_all; intros; apply IH; auto|].
    destruct (op_eqb o OSub || op_eqb o OBvSub) eqn:E1.
    { destruct l as [|a l]; [apply orb_true_iff in E1; destruct E1 as [E1|E1]; apply op_eqb_eq in E1; subst o; discriminate|].
      apply np_bind; [apply IH; left; reflexivity|]. intros p' _. apply np_p_all. intros; apply IH; right; auto. }
    destruct (op_eqb o OMult || op_eqb o OBvMul) eqn:E2.
    { apply np_bind; [|discriminate]. destruct l as [|a l]; [apply orb_true_iff in E2; destruct E2 as [E2|E2]; apply op_eqb_eq in E2; subst o; discriminate|].
      cbn [p_prod]. apply np_bind; [apply IH; left; reflexivity|]. intros p' _. apply np_p_from. intros; apply IH; right; auto. }
    destruct (op_eqb o ORealDiv). { destruct l as [|a [|b [|? ?]]]; try exact HO. apply np_bind; [apply np_fraction, Hn; cbn; tauto|]. intros [f|] _; [|exact HO]. destruct (Qeq_bool f 0); [discriminate|apply IH; left; reflexivity]. }
    destruct (op_eqb o OToReal) eqn:E3. { destruct l as [|a l]; [apply op_eqb_eq in E3; subst o; discriminate|]. apply IH. left; reflexivity. }
    destruct (op_eqb o OIntDiv). { destruct l as [|a [|b [|? ?]]]; try exact HO. apply np_bind; [apply np_fraction, Hn; cbn; tauto|]. intros [f|] _; [|exact HO]. destruct (Qeq_bool f 0); [discriminate|exact HO]. }
    exact HO.
  Qed.

  (** the coefficients of a bit-vector are integers *)
  Definition bvt (t : term) : Prop := wt t = true /\ is_bv_sort (sort_of t) = true.
  Lemma bvt_no_fraction t : bvt t -> as_fraction t = ROk None.
  Proof.
    intros [Hw Hb]. unfold as_fraction.
    assert (N : forall o l, t = TOp o l -> In o [OSub; OIntDiv; ORealDiv] -> False).
    { intros o l -> Ho. rewrite wt_op_sort' in Hb by exact Hw. cbn [In] in Ho. destruct Ho as [<-|[<-|[<-|[]]]]; cbn [op_sort] in Hb; try discriminate. destruct (existsb _ _); discriminate. }
    destruct (op1 OSub t) as [x|] eqn:E1; [apply op1_some in E1; exfalso; apply (N _ _ E1); cbn; tauto|]. unfold as_unsigned_fraction.
    destruct (op2 OIntDiv t) as [[x y]|] eqn:E2; [apply op2_some in E2; exfalso; apply (N _ _ E2); cbn; tauto|]. destruct (op2 ORealDiv t) as [[x y]|] eqn:E3; [apply op2_some in E3; exfalso; apply (N _ _ E3); cbn; tauto|].
    destruct t as [[]| | | | | | |]; try reflexivity; discriminate.
  Qed.
  Lemma pint_other t q p p' : bvt t -> int q -> pint p -> p_other meqb t q p = ROk p' -> pint p'.
  Proof.
    intros Ht Hq Hp. unfold p_other. rewrite (bvt_no_fraction t Ht). cbn [obind].
    assert (D : ROk (p_insert meqb p [t] q) = ROk p' -> pint p') by (intros H; injection H as <-; apply pint_insert; auto).
    destruct t as [[]| | | | | | |]; try exact D. intros H. injection H as <-. split; [apply Hp|]. cbn [snd]. apply int_add; [apply Hp|]. apply int_mul; [apply Qis_int_inject|exact Hq].
  Qed.
  Lemma pint_all (f : term -> poly -> outcome poly) l : (forall a p p', In a l -> pint p -> f a p = ROk p' -> pint p') -> forall p p', pint p -> p_add_all f l p = ROk p' -> pint p'.
  Proof.
    induction l as [|a l IH]; intros H p p' Hp E; cbn [p_add_all] in E; [injection E as <-; exact Hp|]. apply obind_ok in E. destruct E as [p1 [E1 E2]].
    apply (IH (fun b q q' Hb => H b q q' (or_intror Hb)) p1 p'); [eapply H; eauto; left; reflexivity|exact E2].
  Qed.
  Lemma pint_from (f : term -> outcome poly) l : (forall a p', In a l -> f a = ROk p' -> pint p') -> forall p p', pint p -> p_prod_from meqb srt f p l = ROk p' -> pint p'.
  Proof.
    induction l as [|a l IH]; intros H p p' Hp E; cbn [p_prod_from] in E; [injection E as <-; exact Hp|]. apply obind_ok in E. destruct E as [p1 [E1 E2]].
    apply (IH (fun b q Hb => H b q (or_intror Hb)) _ p' (pint_mul _ _ Hp (H _ _ (or_introl eq_refl) E1)) E2).
  Qed.
  Lemma pint_add t : forall q p p', bvt t -> int q -> pint p -> p_add_term meqb srt t q p = ROk p' -> pint p'.
  Proof.
    induction t as [c|x s|f l IHf H|o l H|s|b vs t IHt|bs t H IHt|o oa l Hoa H] using term_ind'; intros q p p' Ht Hq Hp E; try (eapply pint_other; eauto; fail).
    pose proof Ht as [Hw Hb]. rewrite wt_op_sort' in Hb by exact Hw. pose proof (wt_args _ _ Hw) as Ha. pose proof (proj2 (op_wt_of _ _ Hw)) as Ho. rewrite Forall_forall in H.
    assert (HO : forall p', p_other meqb (TOp o l) q p = ROk p' -> pint p') by (intros p1; apply pint_other; auto).
    assert (AR : In o [OAdd; OSub; OMult; ORealDiv; OToReal; OIntDiv] -> False).
    { intros K. cbn [In] in K. destruct K as [<-|[<-|[<-|[<-|[<-|[<-|[]]]]]]]; cbn [op_sort] in Hb; try discriminate; destruct (existsb _ _); discriminate. }
    assert (BV : forall oo, In oo [OBvAdd; OBvMul; OBvNeg; OBvSub] -> o = oo -> forall a, In a l -> bvt a).
    { intros oo Hin -> a Hi. split; [apply Ha; exact Hi|]. assert (G : forallb is_bv_sort (map sort_of l) = true).
      { cbn [In] in Hin. destruct Hin as [<-|[<-|[<-|[<-|[]]]]]; cbn [op_wt] in Ho.
        - rewrite !andb_true_iff in Ho. tauto.
        - rewrite !andb_true_iff in Ho. tauto.
        - destruct l as [|x [|? ?]]; try discriminate. cbn [map forallb] in *. rewrite Ho. reflexivity.
        - destruct l as [|x [|y [|? ?]]]; try discriminate. cbn [map forallb] in *. apply andb_true_iff in Ho. destruct Ho as [Ho1 Ho2]. apply sort_eqb_eq in Ho2. rewrite <- Ho2, Ho1. reflexivity. }
      rewrite forallb_forall in G. apply G. apply in_map. exact Hi. }
    cbn [p_add_term] in E. destruct (op_eqb o OAdd || op_eqb o OBvAdd) eqn:E1.
    { apply orb_true_iff in E1. destruct E1 as [E1|E1]; apply op_eqb_eq in E1; [exfalso; apply AR; subst; cbn; tauto|].
      eapply pint_all; [|exact Hp|exact E]. intros a r r' Hi Hr Er. apply (H a Hi q r r'); auto. apply (BV OBvAdd); cbn; auto. }
    destruct ((op_eqb o OSub || op_eqb o OBvNeg) && one_arg l) eqn:E2.
    { apply andb_true_iff in E2. destruct E2 as [E2 _]. apply orb_true_iff in E2. destruct E2 as [E2|E2]; apply op_eqb_eq in E2; [exfalso; apply AR; subst; cbn; tauto|].
      eapply pint_all; [|exact Hp|exact E]. intros a r r' Hi Hr Er. apply (H a Hi (- q)%Q r r'); auto; [|apply int_opp; auto]. apply (BV OBvNeg); cbn; auto. }
    destruct (op_eqb o OSub || op_eqb o OBvSub) eqn:E3.
    { apply orb_true_iff in E3. destruct E3 as [E3|E3]; apply op_eqb_eq in E3; [exfalso; apply AR; subst; cbn; tauto|].
      assert (B : forall a, In a l -> bvt a) by (intros a; apply (BV OBvSub); cbn; auto).
      destruct l as [|a l]; [discriminate|]. apply obind_ok in E. destruct E as [p1 [Ea E]]. eapply pint_all; [| |exact E].
      - intros x r r' Hi Hr Er. apply (H x (or_intror Hi) (- q)%Q r r'); auto; [apply B; right; exact Hi|apply int_opp; auto].
      - apply (H a (or_introl eq_refl) q p p1); auto. apply B. left; reflexivity. }
    destruct (op_eqb o OMult || op_eqb o OBvMul) eqn:E4.
    { apply orb_true_iff in E4. destruct E4 as [E4|E4]; apply op_eqb_eq in E4; [exfalso; apply AR; subst; cbn; tauto|].
      assert (B : forall a, In a l -> bvt a) by (intros a; apply (BV OBvMul); cbn; auto).
      apply obind_ok in E. destruct E as [r [Er E]]. assert (Hr : pint r).
      { destruct l as [|a l]; [discriminate|]. cbn [p_prod] in Er. apply obind_ok in Er. destruct Er as [p1 [Ea Er]]. eapply pint_from; [| |exact Er].
        - intros x r' Hi Ex. apply (H x (or_intror Hi) 1%Q p_new r'); auto; [apply B; right; exact Hi|reflexivity|apply pint_new].
        - apply (H a (or_introl eq_refl) 1%Q p_new p1); auto; [apply B; left; reflexivity|reflexivity|apply pint_new]. }
      injection E as <-. unfold p_inserts. pose proof (pint_fold (fun x => fst x) (fun x => snd x) (map (fun x => (fst x, snd x * q)%Q) (fst r))) as F.
      assert (F1 : forall x, In x (map (fun x : monomial * Q => (fst x, (snd x * q)%Q)) (fst r)) -> int (snd x)).
      { intros x Hx. apply in_map_iff in Hx. destruct Hx as [y [<- Hy]]. cbn [snd]. apply int_mul; auto. apply Hr, Hy. }
      specialize (F F1 p Hp). split; [apply F|]. cbn [snd]. apply int_add; [apply F|apply int_mul; [exact Hq|apply Hr]]. }
    destruct (op_eqb o ORealDiv) eqn:E5; [apply op_eqb_eq in E5; exfalso; apply AR; subst; cbn; tauto|]. destruct (op_eqb o OToReal) eqn:E6; [apply op_eqb_eq in E6; exfalso; apply AR; subst; cbn; tauto|].
    destruct (op_eqb o OIntDiv) eqn:E7; [apply op_eqb_eq in E7; exfalso; apply AR; subst; cbn; tauto|]. auto.
  Qed.
  Lemma modulo_some n p : pint p -> exists p', p_modulo n p = Some p'.
  Proof.
    intros [H1 H2]. unfold p_modulo, q_mod. unfold int in H2. rewrite H2. destruct p as [l q]. cbn [fst snd] in *. clear H2. assert (G : exists l', mod_coeffs n l = Some l').
    { induction l as [|[m c] l IH]; [exists []; reflexivity|]. cbn [mod_coeffs]. unfold q_mod. pose proof (H1 (m, c) (or_introl eq_refl)) as Hc. unfold int in Hc. cbn [snd] in Hc. rewrite Hc. destruct IH as [l' ->]; [intros x Hx; apply H1; right; exact Hx|]. eauto. }
    destruct G as [l' ->]. eauto.
  Qed.
  Lemma poly_simp_safe c ps args : clause_wt c = true -> forallb nodiv0 c = true -> r_poly_simp meqb srt c ps args <> RPanic.
  Proof.
    intros Hw Hd. unfold r_poly_simp. npstep. cbn [idx nth_error unwrap obind]. apply np_bind; [apply np_m_op2|]. intros [x y] H.
    pose proof H as HA. eapply concl_args in HA; eauto. destruct HA as (? & ? & ? & ?). cbn [fst snd] in *.
    unfold p_from_term. apply np_bind; [apply np_p_add; tauto|]. intros p Ep. apply np_bind; [apply np_p_add; tauto|]. intros p2 Eq.
    destruct (sort_of x) eqn:Es; try apply np_rassert.
    assert (Bx : bvt x) by (split; [tauto|rewrite Es; reflexivity]).
    assert (By : bvt y).
    { split; [tauto|]. apply m_op2_ok in H. cbn [fst snd] in H. subst. unfold clause_wt in Hw. cbn [forallb] in Hw. rewrite andb_true_r in Hw. apply bool_term_wt in Hw. apply op_wt_of in Hw. destruct Hw as [_ Hw]. cbn in Hw.
      rewrite Es, andb_true_r in Hw. apply sort_eqb_eq in Hw. rewrite <- Hw. reflexivity. }
    destruct (modulo_some (2 ^ Z.of_nat w)%Z p (pint_add _ _ _ _ Bx (eq_refl : int 1) pint_new Ep)) as [p' ->]. destruct (modulo_some (2 ^ Z.of_nat w)%Z p2 (pint_add _ _ _ _ By (eq_refl : int 1) pint_new Eq)) as [q' ->].
    cbn [unwrap obind]. apply np_rassert.
  Qed.
End PolyInt.
Lemma poly_simp_rel_safe c ps args : forallb (forallb nodiv0) ps = true -> r_poly_simp_rel c ps args <> RPanic.
Proof.
  intros Hd. unfold r_poly_simp_rel. npstep. npstep. cbn [idx nth_error unwrap obind]. apply np_bind; [apply np_premise|]. intros prem Hp. cbn [forallb] in Hd. rewrite andb_true_r in Hd.
  assert (Hn : nodiv0 prem = true).
  { unfold premise_term in Hp. match type of Hp with match ?l with _ => _ end = _ => destruct l as [|? [|? ?]]; try discriminate end. injection Hp as <-. cbn [forallb] in Hd. rewrite andb_true_r in Hd. exact Hd. }
  destruct (bv_case prem) as [[[c1 [x1 x2]] [c2 [y1 y2]]]|].
  - assert (B : forall u, bv_odd u <> RPanic) by (intros [[]| | | | | | |]; try discriminate; apply np_rassert). apply np_bind; [apply B|]. intros _ _. apply np_bind; [apply B|]. intros _ _. np.
  - assert (A2 : forall o u v, m_op2 o u = ROk v -> nodiv0 u = true -> nodiv0 (fst v) = true /\ nodiv0 (snd v) = true).
    { intros o u v E Hu. apply m_op2_ok in E. subst u. apply nodiv0_args in Hu. cbn [forallb] in Hu. rewrite andb_true_r in Hu. apply andb_true_iff in Hu. exact Hu. }
    assert (R : forall u, real_diff u <> RPanic) by (intros u; unfold real_diff; np).
    apply np_bind; [apply np_m_op2|]. intros ab H1. apply A2 in H1; [|exact Hn]. apply np_bind; [apply np_m_op2|]. intros a1 H2. apply A2 in H2; [|tauto]. apply np_bind; [apply np_m_op2|]. intros b1 H3. apply A2 in H3; [|tauto].
    apply np_bind; [apply R|]. intros x _. apply np_bind; [apply R|]. intros y _.
    assert (F : forall u, nodiv0 u = true -> as_fraction_err u <> RPanic) by (intros u Hu; unfold as_fraction_err; apply np_bind; [apply np_fraction; auto|intros; apply np_ok_or]).
    apply np_bind; [apply F; tauto|]. intros c1 _. apply np_bind; [apply F; tauto|]. intros c2 _. np.
Qed.

(** ** The pseudo-Boolean bit-blasting rules *)
Lemma np_for_i {A} (f : nat -> A -> outcome unit) l : (forall i a, In a l -> f i a <> RPanic) -> forall i, for_i f i l <> RPanic.
Proof. induction l as [|a l IH]; intros H i; cbn [for_i]; [discriminate|]. apply np_bind; [apply H; left; reflexivity|]. intros _ _. apply IH. intros j b Hb. apply H. right; exact Hb. Qed.
Lemma np_integer t : as_integer_err t <> RPanic.
Proof. unfold as_integer_err. apply np_ok_or. Qed.
Lemma np_width x : get_bit_width x <> RPanic.
Proof. unfold get_bit_width. destruct (sort_of x); discriminate. Qed.
Lemma np_pb_sum bv s : pb_sum bv s <> RPanic.
Proof.
  unfold pb_sum. apply np_bind; [apply np_width|]. intros w _. apply np_bind; [apply np_rassert|]. intros _ _. apply np_for_i. intros i e _. unfold pb_summand.
  apply np_bind; [np; try apply np_integer|]. intros [c [ix b]] _. apply np_bind; [apply np_integer|]. intros k _. np.
Qed.
Lemma np_pb_short pbb s : pb_short_sum pbb s <> RPanic.
Proof.
  unfold pb_short_sum. apply np_bind; [apply np_rassert|]. intros [] H. apply rassert_ok, Nat.leb_le in H.
  assert (G : forall l i, i + List.length l <= List.length pbb -> for_i (pb_short_summand pbb) i l <> RPanic); [|apply G; lia].
  induction l as [|e l IH]; intros i Hi; cbn [for_i]; [discriminate|]. cbn [List.length] in Hi. apply np_bind; [|intros _ _; apply IH; lia].
  unfold pb_short_summand. apply np_bind; [np; apply np_integer|]. intros r _. apply np_bind; [apply np_rassert|]. intros _ _. apply np_bind; [apply idx_lt; lia|]. intros; apply np_teq.
Qed.
Lemma np_constraint l r ls rs : pb_constraint l r ls rs <> RPanic.
Proof. unfold pb_constraint. destruct (as_op OBvPBbTerm l); np; try apply np_pb_sum; apply np_pb_short. Qed.
Lemma np_pattern o rel k c : c <> [] -> pb_pattern o rel k c <> RPanic.
Proof. intros Hc. destruct c as [|t c]; [congruence|]. unfold pb_pattern. np. Qed.
Lemma np_sign n s bv : 0 < n -> pb_sign n s bv <> RPanic.
Proof.
  intros Hn. unfold pb_sign. destruct n as [|n]; [lia|]. cbn [Nat.eqb]. destruct (as_op OBvPBbTerm bv); np; try apply np_integer.
Qed.
Lemma concl_args2 t c o lr ab : clause_wt (t :: c) = true -> m_op2 OEquals t = ROk lr -> m_op2 o (fst lr) = ROk ab -> wt (TOp o [fst ab; snd ab]) = true /\ wt (snd lr) = true.
Proof.
  intros Hw H1 H2. apply m_op2_ok in H1, H2. subst t. unfold clause_wt in Hw. cbn [forallb] in Hw. apply andb_true_iff in Hw. destruct Hw as [Hw _].
  unfold bool_term in Hw. apply andb_true_iff in Hw. destruct Hw as [Hw _]. apply op_wt_of in Hw. destruct Hw as [Hw _]. cbn [forallb] in Hw. rewrite andb_true_r in Hw.
  apply andb_true_iff in Hw. destruct Hw as [Hw1 Hw2]. rewrite H2 in Hw1. auto.
Qed.
Lemma np_spattern o k c : c <> [] -> pb_signed_pattern o k c <> RPanic.
Proof. intros Hc. destruct c as [|t c]; [congruence|]. unfold pb_signed_pattern. np. Qed.
Lemma spattern_pos o k c p n : pb_signed_pattern o k c = ROk p -> pos_clause c = true -> get_bit_width (fst (fst p)) = ROk n -> 0 < n.
Proof.
  intros H Hp Hn. unfold pb_signed_pattern in H. apply obind_ok in H. destruct H as [t [H0 H]]. apply obind_ok in H. destruct H as [lr [H1 H]]. apply obind_ok in H. destruct H as [xy [H2 H]].
  assert (E : fst p = xy). { repeat (apply obind_ok in H; destruct H as [? [_ H]]). injection H as <-. reflexivity. }
  rewrite E in Hn. destruct c as [|t' c]; [discriminate|]. injection H0 as ->. apply m_op2_ok in H1, H2. subst t. unfold pos_clause in Hp. cbn [forallb] in Hp. rewrite !andb_true_iff in Hp.
  destruct Hp as [[Hp _] _]. rewrite H2 in Hp. cbn [pos_args forallb] in Hp. apply andb_true_iff in Hp. destruct Hp as [Hp _]. unfold get_bit_width in Hn.
  destruct (sort_of (fst xy)) eqn:Es; try discriminate. injection Hn as ->. destruct n as [|m]; [discriminate|lia].
Qed.
Lemma wt_bitwise o a b : In o [OBvXor; OBvAnd] -> wt (TOp o [a; b]) = true -> exists n m, sort_of a = SBV n /\ sort_of b = SBV m.
Proof.
  intros Ho Hw. apply op_wt_of in Hw. destruct Hw as [_ Hw]. cbn [map] in Hw. cbn [In] in Ho. destruct Ho as [<-|[<-|[]]]; cbn in Hw;
    destruct (sort_of a) eqn:Ea; try discriminate; destruct (sort_of b) eqn:Eb; try discriminate; eauto.
Qed.
Lemma np_pb_bits t n : sort_of t = SBV n -> pb_bits t <> RPanic.
Proof. intros H. unfold pb_bits. rewrite H. destruct (as_op OBvPBbTerm t); discriminate. Qed.
Lemma np_for3 f : (forall b x y, wt b = true -> f b x y <> RPanic) -> forall bcs xs ys, forallb wt bcs = true -> for3 f bcs xs ys <> RPanic.
Proof.
  intros H. induction bcs as [|b bcs IH]; intros xs ys Hw; [destruct xs, ys; discriminate|]. destruct xs as [|x xs]; [discriminate|]. destruct ys as [|y ys]; [discriminate|].
  cbn [for3]. cbn [forallb] in Hw. apply andb_true_iff in Hw. apply np_bind; [apply H; tauto|]. intros _ _. apply IH. tauto.
Qed.
Lemma np_choice b : wt b = true -> pb_choice b <> RPanic.
Proof.
  intros Hw. unfold pb_choice. apply np_bind; [apply np_ok_or|]. intros vb Hv. apply np_bind; [np|]. intros cs _. apply np_bind; [|intros; np].
  unfold m_bind in Hv. apply ok_or_ok in Hv. destruct b as [| | | | |k vs body| |]; try discriminate. cbn [as_bind] in Hv. destruct k; try discriminate. injection Hv as <-. cbn [fst]. cbn [wt] in Hw. rewrite !andb_true_iff in Hw.
  apply idx_lt. destruct vs; [|cbn; lia]. exfalso. destruct Hw as [[? ?] ?]; discriminate.
Qed.
Lemma xor_bit_safe b x y : wt b = true -> pb_xor_bit b x y <> RPanic.
Proof.
  intros Hw. unfold pb_xor_bit. apply np_bind; [apply np_choice, Hw|]. intros cs _. apply np_bind; [apply np_rassert|]. intros [] H. apply rassert_ok, Nat.eqb_eq in H.
  destruct cs as [|c1 [|c2 [|c3 [|c4 [|? ?]]]]]; try discriminate. cbn [idx nth_error unwrap obind]. unfold isZ. np.
Qed.
Lemma and_bit_safe b x y : wt b = true -> pb_and_bit b x y <> RPanic.
Proof.
  intros Hw. unfold pb_and_bit. apply np_bind; [apply np_choice, Hw|]. intros cs _. apply np_bind; [apply np_rassert|]. intros [] H. apply rassert_ok, Nat.eqb_eq in H.
  destruct cs as [|c1 [|c2 [|c3 [|? ?]]]]; try discriminate. cbn [idx nth_error unwrap obind]. unfold isZ. np.
Qed.
Lemma unsigned_safe o rel k (f : (term * term) * (term * term) -> outcome unit) c : (forall p, f p <> RPanic) -> c <> [] -> (do p <- pb_pattern o rel k c ; f p) <> RPanic.
Proof. intros Hf Hc. apply np_bind; [apply np_pattern, Hc|]. intros p _. apply Hf. Qed.
Lemma signed_lt_safe o k c ps args : c <> [] -> pos_clause c = true -> r_pb_signed_lt o k c ps args <> RPanic.
Proof.
  intros Hc Hp. unfold r_pb_signed_lt. apply np_bind; [apply np_spattern, Hc|]. intros [[x y] [[sy gy] [gx sx]]] H. apply np_bind; [apply np_width|]. intros n Hn.
  pose proof (spattern_pos _ _ _ _ n H Hp Hn) as Hpos. apply np_bind; [apply np_sign, Hpos|]. intros _ _. apply np_bind; [apply np_sign, Hpos|]. intros _ _. apply np_constraint.
Qed.
Lemma signed_gt_safe o k c ps args : c <> [] -> pos_clause c = true -> r_pb_signed_gt o k c ps args <> RPanic.
Proof.
  intros Hc Hp. unfold r_pb_signed_gt. apply np_bind; [apply np_spattern, Hc|]. intros [[x y] [[sx gx] [gy sy]]] H. apply np_bind; [apply np_width|]. intros n Hn.
  pose proof (spattern_pos _ _ _ _ n H Hp Hn) as Hpos. apply np_bind; [apply np_sign, Hpos|]. intros _ _. apply np_bind; [apply np_sign, Hpos|]. intros _ _. apply np_constraint.
Qed.
Lemma pb_var_safe c ps args : c <> [] -> r_pb_var c ps args <> RPanic.
Proof.
  intros Hc. destruct c as [|t c]; [congruence|]. unfold r_pb_var. cbn [idx nth_error unwrap obind]. apply np_bind; [np|]. intros lr _. apply np_bind; [np|]. intros pbs _.
  apply np_for_i. intros i a _. apply np_bind; [apply np_ok_or|]. intros ib _. apply np_bind; [apply np_integer|]. intros. np.
Qed.
Lemma np_const_bits l : pb_const_bits l <> RPanic.
Proof. induction l as [|a l IH]; cbn [pb_const_bits]; [discriminate|]. apply np_bind; [apply np_integer|]. intros z _. np. exact IH. Qed.
Lemma pb_const_safe c ps args : c <> [] -> r_pb_const c ps args <> RPanic.
Proof.
  intros Hc. destruct c as [|t c]; [congruence|]. unfold r_pb_const. cbn [idx nth_error unwrap obind]. apply np_bind; [np|]. intros lr _. apply np_bind; [np|]. intros pbs _.
  destruct (fst lr) as [k| | | | | | |]; try discriminate. destruct k; try discriminate. apply np_bind; [apply np_rassert|]. intros _ _. apply np_bind; [apply np_const_bits|]. intros. np.
Qed.
Lemma bitwise_safe o f : In o [OBvXor; OBvAnd] -> (forall b x y, wt b = true -> f b x y <> RPanic) -> forall c ps args, c <> [] -> clause_wt c = true -> r_pb_bitwise o f c ps args <> RPanic.
Proof.
  intros Ho Hf c ps args Hc Hw. destruct c as [|t c]; [congruence|]. unfold r_pb_bitwise. cbn [idx nth_error unwrap obind]. apply np_bind; [np|]. intros lr H1. apply np_bind; [np|]. intros xy H2.
  destruct (concl_args2 _ _ _ _ _ Hw H1 H2) as [W1 W2]. destruct (wt_bitwise _ _ _ Ho W1) as [n [m [E1 E2]]]. apply np_bind; [np|]. intros bcs H3.
  apply np_bind; [eapply np_pb_bits; eauto|]. intros xs _. apply np_bind; [eapply np_pb_bits; eauto|]. intros ys _. apply np_for3; [exact Hf|].
  unfold m_ops in H3. apply ok_or_ok in H3. apply as_op_some in H3. rewrite H3 in W2. apply op_wt_of in W2. tauto.
Qed.
Lemma xor_ith_safe c ps args : c <> [] -> r_pb_xor_ith c ps args <> RPanic.
Proof.
  intros Hc. destruct c as [|t c]; [congruence|]. unfold r_pb_xor_ith. apply np_bind; [apply np_len_is|]. intros u H; apply len_is_ok in H. destruct args as [|x [|y [|? ?]]]; try discriminate.
  cbn [idx nth_error unwrap obind]. apply np_bind; [np|]. intros cs _. apply np_bind; [apply np_rassert|]. intros [] H1. apply rassert_ok, Nat.eqb_eq in H1.
  destruct cs as [|c1 [|c2 [|c3 [|c4 [|? ?]]]]]; try discriminate. cbn [idx nth_error unwrap obind]. np.
Qed.
Lemma and_ith_safe c ps args : c <> [] -> r_pb_and_ith c ps args <> RPanic.
Proof.
  intros Hc. destruct c as [|t c]; [congruence|]. unfold r_pb_and_ith. apply np_bind; [apply np_len_is|]. intros u H; apply len_is_ok in H. destruct args as [|x [|y [|? ?]]]; try discriminate.
  cbn [idx nth_error unwrap obind]. apply np_bind; [np|]. intros cs _. apply np_bind; [apply np_rassert|]. intros [] H1. apply rassert_ok, Nat.eqb_eq in H1.
  destruct cs as [|c1 [|c2 [|c3 [|? ?]]]]; try discriminate. cbn [idx nth_error unwrap obind]. np.
Qed.
