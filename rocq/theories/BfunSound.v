(** Rule bfun_elim: the fuel suffices; soundness. *)
From Coq Require Import List String Ascii ZArith QArith Bool Arith Lia.
From Verif Require Import Base Term Field Sem Sorting Rules Utils Polyeq Std PolyeqSound R_Simp R_AC Subst SubstSound SubstClean AlphaSound
  Checker CheckerSem Context ContextSound R_Binder BinderSound OnepointSound R_Quant QuantSound Refute PolyeqRefute R_Bfun.
Import ListNotations.
Local Open Scope nat_scope.
Local Notation doms I := (Forall2 (fun s v => idom I s v = true)).

(** ** Substituting leaves keeps the depth *)
Definition leaf_map (m : smap) : Prop := forall k v, sget m k = Some v -> is_var k = true /\ tdepth v = 1 /\ no_let v = true.
Lemma leaf_map_nil : leaf_map [].
Proof. intros k v H. discriminate. Qed.
Lemma leaf_map_sins m x s y s' : leaf_map m -> leaf_map (sins m (TVar x s) (TVar y s')).
Proof.
  intros H k v Hk. rewrite sget_sins in Hk. destruct (term_eqb k (TVar x s)) eqn:E; [|eauto].
  apply term_eqb_eq in E. subst. assert (v = TVar y s') by congruence. subst. auto.
Qed.
Lemma is_var_depth t : is_var t = true -> tdepth t = 1.
Proof. destruct t; try discriminate; reflexivity. Qed.
Lemma var_map_leaf m : var_map m -> leaf_map m.
Proof. intros H k v Hk. destruct (H _ _ Hk) as [H1 H2]. split; [auto|]. destruct v; try discriminate. auto. Qed.
Definition same_depth (t r : term) : Prop := tdepth r = tdepth t /\ (no_let t = true -> no_let r = true).
Definition inv_ld (S : sub) : Prop := leaf_map (sm S) /\ forall k r, sget (sc S) k = Some r -> same_depth k r.
Lemma inv_ld_of m : leaf_map m -> inv_ld (sub_of m).
Proof. intros H. split; [auto|]. intros k r Hk. discriminate. Qed.
Lemma inv_ld_names S : inv_ld S -> inv_ld (with_names S).
Proof. intros H. exact H. Qed.
Lemma inv_ld_insert S x s y s' : inv_ld S -> inv_ld (sub_insert S (TVar x s) (TVar y s')).
Proof.
  intros [H1 H2]. split; [apply leaf_map_sins; auto|]. intros k r Hk. cbn [sub_insert sc] in Hk.
  rewrite (sget_filter (fun t => negb (in_fvars (TVar x s) t))) in Hk. destruct (negb _); [auto|discriminate].
Qed.
Lemma inv_ld_cached S t r : inv_ld S -> same_depth t r -> inv_ld (cached S t r).
Proof.
  intros [H1 H2] H. split; [auto|]. intros k r' Hk. cbn [cached sc] in Hk. rewrite sget_sins in Hk.
  destruct (term_eqb k t) eqn:E; [apply term_eqb_eq in E; subst; assert (r' = r) by congruence; subst; auto|auto].
Qed.
Definition same_depths (l l' : list term) : Prop :=
  list_max (map tdepth l') = list_max (map tdepth l) /\ (forallb no_let l = true -> forallb no_let l' = true).
Lemma apply_seq_ld (f : sub -> term -> outcome sres) :
  (forall S t r S' ok, inv_ld S -> f S t = ROk (r, S', ok) -> inv_ld S' /\ same_depth t r) ->
  forall l S l' S' ok, inv_ld S -> apply_seq f S l = ROk (l', S', ok) -> inv_ld S' /\ same_depths l l'.
Proof.
  intros Hf. induction l as [|a l IH]; intros S l' S' ok Hi H; cbn [apply_seq] in H.
  - assert (l' = []) by congruence. assert (S' = S) by congruence. subst. split; [auto|]. split; auto.
  - apply obind_ok in H. destruct H as [[[a' S1] ok1] [H1 H]]. apply obind_ok in H. destruct H as [[[r' S2] ok2] [H2 H]].
    assert (l' = a' :: r') by congruence. assert (S2 = S') by congruence. subst. clear H.
    destruct (Hf _ _ _ _ _ Hi H1) as [A [B1 B2]]. destruct (IH _ _ _ _ A H2) as [C [D1 D2]]. split; [auto|]. split.
    + cbn [map list_max fold_right]. fold (list_max (map tdepth r')). fold (list_max (map tdepth l)). rewrite B1, D1. reflexivity.
    + cbn [forallb]. rewrite !andb_true_iff. intros [E1 E2]. auto.
Qed.
Lemma rename_lets_ld (app : sub -> term -> outcome sres) names :
  (forall S t r S' ok, inv_ld S -> app S t = ROk (r, S', ok) -> inv_ld S' /\ same_depth t r) ->
  forall bs newv R bs' R', inv_ld R -> rename_lets app names newv R bs = ROk (bs', R') ->
  inv_ld R' /\ list_max (map (fun p => tdepth (snd p)) bs') = list_max (map (fun p => tdepth (snd p)) bs).
Proof.
  intros Ha. induction bs as [|[x v] bs IH]; intros newv R bs' R' Hr H; cbn [rename_lets] in H.
  - assert (bs' = []) by congruence. assert (R' = R) by congruence. subst. auto.
  - apply obind_ok in H. destruct H as [[[v' R2] ok] [H1 H]]. apply obind_ok in H. destruct H as [[r' R3] [H2 H]].
    assert (bs' = (fresh (newv ++ names) x, v') :: r') by congruence. assert (R3 = R') by congruence. subst. clear H.
    assert (Hv : inv_ld (if negb (String.eqb x (fresh (newv ++ names) x)) then sub_insert R (TVar x (sort_of v)) (TVar (fresh (newv ++ names) x) (sort_of v)) else R)).
    { destruct (negb _); [apply inv_ld_insert|]; auto. }
    apply Ha in H1; auto. destruct H1 as [H1 [H1' _]]. apply IH in H2; auto. destruct H2 as [H2 H3]. split; [auto|]. cbn [map list_max fold_right snd].
    fold (list_max (map (fun p : string * term => tdepth (snd p)) r')). fold (list_max (map (fun p : string * term => tdepth (snd p)) bs)). rewrite H1', H3. reflexivity.
Qed.
Lemma apply_ld : forall n S t r S' ok, inv_ld S -> apply n S t = ROk (r, S', ok) -> inv_ld S' /\ same_depth t r.
Proof.
  induction n as [|n IH]; intros S t r S' ok Hi H; [discriminate|]. cbn [apply] in H.
  destruct (sget (sc S) t) as [v|] eqn:Ec.
  { assert (v = r) by congruence. assert (S = S') by congruence. subst. split; [auto|]. apply Hi; auto. }
  destruct (sget (sm S) t) as [v|] eqn:Em.
  { assert (v = r) by congruence. assert (S = S') by congruence. subst. split; [auto|]. destruct (proj1 Hi _ _ Em) as [H1 H2].
    split; [rewrite (is_var_depth t) by auto; tauto|]. intros _. tauto. }
  apply obind_ok in H. destruct H as [[[r0 S1] ok1] [H0 H]]. assert (r0 = r) by congruence. assert (S' = cached S1 t r) by congruence. subst. clear H.
  enough (inv_ld S1 /\ same_depth t r) as [A B] by (split; [apply inv_ld_cached; auto|auto]). clear Ec Em.
  assert (HS := apply_seq_ld _ IH).
  destruct t as [c|x s|f args|o args|s|b vs inner|bs inner|o oa args]; cbn [apply_body] in H0.
  - assert (r = TConst c) by congruence. assert (S1 = S) by congruence. subst. split; [auto|]. split; auto.
  - assert (r = TVar x s) by congruence. assert (S1 = S) by congruence. subst. split; [auto|]. split; auto.
  - apply obind_ok in H0. destruct H0 as [[[args' S2] ok2] [H1 H]]. apply obind_ok in H. destruct H as [[[f' S3] ok3] [H2 H]].
    assert (r = TApp f' args') by congruence. assert (S3 = S1) by congruence. subst. destruct (HS _ _ _ _ _ Hi H1) as [A [B1 B2]].
    destruct (IH _ _ _ _ _ A H2) as [C [D1 D2]]. split; [auto|]. split; [cbn [tdepth]; congruence|]. cbn [no_let]. rewrite !andb_true_iff. tauto.
  - apply obind_ok in H0. destruct H0 as [[[args' S2] ok2] [H1 H]]. assert (r = TOp o args') by congruence. assert (S2 = S1) by congruence. subst.
    destruct (HS _ _ _ _ _ Hi H1) as [A [B1 B2]]. split; [auto|]. split; [cbn [tdepth]; congruence|]. exact B2.
  - assert (r = TSort s) by congruence. assert (S1 = S) by congruence. subst. split; [auto|]. split; auto.
  - cbv zeta in H0. destruct (can_skip _ _ vs).
    { assert (r = TBind b vs inner) by congruence. assert (S1 = with_names S) by congruence. subst. split; [apply inv_ld_names; auto|]. split; auto. }
    destruct (rename_vars _ [] [] vs) as [vs' ren] eqn:Er. apply rename_vars_map in Er; [|apply var_map_nil]. apply var_map_leaf in Er. destruct ren as [|p ren].
    + apply obind_ok in H0. destruct H0 as [[[i' S2] ok2] [H1 H]]. assert (r = TBind b vs' i') by congruence. assert (S2 = S1) by congruence. subst.
      destruct (IH _ _ _ _ _ (inv_ld_names _ Hi) H1) as [A [B1 B2]]. split; [auto|]. split; [cbn [tdepth]; congruence|]. exact B2.
    + apply obind_ok in H0. destruct H0 as [[[i1 S2] ok2] [H1 H]]. apply obind_ok in H. destruct H as [[[i2 S3] ok3] [H2 H]].
      assert (r = TBind b vs' i2) by congruence. assert (S3 = S1) by congruence. subst.
      destruct (IH _ _ _ _ _ (inv_ld_of _ Er) H1) as [_ [A1 A2]]. destruct (IH _ _ _ _ _ (inv_ld_names _ Hi) H2) as [B [B1 B2]].
      split; [auto|]. split; [cbn [tdepth]; congruence|]. cbn [no_let]. auto.
  - apply obind_ok in H0. destruct H0 as [names [_ H]]. apply obind_ok in H. destruct H as [[bs' R] [H1 H]]. apply obind_ok in H. destruct H as [y [H2 H]].
    apply obind_ok in H. destruct H as [[[i2 S2] ok2] [H3 H]]. assert (r = TLet bs' i2) by congruence. assert (S2 = S1) by congruence. subst.
    apply (rename_lets_ld _ _ IH) in H1; [|apply inv_ld_of, leaf_map_nil]. destruct H1 as [HR Hb].
    assert (Hy : tdepth y = tdepth inner).
    { destruct (sm R); [congruence|]. apply obind_ok in H2. destruct H2 as [[[i1 S3] ok3] [H4 H5]]. destruct (IH _ _ _ _ _ HR H4) as [_ [A _]]. congruence. }
    destruct (IH _ _ _ _ _ Hi H3) as [A [B _]]. split; [auto|]. split; [cbn [tdepth]; congruence|discriminate].
  - apply obind_ok in H0. destruct H0 as [[[args' S2] ok2] [H1 H]]. assert (r = TPOp o oa args') by congruence. assert (S2 = S1) by congruence. subst.
    destruct (HS _ _ _ _ _ Hi H1) as [A [B1 B2]]. split; [auto|]. split; [cbn [tdepth]; congruence|]. exact B2.
Qed.

(** ** The fuel suffices *)
Lemma single_leaf x v : tdepth v = 1 -> no_let v = true -> leaf_map [(TVar (fst x) (snd x), v)].
Proof.
  intros H1 H2 k w Hk. unfold sget in Hk. cbn [im_get] in Hk. destruct (term_eqb k _) eqn:E; [|discriminate].
  apply term_eqb_eq in E. injection Hk as <-. subst. auto.
Qed.
Lemma subst1_total x v t : snd x = SBool -> (v = t_true \/ v = t_false) -> no_let t = true ->
  exists r ok, subst1 x v t = ROk (r, ok) /\ tdepth r = tdepth t /\ no_let r = true.
Proof.
  intros Hx Hv Hn. unfold subst1. assert (Hm : subst_new [(TVar (fst x) (snd x), v)] = ROk [(TVar (fst x) (snd x), v)]).
  { unfold subst_new. cbn [ofor fst snd is_var sort_of]. rewrite Hx. destruct Hv as [-> | ->]; reflexivity. }
  rewrite Hm. cbn [obind]. assert (Hl : leaf_map [(TVar (fst x) (snd x), v)]) by (apply single_leaf; destruct Hv as [-> | ->]; reflexivity).
  destruct (sub_apply (sub_of [(TVar (fst x) (snd x), v)]) t) as [[[r S'] ok]| |] eqn:E; cbn [obind].
  - exists r, ok. split; [reflexivity|]. unfold sub_apply in E. apply apply_ld in E; [|apply inv_ld_of; auto]. destruct E as [_ [E1 E2]]. auto.
  - exfalso. revert E. apply apply_fuel. auto.
  - exfalso. revert E. apply apply_nopanic. auto.
Qed.
Lemma first_step_total : forall rbs t, no_let t = true -> exists l ok, first_step rbs t = ROk (l, ok) /\ l <> [] /\
  Forall (fun u => tdepth u = tdepth t /\ no_let u = true) l.
Proof.
  induction rbs as [|x r IH]; intros t Hn; cbn [first_step].
  - exists [t], true. repeat split; [discriminate|]. repeat constructor; auto.
  - destruct (sort_eqb (snd x) SBool) eqn:Es; [|apply IH; auto]. apply sort_eqb_eq in Es.
    destruct (subst1_total x t_false t Es (or_intror eq_refl) Hn) as [a [oa [Ha [Da Na]]]]. rewrite Ha. cbn [obind fst snd].
    destruct (IH a Na) as [l0 [k0 [H0 [N0 F0]]]]. rewrite H0. cbn [obind fst snd].
    destruct (subst1_total x t_true t Es (or_introl eq_refl) Hn) as [b [ob [Hb [Db Nb]]]]. rewrite Hb. cbn [obind fst snd].
    destruct (IH b Nb) as [l1 [k1 [H1 [N1 F1]]]]. rewrite H1. cbn [obind fst snd]. eexists _, _. split; [reflexivity|].
    split; [destruct l0; [congruence|discriminate]|]. apply Forall_app. rewrite Da in F0. rewrite Db in F1. auto.
Qed.
Definition bfun_measure (t : term) : nat := 2 * tdepth t + match t with TBind _ _ _ => 1 | _ => 0 end.
Lemma list_max_in l t : In t l -> tdepth t <= list_max (map tdepth l).
Proof.
  intros H. assert (Hf : Forall (fun k => k <= list_max (map tdepth l)) (map tdepth l)) by (apply list_max_le; auto).
  rewrite Forall_forall in Hf. apply Hf, in_map, H.
Qed.
Lemma omap_total {A B} (f : A -> outcome B) l : (forall a, In a l -> exists b, f a = ROk b) -> exists bs, omap f l = ROk bs.
Proof.
  induction l as [|a l IH]; intros H; cbn [omap]; [eauto|]. destruct (H a (or_introl eq_refl)) as [b ->]. cbn [obind].
  destruct IH as [bs ->]; [intros x Hx; apply H; right; auto|]. cbn [obind]. eauto.
Qed.
Lemma measure_le t : bfun_measure t <= 2 * tdepth t + 1.
Proof. unfold bfun_measure. destruct t; lia. Qed.
Lemma bfun_args n args : (forall t, bfun_measure t < n -> no_let t = true -> exists r, bfun n t = ROk r) ->
  2 * list_max (map tdepth args) + 1 < n -> forallb no_let args = true -> exists l, omap (bfun n) args = ROk l.
Proof.
  intros IH Hd Hn. apply omap_total. intros a Ha. apply IH; [|rewrite forallb_forall in Hn; auto].
  pose proof (measure_le a). apply list_max_in in Ha. lia.
Qed.
Lemma bfun_fuel : forall n t, bfun_measure t < n -> no_let t = true -> exists r, bfun n t = ROk r.
Proof.
  induction n as [|n IH]; intros t Hm Hn; [lia|]. cbn [bfun].
  destruct t as [c|x s|f args|o args|s|b vs inner|bs inner|o oa args]; unfold bfun_measure in Hm; cbn [tdepth] in Hm; cbn [no_let] in Hn; eauto.
  - apply andb_true_iff in Hn. destruct Hn as [_ Hn]. destruct (bfun_args n args IH) as [l ->]; [lia|auto|]. cbn [obind]. eauto.
  - destruct (bfun_args n args IH) as [l ->]; [lia|auto|]. cbn [obind]. eauto.
  - pose proof (measure_le inner) as Hi.
    assert (Hq : forall o, exists r, (do l <- first_step (rev vs) inner ;
       (let ot := match fst l with [a] => a | _ => TOp o (fst l) end in
        do r <- bfun n ot ; ROk (match filter not_bool vs with [] => fst r | _ => TBind b (filter not_bool vs) (fst r) end, snd l && snd r))) = ROk r).
    { intros o. destruct (first_step_total (rev vs) inner Hn) as [l [ok [-> [Hl F]]]]. cbn [obind fst snd]. cbv zeta.
      assert (Hr : exists r, bfun n (match l with [a] => a | _ => TOp o l end) = ROk r).
      { destruct l as [|a [|b' l]]; [congruence| |].
        - apply IH; inversion F; subst; [|tauto]. pose proof (measure_le a). lia.
        - apply IH.
          + unfold bfun_measure. cbn [tdepth]. assert (list_max (map tdepth (a :: b' :: l)) <= tdepth inner); [|lia].
            apply list_max_le. apply Forall_map. revert F. apply Forall_impl. intros u [Hu _]. lia.
          + cbn [no_let]. apply forallb_forall. rewrite Forall_forall in F. intros u Hu. apply F; auto. }
      destruct Hr as [r ->]. cbn [obind]. eauto. }
    destruct b; [apply (Hq OAnd)|apply (Hq OOr)| |]; (destruct (IH inner) as [r ->]; [lia|auto|]); cbn [obind]; eauto.
  - discriminate.
Qed.
(** bfun_elim's transformation is total on terms without [let]. *)
Theorem bfun_total t : no_let t = true -> exists r, bfun_term t = ROk r.
Proof. intros H. apply bfun_fuel; auto. pose proof (measure_le t). lia. Qed.

(** ** Soundness *)
Section Sound.
  Context {I : interp}.
  Implicit Types E : env I.
  Lemma iall_bool (p : value I -> bool) : iall I SBool p = p (VB false) && p (VB true).
  Proof.
    apply eq_true_iff_eq. rewrite iall_spec, andb_true_iff. split.
    - intros H. split; apply H; reflexivity.
    - intros [H1 H2] v Hv. apply dom_bool in Hv. destruct Hv as [[|] ->]; auto.
  Qed.
  Lemma iall_and s (p q : value I -> bool) : iall I s (fun v => p v && q v) = iall I s p && iall I s q.
  Proof.
    apply eq_true_iff_eq. rewrite andb_true_iff, !iall_spec. split.
    - intros H. split; intros v Hv; specialize (H v Hv); apply andb_true_iff in H; tauto.
    - intros [H1 H2] v Hv. apply andb_true_iff. auto.
  Qed.
  Lemma eval_all_and vs : forall (f g : env I -> bool) E, eval_all vs (fun E' => f E' && g E') E = eval_all vs f E && eval_all vs g E.
  Proof.
    induction vs as [|[x s] r IH]; intros f g E; cbn [eval_all]; auto. rewrite <- iall_and. apply iall_ext. intros v Hv. apply IH.
  Qed.
End Sound.

Lemma subst1_sound x v t r : snd x = SBool -> (v = t_true \/ v = t_false) -> wt t = true -> subst1 x v t = ROk (r, true) ->
  wt r = true /\ sort_of r = sort_of t /\ forall (I : interp) (E : env I), eval r E = eval t (upd E (fst x) (snd x) (eval v E)).
Proof.
  intros Hx Hv Hw H. unfold subst1 in H. apply obind_ok in H. destruct H as [m [Hm H]].
  assert (m = [(TVar (fst x) (snd x), v)]) by (unfold subst_new in Hm; apply obind_ok in Hm; destruct Hm as [[] [_ Hm]]; congruence). subst m. clear Hm.
  destruct (sub_apply (sub_of [(TVar (fst x) (snd x), v)]) t) as [[[r' S'] ok]| |] eqn:E; try discriminate. cbn [obind fst snd] in H.
  injection H as -> ->. apply subst_one; auto.
  - destruct Hv as [-> | ->]; reflexivity.
  - rewrite Hx. destruct Hv as [-> | ->]; reflexivity.
  - destruct Hv as [-> | ->]; reflexivity.
  - unfold subst_flag. rewrite E. reflexivity.
  - unfold subst. rewrite E. reflexivity.
Qed.
Lemma first_step_wt : forall rbs t l, first_step rbs t = ROk (l, true) -> wt t = true ->
  l <> [] /\ Forall (fun u => wt u = true /\ sort_of u = sort_of t) l.
Proof.
  induction rbs as [|x r IH]; intros t l H Hw; cbn [first_step] in H.
  - injection H as <-. split; [discriminate|]. repeat constructor; auto.
  - destruct (sort_eqb (snd x) SBool) eqn:Es; [|apply IH; auto]. apply sort_eqb_eq in Es.
    ostepn H a Ha. destruct a as [a oa]. ostepn H l0 H0. destruct l0 as [l0 k0]. ostepn H b Hb. destruct b as [b ob]. ostepn H l1 H1. destruct l1 as [l1 k1].
    cbn [fst snd] in *. injection H as H Hk. rewrite !andb_true_iff in Hk. destruct Hk as [[-> ->] [-> ->]]. subst l.
    destruct (subst1_sound x t_false t a Es (or_intror eq_refl) Hw Ha) as [Wa [Sa _]].
    destruct (subst1_sound x t_true t b Es (or_introl eq_refl) Hw Hb) as [Wb [Sb _]].
    destruct (IH _ _ H0 Wa) as [N0 F0]. destruct (IH _ _ H1 Wb) as [N1 F1]. split; [destruct l0; [congruence|discriminate]|].
    apply Forall_app. rewrite Sa in F0. rewrite Sb in F1. auto.
Qed.
Section Sound2.
  Context {I : interp}.
  Implicit Types E : env I.
  Lemma first_step_sound q : forall rbs t l W E, first_step rbs t = ROk (l, true) -> wt t = true -> env_ok E ->
    forallb not_bool W = true ->
    eval_all (rev rbs ++ W) (fun E' => sgn q (holds E' t)) E =
    eval_all (filter not_bool (rev rbs) ++ W) (fun E' => forallb (fun u => sgn q (holds E' u)) l) E.
  Proof.
    induction rbs as [|x r IH]; intros t l W E H Hw HE HW; cbn [first_step] in H; cbn [rev].
    - injection H as <-. cbn [filter app]. apply eval_all_ext. intros vals _. cbn [forallb]. rewrite andb_true_r. reflexivity.
    - rewrite <- app_assoc. cbn [app]. rewrite filter_app. cbn [filter]. unfold not_bool at 2. destruct (sort_eqb (snd x) SBool) eqn:Es; cbn [negb].
      + rewrite app_nil_r. pose proof Es as Eb. apply sort_eqb_eq in Es.
        ostepn H a Ha. destruct a as [a oa]. ostepn H l0 H0. destruct l0 as [l0 k0]. ostepn H b Hb. destruct b as [b ob]. ostepn H l1 H1. destruct l1 as [l1 k1].
        cbn [fst snd] in *. injection H as H Hk. rewrite !andb_true_iff in Hk. destruct Hk as [[-> ->] [-> ->]]. subst l.
        destruct (subst1_sound x t_false t a Es (or_intror eq_refl) Hw Ha) as [Wa [_ Va]].
        destruct (subst1_sound x t_true t b Es (or_introl eq_refl) Hw Hb) as [Wb [_ Vb]].
        rewrite (eval_all_same q _ ((rev r ++ W) ++ [x]) t E HE).
        2:{ intros y s _. rewrite !in_app_iff. cbn [In]. tauto. }
        rewrite eval_all_app.
        transitivity (eval_all (rev r ++ W) (fun E' => sgn q (holds E' a) && sgn q (holds E' b)) E).
        { apply eval_all_ext. intros vals _. destruct x as [x s]. cbn [fst snd] in *. subst s. cbn [eval_all]. rewrite iall_bool. unfold holds. rewrite Va, Vb. reflexivity. }
        rewrite eval_all_and, (IH _ _ W E H0 Wa HE HW), (IH _ _ W E H1 Wb HE HW), <- eval_all_and.
        apply eval_all_ext. intros vals _. rewrite forallb_app. reflexivity.
      + rewrite (IH _ _ (x :: W) E H Hw HE).
        * rewrite <- app_assoc. reflexivity.
        * cbn [forallb]. rewrite HW. unfold not_bool. rewrite Es. reflexivity.
  Qed.
End Sound2.

(** [second_step] keeps sorts and values *)
Lemma list_eqb_app_mid (a a' : sort) l r ss : a = a' -> list_eqb sort_eqb ss (l ++ a :: r) = list_eqb sort_eqb ss (l ++ a' :: r).
Proof. intros ->. reflexivity. Qed.
Lemma wt_app_args f l l' : wt (TApp f l) = true -> forallb wt l' = true -> map sort_of l' = map sort_of l -> wt (TApp f l') = true.
Proof. cbn [wt]. rewrite !andb_true_iff. intros [[H1 H2] H3] H4 H5. rewrite H5. auto. Qed.
Lemma wt_app_parts f l : wt (TApp f l) = true -> forallb wt l = true.
Proof. cbn [wt]. rewrite !andb_true_iff. tauto. Qed.
Lemma sort_app f l l' : sort_of (TApp f l) = sort_of (TApp f l').
Proof. reflexivity. Qed.
Lemma second_step_sound f : forall args done, wt (TApp f (done ++ args)) = true ->
  wt (second_step f done args) = true /\ sort_of (second_step f done args) = sort_of (TApp f []) /\
  forall (I : interp) (E : env I), env_ok E -> eval (second_step f done args) E = eval (TApp f (done ++ args)) E.
Proof.
  induction args as [|a r IH]; intros done Hw; cbn [second_step].
  - rewrite app_nil_r in *. auto.
  - pose proof (wt_app_parts _ _ Hw) as Wl. rewrite forallb_app in Wl. cbn [forallb] in Wl. rewrite !andb_true_iff in Wl. destruct Wl as [Wd [Wa Wr]].
    assert (Hc : (done ++ a :: r)%list = ((done ++ [a]) ++ r)%list) by (rewrite <- app_assoc; reflexivity).
    destruct (sort_eqb (sort_of a) SBool) eqn:Es; cbn [andb].
    2:{ rewrite Hc in *. apply IH. exact Hw. }
    destruct (negb (term_eqb a t_false) && negb (term_eqb a t_true)).
    2:{ rewrite Hc in *. apply IH. exact Hw. }
    apply sort_eqb_eq in Es.
    assert (Hk : forall c, c = t_true \/ c = t_false -> wt (TApp f ((done ++ [c]) ++ r)) = true).
    { intros c Hk. apply (wt_app_args _ _ _ Hw).
      - rewrite !forallb_app. cbn [forallb]. rewrite Wd, Wr. destruct Hk as [-> | ->]; reflexivity.
      - rewrite !map_app. cbn [map]. rewrite <- app_assoc. cbn [app]. rewrite Es. destruct Hk as [-> | ->]; reflexivity. }
    destruct (IH (done ++ [t_true])%list (Hk _ (or_introl eq_refl))) as [W1 [S1 V1]].
    destruct (IH (done ++ [t_false])%list (Hk _ (or_intror eq_refl))) as [W2 [S2 V2]].
    split; [|split].
    + cbn [wt forallb map]. rewrite Wa, W1, W2, Es, S1, S2. cbn [andb op_wt]. rewrite !sort_eqb_refl. reflexivity.
    + cbn [sort_of map op_sort nth]. rewrite S1. reflexivity.
    + intros I E HE. rewrite eval_ite, (V1 I E HE), (V2 I E HE). cbn [eval]. rewrite !map_app. cbn [map].
      rewrite <- !app_assoc. cbn [app]. rewrite (eval_bool a E) by (auto; unfold bool_term; rewrite Wa, Es; reflexivity).
      destruct (holds E a); reflexivity.
Qed.
Lemma Forall2_length_map {A B} (R : A -> B -> Prop) l m : Forall2 R l m -> List.length l = List.length m.
Proof. induction 1; cbn; auto. Qed.

Definition bfun_inv (t t' : term) : Prop := wt t' = true /\ sort_of t' = sort_of t /\
  forall (I : interp) (E : env I), env_ok E -> eval t' E = eval t E.
Lemma omap_bfun n : (forall t r, bfun n t = ROk (r, true) -> wt t = true -> bfun_inv t r) ->
  forall args l, omap (bfun n) args = ROk l -> forallb snd l = true -> forallb wt args = true ->
  forallb wt (map fst l) = true /\ map sort_of (map fst l) = map sort_of args /\
  forall (I : interp) (E : env I), env_ok E -> map (fun a => eval a E) (map fst l) = map (fun a => eval a E) args.
Proof.
  intros IH. induction args as [|a args IHa]; intros l H Hk Hw; cbn [omap] in H.
  - injection H as <-. auto.
  - ostepn H b Hb. ostepn H bs Hbs. injection H as <-. destruct b as [b ok]. cbn [forallb snd map fst] in *.
    rewrite andb_true_iff in Hk, Hw. destruct Hk as [-> Hk], Hw as [Wa Wr].
    destruct (IH _ _ Hb Wa) as [A1 [A2 A3]]. destruct (IHa _ Hbs Hk Wr) as [B1 [B2 B3]].
    split; [rewrite A1; auto|]. split; [congruence|]. intros I E HE. rewrite A3, B3; auto.
Qed.
Theorem bfun_sound : forall n t r, bfun n t = ROk (r, true) -> wt t = true -> bfun_inv t r.
Proof.
  induction n as [|n IH]; intros t r H Hw; [discriminate|]. cbn [bfun] in H.
  assert (Hself : forall u, ROk (u, true) = ROk (r, true) -> wt u = true -> bfun_inv u r).
  { intros u Hu Wu. injection Hu as <-. repeat split; auto. }
  destruct t as [c|x s|f args|o args|s|b vs inner|bs inner|o oa args]; auto.
  - ostepn H l Hl. injection H as <- Hk. pose proof (wt_app_parts _ _ Hw) as Wa.
    destruct (omap_bfun n IH _ _ Hl Hk Wa) as [A1 [A2 A3]].
    assert (Wl : wt (TApp f ([] ++ map fst l)) = true) by (apply (wt_app_args _ _ _ Hw); auto).
    destruct (second_step_sound f (map fst l) [] Wl) as [B1 [B2 B3]]. split; [auto|]. split; [rewrite B2; apply sort_app|].
    intros I E HE. rewrite B3 by auto. cbn [app eval]. rewrite A3; auto.
  - ostepn H l Hl. injection H as <- Hk. destruct (wt_op_args _ _ Hw) as [Wa Wo].
    destruct (omap_bfun n IH _ _ Hl Hk Wa) as [A1 [A2 A3]].
    assert (W' : wt (TOp o (map fst l)) = true) by (cbn [wt]; rewrite A1, A2; auto).
    split; [auto|]. split; [rewrite !wt_op_sort by auto; congruence|]. intros I E HE. cbn [eval]. rewrite A3; auto.
  - assert (Hq : forall q o, b = q -> q = BForall \/ q = BExists -> o = match q with BForall => OAnd | _ => OOr end ->
       (do l <- first_step (rev vs) inner ;
       (let ot := match fst l with [a] => a | _ => TOp o (fst l) end in
        do r <- bfun n ot ; ROk (match filter not_bool vs with [] => fst r | _ => TBind b (filter not_bool vs) (fst r) end, snd l && snd r))) = ROk (r, true) ->
       bfun_inv (TBind b vs inner) r).
    { clear H. intros q o Eb Hq Ho H. subst b. pose proof (quant_body _ _ _ Hq Hw) as Bi. pose proof (bool_term_wt _ Bi) as Wi. pose proof (bool_term_sort _ Bi) as Si.
      ostepn H l Hl. destruct l as [l ok]. cbv zeta in H. cbn [fst snd] in H. set (ot := match l with [a] => a | _ => TOp o l end) in *.
      ostepn H p Hp. destruct p as [p okp]. cbn [fst snd] in H. injection H as Hr Hk. apply andb_true_iff in Hk. destruct Hk as [-> ->].
      destruct (first_step_wt _ _ _ Hl Wi) as [Nl Fl].
      assert (Bl : forall u, In u l -> bool_term u = true).
      { intros u Hu. rewrite Forall_forall in Fl. destruct (Fl u Hu) as [H1 H2]. unfold bool_term. rewrite H1, H2, Si. reflexivity. }
      assert (Bot : bool_term ot = true).
      { unfold ot. destruct l as [|a [|b l]]; [congruence|apply Bl; left; auto|].
        assert (Hs : op_wt o (map sort_of (a :: b :: l)) = true /\ op_sort o (map sort_of (a :: b :: l)) = SBool /\ o <> OBvConst).
        { assert (Hall : forallb (sort_eqb SBool) (map sort_of (a :: b :: l)) = true).
          { apply forallb_forall. intros s Hs. apply in_map_iff in Hs. destruct Hs as [u [<- Hu]]. rewrite (bool_term_sort u (Bl u Hu)). apply sort_eqb_refl. }
          subst o. destruct q; cbn [op_wt op_sort]; rewrite ?Hall; repeat split; try discriminate; auto. }
        destruct Hs as [Hs1 [Hs2 Hs3]]. unfold bool_term. rewrite sort_of_op by auto. rewrite Hs2, sort_eqb_refl, andb_true_r.
        assert (Wall : forallb wt (a :: b :: l) = true) by (apply forallb_forall; intros u Hu; apply bool_term_wt; auto).
        cbn [wt]. rewrite Hs1, andb_true_r. exact Wall. }
      pose proof (bool_term_wt _ Bot) as Wot. pose proof (bool_term_sort _ Bot) as Sot.
      assert (Vot : forall (I : interp) (E : env I), sgn q (holds E ot) = forallb (fun u => sgn q (holds E u)) l).
      { intros I E. unfold ot. destruct l as [|a [|b l]]; [congruence|cbn [forallb]; rewrite andb_true_r; reflexivity|].
        subst o. destruct Hq as [-> | ->].
        - unfold sgn. cbn [binder_beq]. rewrite holds_and. reflexivity.
        - change (negb (holds E (TOp OOr (a :: b :: l))) = forallb (fun u => negb (holds E u)) (a :: b :: l)). rewrite holds_or.
          generalize (a :: b :: l). intros k. induction k as [|u k IHk]; cbn [existsb forallb]; [reflexivity|]. rewrite negb_orb, IHk. reflexivity. }
      destruct (IH _ _ Hp Wot) as [Wp [Sp Vp]].
      assert (Vr : forall (I : interp) (E : env I), env_ok E -> sgn q (holds E (TBind q vs inner)) = eval_all (filter not_bool vs) (fun E' => sgn q (holds E' p)) E).
      { intros I E HE. rewrite holds_quant by auto.
        pose proof (first_step_sound q (rev vs) inner l [] E Hl Wi HE eq_refl) as F. rewrite rev_involutive, !app_nil_r in F. rewrite F.
        apply eval_all_ext. intros vals Hd. rewrite <- Vot. unfold holds. rewrite Vp; [reflexivity|]. apply env_ok_upds; auto. }
      assert (Wq : bool_term (TBind q vs inner) = true) by (unfold bool_term; rewrite Hw, quant_sort by auto; reflexivity).
      destruct (filter not_bool vs) as [|v vs'] eqn:Ef.
      - subst r. split; [auto|]. split; [rewrite Sp, Sot, quant_sort; auto|]. intros I E HE.
        rewrite (eval_bool p E), (eval_bool (TBind q vs inner) E) by (auto; unfold bool_term; rewrite Wp, Sp, Sot; reflexivity).
        f_equal. apply (sgn_inj q). symmetry. rewrite (Vr I E HE). reflexivity.
      - assert (Wr : bool_term (TBind q (v :: vs') p) = true).
        { unfold bool_term. rewrite quant_sort by auto. cbn [wt]. rewrite Wp, Sp, Sot. destruct Hq as [-> | ->]; reflexivity. }
        subst r. split; [apply bool_term_wt; auto|]. split; [rewrite !quant_sort; auto|]. intros I E HE.
        rewrite (eval_bool (TBind q (v :: vs') p) E), (eval_bool (TBind q vs inner) E) by auto.
        f_equal. apply (sgn_inj q). rewrite (Vr I E HE). apply holds_quant. auto. }
    destruct b; [apply (Hq BForall OAnd); auto|apply (Hq BExists OOr); auto| |]; clear Hq; ostepn H p Hp; destruct p as [p ok]; cbn [fst snd] in H; injection H as <- ->.
    + pose proof Hw as Hw'. cbn [wt] in Hw'. rewrite !andb_true_iff in Hw'. destruct Hw' as [[Wi Hl] [Hc Hb]].
      destruct (IH _ _ Hp Wi) as [A1 [A2 A3]]. split; [cbn [wt]; rewrite A1, A2, Hl, Hc, Hb; reflexivity|]. split; [reflexivity|].
      intros I E HE. cbn [eval]. rewrite A2. apply eval_bind_ext2; auto. intros vals Hd. apply A3. apply env_ok_upds; auto.
    + pose proof Hw as Hw'. cbn [wt] in Hw'. rewrite !andb_true_iff in Hw'. destruct Hw' as [[Wi Hl] _].
      destruct (IH _ _ Hp Wi) as [A1 [A2 A3]]. split; [cbn [wt]; rewrite A1, Hl; reflexivity|]. split; [cbn [sort_of]; rewrite A2; reflexivity|].
      intros I E HE. cbn [eval]. rewrite A2. apply eval_bind_ext2; auto. intros vals Hd. apply A3. apply env_ok_upds; auto.
  - ostepn H p Hp. destruct p as [p ok]. cbn [fst snd] in H. injection H as <- ->.
    pose proof Hw as Hw'. cbn [wt] in Hw'. rewrite andb_true_iff in Hw'. destruct Hw' as [Wb Wi].
    destruct (IH _ _ Hp Wi) as [A1 [A2 A3]]. split; [cbn [wt]; rewrite Wb, A1; reflexivity|]. split; [exact A2|].
    intros I E HE. cbn [eval]. apply A3. apply env_ok_upds; auto. rewrite map_map. cbn [snd].
    clear - Wb HE. induction bs as [|[x v] bs IHb]; cbn [map]; constructor; cbn [forallb snd] in Wb; apply andb_true_iff in Wb; destruct Wb as [H1 H2].
    + apply eval_dom; auto.
    + apply IHb; auto.
Qed.

(** ** The rule *)
(** The conditions: nothing is captured by the substitutions, and the comparison with the conclusion is on terms where it
    is sound (PolyeqSound.v). *)
Definition bfun_ok (c : clause) (prems : list clause) (_ : list term) : bool :=
  match c, prems with
  | [g], [[psi]] =>
      match bfun_term psi with
      | ROk (e, ok) => ok && std_term g && std_term e
      | _ => false
      end
  | _, _ => false
  end.

Lemma polyeq_std a b : polyeq a b = ROk true -> wt a = true -> wt b = true -> std_term a = true -> std_term b = true ->
  forall (I : interp) (E : env I), env_ok E -> eval a E = eval b E.
Proof. intros H Wa Wb Sa Sb. apply std_term_spec in Sa, Sb. apply polyeq_sound; tauto. Qed.
Lemma assert_polyeq_ok a b u : assert_polyeq a b = ROk u -> polyeq a b = ROk true.
Proof. unfold assert_polyeq. destruct (polyeq a b) as [[|]| |]; cbn; congruence. Qed.
Theorem bfun_elim_sound c ps args : r_bfun_elim c ps args = ROk tt -> bfun_ok c ps args = true -> clause_wt c = true ->
  forallb clause_wt ps = true -> entails ps c.
Proof.
  intros H Hok Hw Hwp. destruct c as [|g [|g' c]]; try discriminate. destruct ps as [|[|psi [|psi' p]] [|q ps]]; try discriminate.
  unfold bfun_ok in Hok. destruct (bfun_term psi) as [[e ok]| |] eqn:Eb; try discriminate. rewrite !andb_true_iff in Hok. destruct Hok as [[-> Sg] Se].
  unfold r_bfun_elim in H. cbn [len_is rassert List.length Nat.eqb obind idx nth_error unwrap premise_term] in H. rewrite Eb in H. cbn [obind fst] in H.
  apply assert_polyeq_ok in H. apply clause_wt_one in Hw. cbn [forallb] in Hwp. rewrite andb_true_r in Hwp. apply clause_wt_one in Hwp.
  destruct (bfun_sound _ _ _ Eb (bool_term_wt _ Hwp)) as [We [Ss V]].
  intros I E HE Hp. specialize (Hp [psi] (or_introl eq_refl)). apply one_holds. apply one_holds in Hp. rewrite <- Hp. unfold holds. f_equal.
  rewrite <- (V I E HE). apply polyeq_std; auto. apply bool_term_wt; auto.
Qed.
(** A bound variable is renamed to a name that is free in its scope: with x' false, the premise
    (not (forall ((x Bool)) (exists ((x Bool) (x Bool)) x'))) is true; renaming the inner variables to x' and x'' captures
    x', so that its elimination amounts to (not true). *)
Definition bfun_bad : term := tNot (TBind BForall [("x", SBool)] (TBind BExists [("x", SBool); ("x", SBool)] (TVar "x'" SBool))).
Lemma bfun_elim_refuted : rule_refuted r_bfun_elim.
Proof.
  pose (e := match bfun_term bfun_bad with ROk (e, _) => e | _ => tTrue end). vm_compute in e.
  exists [e], [[bfun_bad]], []. split; [vm_compute; reflexivity|]. split; [reflexivity|]. split; [reflexivity|].
  intros I. destruct (env_with (I := I) "x'" SBool (VB false) eq_refl) as [E [HE Hx]]. exists E. split; [exact HE|]. split.
  - intros p [<-|[]]. apply one_holds. unfold bfun_bad. rewrite holds_not. apply negb_true_iff. apply (sgn_inj BForall).
    rewrite holds_quant by auto. change (sgn BForall false) with false. cbn [eval_all]. rewrite iall_bool. apply andb_false_iff. left. change (sgn BForall ?b) with b.
    apply (sgn_inj BExists). rewrite holds_quant by auto. change (sgn BExists false) with true. apply eval_all_true. intros vals Hd.
    inversion Hd as [|s1 v1 ss1 vs1 D1 D2]; subst. inversion D2 as [|s2 v2 ss2 vs2 D3 D4]; subst. inversion D4; subst.
    change (negb (truth (E "x'" SBool)) = true). rewrite Hx. reflexivity.
  - intros Hc. apply one_holds in Hc. unfold e in Hc. vm_compute in Hc. discriminate.
Qed.

(** ** ite_intro *)
Lemma std_op o l a : std_term (TOp o l) = true -> In a l -> std_term a = true.
Proof.
  unfold std_term, std_lits, scoped. cbn [all_sub]. rewrite !andb_true_iff, !forallb_forall. intros [[_ H1] [_ H2]] Ha. split; auto.
Qed.
Lemma aand_ok a b : aand a b = ROk true -> a = ROk true /\ b = ROk true.
Proof. unfold aand. destruct a as [[|]| |]; cbn [obind]; intros H; try discriminate. auto. Qed.
Lemma aor_ok a b : aor a b = ROk true -> a = ROk true \/ b = ROk true.
Proof. unfold aor. destruct a as [[|]| |]; cbn [obind]; intros H; try discriminate; auto. Qed.
Definition good (t : term) : Prop := wt t = true /\ std_term t = true.
Lemma good_op o l a : good (TOp o l) -> In a l -> good a.
Proof. intros [H1 H2] Ha. split; [|eapply std_op; eauto]. apply wt_op_args in H1. destruct H1 as [H1 _]. rewrite forallb_forall in H1. auto. Qed.
Lemma polyeq_good a b : polyeq a b = ROk true -> good a -> good b -> forall (I : interp) (E : env I), env_ok E -> eval a E = eval b E.
Proof. intros H [H1 H2] [H3 H4]. apply polyeq_std; auto. Qed.
Lemma ite_valid_sound cond r1 s1 r2 s2 : ite_valid cond r1 s1 r2 s2 = ROk true -> good cond -> good r1 -> good s1 -> good r2 -> good s2 ->
  forall (I : interp) (E : env I), env_ok E -> if holds E cond then eval r1 E = eval s1 E else eval r2 E = eval s2 E.
Proof.
  intros H G0 G1 G2 G3 G4 I E HE. unfold ite_valid in H. apply aand_ok in H. destruct H as [H1 H].
  destruct (op3 OIte s1) as [[[a b] c]|] eqn:E3; [|discriminate]. apply op3_some in E3. subst s1.
  apply aand_ok in H. destruct H as [H Hc]. apply aand_ok in H. destruct H as [Ha Hb].
  assert (Ga : good a) by (eapply good_op; [exact G2|cbn; auto]). assert (Gb : good b) by (eapply good_op; [exact G2|cbn; auto]).
  assert (Gc : good c) by (eapply good_op; [exact G2|cbn; auto]).
  pose proof (polyeq_good _ _ H1 G2 G4 I E HE) as V1. pose proof (polyeq_good _ _ Ha Ga G0 I E HE) as Va.
  pose proof (polyeq_good _ _ Hb Gb G1 I E HE) as Vb. pose proof (polyeq_good _ _ Hc Gc G3 I E HE) as Vc.
  rewrite <- V1, eval_ite. unfold holds in *. rewrite Va. destruct (truth (eval cond E)); congruence.
Qed.
Lemma ite_def_sound u x : ite_def u = ROk x -> good u -> forall (I : interp) (E : env I), env_ok E -> holds E u = true.
Proof.
  intros H G I E HE. unfold ite_def in H. ostepn H p Hp. destruct p as [[cond e1] e2]. apply m_op3_ok in Hp. cbn [fst snd] in Hp. subst u.
  assert (G0 : good cond) by (eapply good_op; [exact G|cbn; auto]). assert (G1 : good e1) by (eapply good_op; [exact G|cbn; auto]).
  assert (G2 : good e2) by (eapply good_op; [exact G|cbn; auto]).
  ostepn H ab Hab. destruct ab as [a b]. apply m_op2_ok in Hab. cbn [fst snd] in Hab. subst e1.
  ostepn H cd Hcd. destruct cd as [c d]. apply m_op2_ok in Hcd. cbn [fst snd] in Hcd. subst e2.
  assert (Ga : good a) by (eapply good_op; [exact G1|cbn; auto]). assert (Gb : good b) by (eapply good_op; [exact G1|cbn; auto]).
  assert (Gc : good c) by (eapply good_op; [exact G2|cbn; auto]). assert (Gd : good d) by (eapply good_op; [exact G2|cbn; auto]).
  ostepn H v Hv. apply rassert_ok in H. subst v.
  assert (V : if holds E cond then eval a E = eval b E else eval c E = eval d E).
  { apply aor_ok in Hv. destruct Hv as [Hv|Hv]; [apply aor_ok in Hv; destruct Hv as [Hv|Hv]; [apply aor_ok in Hv; destruct Hv as [Hv|Hv]|]|];
      pose proof (ite_valid_sound _ _ _ _ _ Hv) as V; specialize (V ltac:(auto) ltac:(auto) ltac:(auto) ltac:(auto) ltac:(auto) I E HE);
      destruct (holds E cond); congruence. }
  rewrite holds_ite. destruct (holds E cond); apply (holds_eq_iff E); exact V.
Qed.
Definition ite_intro_ok (c : clause) (_ : list clause) (_ : list term) : bool := forallb std_term c.
Theorem ite_intro_sound c ps args : r_ite_intro c ps args = ROk tt -> ite_intro_ok c ps args = true -> clause_wt c = true ->
  forallb clause_wt ps = true -> entails ps c.
Proof.
  intros H Hok Hw _ I E HE _. unfold r_ite_intro in H. ostepn H u0 Hl. apply len_is_ok, len1 in Hl. destruct Hl as [g ->].
  cbn [idx nth_error unwrap obind] in H. unfold ite_intro_ok in Hok. cbn [forallb] in Hok. rewrite andb_true_r in Hok. apply clause_wt_one in Hw.
  ostepn H tu Ht. destruct tu as [t u]. apply m_op2_ok in Ht. cbn [fst snd] in Ht. subst g.
  assert (G : good (TOp OEquals [t; u])) by (split; [apply bool_term_wt|]; auto).
  assert (Gt : good t) by (eapply good_op; [exact G|cbn; auto]). assert (Gu : good u) by (eapply good_op; [exact G|cbn; auto]).
  apply holds_tEq. ostepn H e He. destruct e; [eapply polyeq_good; eauto|].
  ostepn H us Hus. apply m_ops_ok in Hus. subst u. ostepn H u1 Hu1. ostepn H x Hx. apply assert_polyeq_ok in Hx. ostepn H y Hy.
  destruct us as [|u2 us]; [discriminate|]. cbn in Hu1. injection Hu1 as ->. cbn [skipn] in Hy.
  assert (V : forallb (holds E) us = true).
  { apply forallb_forall. intros v Hv. destruct (ofor_ok _ _ _ Hy v Hv) as [b Hb]. eapply ite_def_sound; eauto. eapply good_op; [exact Gu|cbn; auto]. }
  assert (G1 : good u1) by (eapply good_op; [exact Gu|cbn; auto]). pose proof (polyeq_good _ _ Hx G1 Gt I E HE) as V1.
  assert (Bt : bool_term t = true /\ bool_term (TOp OAnd (u1 :: us)) = true).
  { apply bool_eq_r; [|rewrite wt_op_sort; [reflexivity|apply Gu]]. exact Hw. }
  rewrite (eval_bool t E), (eval_bool (TOp OAnd (u1 :: us)) E) by tauto. f_equal.
  rewrite holds_and. cbn [forallb]. rewrite V, andb_true_r. unfold holds. rewrite V1. reflexivity.
Qed.
Lemma ite_intro_refuted : rule_refuted r_ite_intro.
Proof.
  exists [tEq (TOp ORealDiv [tInt 2; TOp OSub [tInt 1]]) (TConst (CReal (-1 # 2)))], [], [].
  split; [vm_compute; reflexivity|]. split; [vm_compute; reflexivity|]. split; [reflexivity|].
  intros I. destruct (env_exists (I := I)) as [E HE]. exists E. split; [exact HE|]. split; [intros p []|].
  intros Hc. apply tEq_holds in Hc. revert Hc. apply polyeq_refuted_neg.
Qed.
