(** Substitution: termination, and the meaning of the result. *)
From Coq Require Import List String Ascii ZArith QArith Bool Arith Lia.
From Verif Require Import Base Term Field Sem Sorting Rules Utils Polyeq PolyeqSound R_Simp Subst.
Import ListNotations.
Local Open Scope nat_scope.

(** ** Fresh names *)
Lemma str_len_app a b : String.length (a ++ b) = String.length a + String.length b.
Proof. induction a; cbn; auto. Qed.
Fixpoint primes (k : nat) (x : string) : string := match k with 0 => x | S n => primes n (x ++ "'")%string end.
Lemma primes_len k : forall x, String.length (primes k x) = String.length x + k.
Proof. induction k as [|k IH]; intros x; cbn [primes]; [lia|]. rewrite IH, str_len_app. cbn. lia. Qed.
Lemma smem_In x l : smem x l = true <-> In x l.
Proof. unfold smem. rewrite existsb_exists. split; [intros [y [H E]]; apply String.eqb_eq in E; subst; auto|intros H; exists x; rewrite String.eqb_refl; auto]. Qed.
Lemma fresh_none fuel avoid : forall x, fresh_name fuel avoid x = None -> forall k, k < fuel -> In (primes k x) avoid.
Proof.
  induction fuel as [|n IH]; intros x H k Hk; [lia|]. cbn [fresh_name] in H. destruct (smem x avoid) eqn:E; [|discriminate].
  destruct k as [|k]; [apply smem_In; auto|]. cbn [primes]. apply IH; [auto|lia].
Qed.
Lemma fresh_name_some avoid x : exists y, fresh_name (S (List.length avoid)) avoid x = Some y.
Proof.
  destruct (fresh_name (S (List.length avoid)) avoid x) eqn:E; [eauto|]. exfalso.
  pose proof (fresh_none _ _ _ E) as H.
  assert (Hnd : NoDup (map (fun k => primes k x) (seq 0 (S (List.length avoid))))).
  { apply FinFun.Injective_map_NoDup; [|apply seq_NoDup]. intros a b Hab.
    apply (f_equal String.length) in Hab. rewrite !primes_len in Hab. lia. }
  apply (NoDup_incl_length) with (l' := avoid) in Hnd.
  - rewrite map_length, seq_length in Hnd. lia.
  - intros y Hy. apply in_map_iff in Hy. destruct Hy as [k [<- Hk]]. apply H. apply in_seq in Hk. lia.
Qed.
Lemma fresh_name_notin fuel avoid : forall x y, fresh_name fuel avoid x = Some y -> ~ In y avoid.
Proof.
  induction fuel as [|n IH]; intros x y H; [discriminate|]. cbn [fresh_name] in H. destruct (smem x avoid) eqn:E; [eauto|].
  assert (x = y) by congruence. subst. intros Hx. apply smem_In in Hx. congruence.
Qed.
Lemma fresh_notin avoid x : ~ In (fresh avoid x) avoid.
Proof. unfold fresh. destruct (fresh_name_some avoid x) as [y E]. rewrite E. eapply fresh_name_notin; eauto. Qed.
Lemma fresh_same avoid x : ~ In x avoid -> fresh avoid x = x.
Proof. intros H. unfold fresh. cbn [fresh_name]. destruct (smem x avoid) eqn:E; [apply smem_In in E; contradiction|reflexivity]. Qed.

(** ** Size and fuel *)
Definition var_map (m : smap) : Prop := forall k v, sget m k = Some v -> is_var k = true /\ is_var v = true.
Lemma sget_sins m x t k : sget (sins m x t) k = if term_eqb k x then Some t else sget m k.
Proof. apply (im_get_insert term_eqb term_eqb_eq). Qed.
Lemma var_map_nil : var_map [].
Proof. intros k v H. discriminate. Qed.
Lemma var_map_sins m x s y s' : var_map m -> var_map (sins m (TVar x s) (TVar y s')).
Proof.
  intros H k v Hk. rewrite sget_sins in Hk. destruct (term_eqb k (TVar x s)) eqn:E; [|eauto].
  apply term_eqb_eq in E. subst. assert (v = TVar y s') by congruence. subst. auto.
Qed.
Lemma rename_vars_map sb vs : forall newv ren vs' ren', rename_vars sb newv ren vs = (vs', ren') -> var_map ren -> var_map ren'.
Proof.
  induction vs as [|[x s] vs IH]; intros newv ren vs' ren' H Hr; cbn [rename_vars] in H; [assert (ren' = ren) by congruence; subst; auto|].
  destruct (rename_vars _ _ _ vs) as [r' ren''] eqn:E. assert (ren'' = ren') by congruence. subst.
  eapply IH; [exact E|]. destruct (negb (String.eqb x (fresh (newv ++ sb) x))); [apply var_map_sins|]; auto.
Qed.
Lemma is_var_size t : is_var t = true -> tsize t = 1.
Proof. destruct t; try discriminate; reflexivity. Qed.


Lemma sget_filter (g : term -> bool) (m : smap) k : sget (filter (fun p => g (fst p)) m) k = if g k then sget m k else None.
Proof.
  unfold sget. induction m as [|[a b] m IH]; cbn [filter fst im_get]; [destruct (g k); reflexivity|].
  destruct (g a) eqn:Ea; cbn [im_get]; rewrite IH; destruct (term_eqb k a) eqn:E.
  - apply term_eqb_eq in E. subst. rewrite Ea. reflexivity.
  - reflexivity.
  - apply term_eqb_eq in E. subst. rewrite Ea. reflexivity.
  - reflexivity.
Qed.
(** renaming variables keeps the size, and introduces no [let] *)
Definition same_shape (t r : term) : Prop := tsize r = tsize t /\ (no_let t = true -> no_let r = true).
Definition inv_vm (S : sub) : Prop := var_map (sm S) /\ forall k r, sget (sc S) k = Some r -> same_shape k r.
Lemma inv_vm_of m : var_map m -> inv_vm (sub_of m).
Proof. intros H. split; [auto|]. intros k r Hk. discriminate. Qed.
Lemma inv_vm_names S : inv_vm S -> inv_vm (with_names S).
Proof. intros H. exact H. Qed.
Lemma inv_vm_insert S x s y s' : inv_vm S -> inv_vm (sub_insert S (TVar x s) (TVar y s')).
Proof.
  intros [H1 H2]. split; [apply var_map_sins; auto|]. intros k r Hk. cbn [sub_insert sc] in Hk.
  rewrite (sget_filter (fun t => negb (in_fvars (TVar x s) t))) in Hk. destruct (negb _); [auto|discriminate].
Qed.
Lemma inv_vm_cached S t r : inv_vm S -> same_shape t r -> inv_vm (cached S t r).
Proof.
  intros [H1 H2] H. split; [auto|]. intros k r' Hk. cbn [cached sc] in Hk. rewrite sget_sins in Hk.
  destruct (term_eqb k t) eqn:E; [apply term_eqb_eq in E; subst; assert (r' = r) by congruence; subst; auto|auto].
Qed.
Definition same_shapes (l l' : list term) : Prop :=
  list_sum (map tsize l') = list_sum (map tsize l) /\ (forallb no_let l = true -> forallb no_let l' = true).
Lemma apply_seq_vm (f : sub -> term -> outcome sres) :
  (forall S t r S' ok, inv_vm S -> f S t = ROk (r, S', ok) -> inv_vm S' /\ same_shape t r) ->
  forall l S l' S' ok, inv_vm S -> apply_seq f S l = ROk (l', S', ok) -> inv_vm S' /\ same_shapes l l'.
Proof.
  intros Hf. induction l as [|a l IH]; intros S l' S' ok Hi H; cbn [apply_seq] in H.
  - assert (l' = []) by congruence. assert (S' = S) by congruence. subst. split; [auto|]. split; auto.
  - apply obind_ok in H. destruct H as [[[a' S1] ok1] [H1 H]]. apply obind_ok in H. destruct H as [[[r' S2] ok2] [H2 H]].
    assert (l' = a' :: r') by congruence. assert (S2 = S') by congruence. subst. clear H.
    destruct (Hf _ _ _ _ _ Hi H1) as [A [B1 B2]]. destruct (IH _ _ _ _ A H2) as [C [D1 D2]]. split; [auto|]. split.
    + cbn [map list_sum fold_right]. fold (list_sum (map tsize r')). fold (list_sum (map tsize l)). rewrite B1, D1. reflexivity.
    + cbn [forallb]. rewrite !andb_true_iff. intros [E1 E2]. auto.
Qed.
Lemma rename_lets_vm (app : sub -> term -> outcome sres) names :
  (forall S t r S' ok, inv_vm S -> app S t = ROk (r, S', ok) -> inv_vm S' /\ same_shape t r) ->
  forall bs newv R bs' R', inv_vm R -> rename_lets app names newv R bs = ROk (bs', R') ->
  inv_vm R' /\ list_sum (map (fun p => tsize (snd p)) bs') = list_sum (map (fun p => tsize (snd p)) bs).
Proof.
  intros Ha. induction bs as [|[x v] bs IH]; intros newv R bs' R' Hr H; cbn [rename_lets] in H.
  - assert (bs' = []) by congruence. assert (R' = R) by congruence. subst. auto.
  - apply obind_ok in H. destruct H as [[[v' R2] ok] [H1 H]]. apply obind_ok in H. destruct H as [[r' R3] [H2 H]].
    assert (bs' = (fresh (newv ++ names) x, v') :: r') by congruence. assert (R3 = R') by congruence. subst. clear H.
    assert (Hv : inv_vm (if negb (String.eqb x (fresh (newv ++ names) x)) then sub_insert R (TVar x (sort_of v)) (TVar (fresh (newv ++ names) x) (sort_of v)) else R)).
    { destruct (negb _); [apply inv_vm_insert|]; auto. }
    apply Ha in H1; auto. destruct H1 as [H1 [H1' _]]. apply IH in H2; auto. destruct H2 as [H2 H3]. split; [auto|]. cbn [map list_sum fold_right snd].
    fold (list_sum (map (fun p : string * term => tsize (snd p)) r')). fold (list_sum (map (fun p : string * term => tsize (snd p)) bs)). rewrite H1', H3. reflexivity.
Qed.
Lemma apply_vm : forall n S t r S' ok, inv_vm S -> apply n S t = ROk (r, S', ok) -> inv_vm S' /\ same_shape t r.
Proof.
  induction n as [|n IH]; intros S t r S' ok Hi H; [discriminate|]. cbn [apply] in H.
  destruct (sget (sc S) t) as [v|] eqn:Ec.
  { assert (v = r) by congruence. assert (S = S') by congruence. subst. split; [auto|]. apply Hi; auto. }
  destruct (sget (sm S) t) as [v|] eqn:Em.
  { assert (v = r) by congruence. assert (S = S') by congruence. subst. split; [auto|]. destruct (proj1 Hi _ _ Em) as [H1 H2].
    split; [rewrite !is_var_size; auto|]. intros _. destruct r; try discriminate. reflexivity. }
  apply obind_ok in H. destruct H as [[[r0 S1] ok1] [H0 H]]. assert (r0 = r) by congruence. assert (S' = cached S1 t r) by congruence. subst. clear H.
  enough (inv_vm S1 /\ same_shape t r) as [A B] by (split; [apply inv_vm_cached; auto|auto]). clear Ec Em.
  assert (HS := apply_seq_vm _ IH).
  destruct t as [c|x s|f args|o args|s|b vs inner|bs inner|o oa args]; cbn [apply_body] in H0.
  - assert (r = TConst c) by congruence. assert (S1 = S) by congruence. subst. split; [auto|]. split; auto.
  - assert (r = TVar x s) by congruence. assert (S1 = S) by congruence. subst. split; [auto|]. split; auto.
  - apply obind_ok in H0. destruct H0 as [[[args' S2] ok2] [H1 H]]. apply obind_ok in H. destruct H as [[[f' S3] ok3] [H2 H]].
    assert (r = TApp f' args') by congruence. assert (S3 = S1) by congruence. subst. destruct (HS _ _ _ _ _ Hi H1) as [A [B1 B2]].
    destruct (IH _ _ _ _ _ A H2) as [C [D1 D2]]. split; [auto|]. split; [cbn [tsize]; congruence|]. cbn [no_let]. rewrite !andb_true_iff. tauto.
  - apply obind_ok in H0. destruct H0 as [[[args' S2] ok2] [H1 H]]. assert (r = TOp o args') by congruence. assert (S2 = S1) by congruence. subst.
    destruct (HS _ _ _ _ _ Hi H1) as [A [B1 B2]]. split; [auto|]. split; [cbn [tsize]; congruence|]. exact B2.
  - assert (r = TSort s) by congruence. assert (S1 = S) by congruence. subst. split; [auto|]. split; auto.
  - cbv zeta in H0. destruct (can_skip _ _ vs).
    { assert (r = TBind b vs inner) by congruence. assert (S1 = with_names S) by congruence. subst. split; [apply inv_vm_names; auto|]. split; auto. }
    destruct (rename_vars _ [] [] vs) as [vs' ren] eqn:Er. apply rename_vars_map in Er; [|apply var_map_nil]. destruct ren as [|p ren].
    + apply obind_ok in H0. destruct H0 as [[[i' S2] ok2] [H1 H]]. assert (r = TBind b vs' i') by congruence. assert (S2 = S1) by congruence. subst.
      destruct (IH _ _ _ _ _ (inv_vm_names _ Hi) H1) as [A [B1 B2]]. split; [auto|]. split; [cbn [tsize]; congruence|]. exact B2.
    + apply obind_ok in H0. destruct H0 as [[[i1 S2] ok2] [H1 H]]. apply obind_ok in H. destruct H as [[[i2 S3] ok3] [H2 H]].
      assert (r = TBind b vs' i2) by congruence. assert (S3 = S1) by congruence. subst.
      destruct (IH _ _ _ _ _ (inv_vm_of _ Er) H1) as [_ [A1 A2]]. destruct (IH _ _ _ _ _ (inv_vm_names _ Hi) H2) as [B [B1 B2]].
      split; [auto|]. split; [cbn [tsize]; congruence|]. cbn [no_let]. auto.
  - apply obind_ok in H0. destruct H0 as [names [_ H]]. apply obind_ok in H. destruct H as [[bs' R] [H1 H]]. apply obind_ok in H. destruct H as [y [H2 H]].
    apply obind_ok in H. destruct H as [[[i2 S2] ok2] [H3 H]]. assert (r = TLet bs' i2) by congruence. assert (S2 = S1) by congruence. subst.
    apply (rename_lets_vm _ _ IH) in H1; [|apply inv_vm_of, var_map_nil]. destruct H1 as [HR Hb].
    assert (Hy : tsize y = tsize inner).
    { destruct (sm R); [congruence|]. apply obind_ok in H2. destruct H2 as [[[i1 S3] ok3] [H4 H5]]. destruct (IH _ _ _ _ _ HR H4) as [_ [A _]]. congruence. }
    destruct (IH _ _ _ _ _ Hi H3) as [A [B _]]. split; [auto|]. split; [cbn [tsize]; congruence|discriminate].
  - apply obind_ok in H0. destruct H0 as [[[args' S2] ok2] [H1 H]]. assert (r = TPOp o oa args') by congruence. assert (S2 = S1) by congruence. subst.
    destruct (HS _ _ _ _ _ Hi H1) as [A [B1 B2]]. split; [auto|]. split; [cbn [tsize]; congruence|]. exact B2.
Qed.

Lemma in_sum a l : In a l -> tsize a <= list_sum (map tsize l).
Proof. induction l as [|b l IH]; intros []; cbn [map list_sum fold_right]; fold (list_sum (map tsize l)); [subst; lia|specialize (IH H); lia]. Qed.
Lemma apply_seq_noerr (f : sub -> term -> outcome sres) (bad : outcome sres) : (bad = RErr \/ bad = RPanic) -> forall l S, (forall a S, In a l -> f S a <> bad) ->
  match bad with RErr => apply_seq f S l <> RErr | _ => apply_seq f S l <> RPanic end.
Proof.
  intros [-> | ->]; induction l as [|a l IH]; intros S H; cbn [apply_seq]; try discriminate;
  (pose proof (H a S (or_introl eq_refl)) as H1; destruct (f S a) as [[[a' S1] ok1]| |]; cbn [obind]; try congruence;
   pose proof (IH S1 (fun b S' Hb => H b S' (or_intror Hb))) as H2;
   destruct (apply_seq f S1 l) as [[[r' S2] ok2]| |]; cbn [obind]; congruence).
Qed.
Lemma rename_lets_noerr (app : sub -> term -> outcome sres) names : forall bs newv R,
  (forall R x v, In (x, v) bs -> app R v <> RErr) -> rename_lets app names newv R bs <> RErr.
Proof.
  induction bs as [|[x v] bs IH]; intros newv R H; cbn [rename_lets]; [discriminate|].
  match goal with |- obind (app ?m v) _ <> _ => pose proof (H m x v (or_introl eq_refl)) as H1; destruct (app m v) as [[[v' R2] ok]| |] end; cbn [obind]; try congruence.
  match goal with |- obind (rename_lets app names ?a ?b bs) _ <> _ => pose proof (IH a b (fun m y w Hy => H m y w (or_intror Hy))) as H2;
    destruct (rename_lets app names a b bs) as [[r' R']| |] end; cbn [obind]; congruence.
Qed.
(** The fuel suffices. *)
Theorem apply_fuel : forall n S t, tsize t <= n -> apply n S t <> RErr.
Proof.
  induction n as [|n IH]; intros S t Hn; [destruct t; cbn [tsize] in Hn; lia|]. cbn [apply].
  destruct (sget (sc S) t) as [v|]; [discriminate|]. destruct (sget (sm S) t) as [v|]; [discriminate|].
  enough (HB : apply_body (apply n) S t <> RErr) by (destruct (apply_body (apply n) S t) as [[[r S1] ok]| |]; cbn [obind]; congruence).
  assert (HA : forall args S, list_sum (map tsize args) <= n -> apply_seq (apply n) S args <> RErr).
  { intros args S0 Hs. apply (apply_seq_noerr (apply n) RErr); [auto|]. intros a S1 Ha. apply IH. apply in_sum in Ha. lia. }
  destruct t as [c|x s|f args|o args|s|b vs inner|bs inner|o oa args]; cbn [apply_body]; try discriminate; cbn [tsize] in Hn.
  - specialize (HA args S ltac:(lia)). destruct (apply_seq _ _ _) as [[[l' S1] ok1]| |]; cbn [obind]; try congruence.
    pose proof (IH S1 f ltac:(lia)) as Hf. destruct (apply n S1 f) as [[[f' S2] ok2]| |]; cbn [obind]; congruence.
  - specialize (HA args S ltac:(lia)). destruct (apply_seq _ _ _) as [[[l' S1] ok1]| |]; cbn [obind]; congruence.
  - cbv zeta. destruct (can_skip _ _ _); [discriminate|]. destruct (rename_vars _ _ _ _) as [vs' ren] eqn:Er.
    apply rename_vars_map in Er; [|apply var_map_nil]. destruct ren as [|p ren].
    + pose proof (IH (with_names S) inner ltac:(lia)) as H1. destruct (apply n _ inner) as [[[f' S2] ok2]| |]; cbn [obind]; congruence.
    + pose proof (IH (sub_of (p :: ren)) inner ltac:(lia)) as H1. destruct (apply n (sub_of (p :: ren)) inner) as [[[i1 S2] ok2]| |] eqn:E1; cbn [obind]; try congruence.
      apply apply_vm in E1; [|apply inv_vm_of; auto]. destruct E1 as [_ [E1 _]]. pose proof (IH (with_names S) i1 ltac:(lia)) as H2.
      destruct (apply n _ i1) as [[[f' S3] ok3]| |]; cbn [obind]; congruence.
  - set (N := match bs with [] => _ | _ => _ end). assert (HN : N <> RErr) by (unfold N; destruct bs, (sb S); discriminate). destruct N as [names| |]; cbn [obind]; try congruence.
    assert (HB : rename_lets (apply n) names [] sub_empty bs <> RErr).
    { apply rename_lets_noerr. intros m0 x v Hv. apply IH.
      assert (tsize v <= list_sum (map (fun p => tsize (snd p)) bs)); [|lia].
      rewrite <- map_map. apply (in_sum v (map snd bs)). apply in_map_iff. exists (x, v). auto. }
    destruct (rename_lets _ _ _ _ _) as [[bs' R]| |] eqn:Eb; cbn [obind]; try congruence.
    apply (rename_lets_vm _ _ (apply_vm n)) in Eb; [|apply inv_vm_of, var_map_nil]. destruct Eb as [HR _].
    set (Y := match sm R with [] => _ | _ => _ end). assert (HY : Y <> RErr /\ forall y, Y = ROk y -> tsize y = tsize inner).
    { unfold Y. destruct (sm R); [split; congruence|]. pose proof (IH R inner ltac:(lia)) as H1. destruct (apply n R inner) as [[[i1 S2] ok2]| |] eqn:E1; cbn [obind]; split; try congruence.
      apply apply_vm in E1; auto. destruct E1 as [_ [E1 _]]. intros y Hy. congruence. }
    destruct HY as [HY1 HY2]. destruct Y as [y| |]; cbn [obind]; try congruence. specialize (HY2 y eq_refl).
    pose proof (IH S y ltac:(lia)) as H2. destruct (apply n S y) as [[[f' S3] ok3]| |]; cbn [obind]; congruence.
  - specialize (HA args S ltac:(lia)). destruct (apply_seq _ _ _) as [[[l' S1] ok1]| |]; cbn [obind]; congruence.
Qed.
(** Without [let] there is no panic. *)
Theorem apply_nopanic : forall n S t, no_let t = true -> apply n S t <> RPanic.
Proof.
  induction n as [|n IH]; intros S t Hn; [discriminate|]. cbn [apply].
  destruct (sget (sc S) t) as [v|]; [discriminate|]. destruct (sget (sm S) t) as [v|]; [discriminate|].
  enough (HB : apply_body (apply n) S t <> RPanic) by (destruct (apply_body (apply n) S t) as [[[r S1] ok]| |]; cbn [obind]; congruence).
  assert (HA : forall args S, forallb no_let args = true -> apply_seq (apply n) S args <> RPanic).
  { intros args S0 Ha. apply (apply_seq_noerr (apply n) RPanic); [auto|]. intros a S1 Hi. apply IH. rewrite forallb_forall in Ha. auto. }
  destruct t as [c|x s|f args|o args|s|b vs inner|bs inner|o oa args]; cbn [apply_body]; try discriminate; cbn [no_let] in Hn.
  - apply andb_true_iff in Hn. destruct Hn as [Hn1 Hn2]. specialize (HA args S Hn2). destruct (apply_seq _ _ _) as [[[l' S1] ok1]| |]; cbn [obind]; try congruence.
    pose proof (IH S1 f Hn1) as Hf. destruct (apply n S1 f) as [[[f' S2] ok2]| |]; cbn [obind]; congruence.
  - specialize (HA args S Hn). destruct (apply_seq _ _ _) as [[[l' S1] ok1]| |]; cbn [obind]; congruence.
  - cbv zeta. destruct (can_skip _ _ _); [discriminate|]. destruct (rename_vars _ _ _ _) as [vs' ren] eqn:Er.
    apply rename_vars_map in Er; [|apply var_map_nil]. destruct ren as [|p ren].
    + pose proof (IH (with_names S) inner Hn) as H1. destruct (apply n _ inner) as [[[f' S2] ok2]| |]; cbn [obind]; congruence.
    + pose proof (IH (sub_of (p :: ren)) inner Hn) as H1. destruct (apply n (sub_of (p :: ren)) inner) as [[[i1 S2] ok2]| |] eqn:E1; cbn [obind]; try congruence.
      apply apply_vm in E1; [|apply inv_vm_of; auto]. destruct E1 as [_ [_ E1]]. pose proof (IH (with_names S) i1 (E1 Hn)) as H2.
      destruct (apply n _ i1) as [[[f' S3] ok3]| |]; cbn [obind]; congruence.
  - specialize (HA args S Hn). destruct (apply_seq _ _ _) as [[[l' S1] ok1]| |]; cbn [obind]; congruence.
Qed.

(** ** Meaning of the result *)
(** the environment after the substitution *)
Definition sub_env {I : interp} (m : smap) (E : env I) : env I :=
  fun x s => match sget m (TVar x s) with Some v => eval v E | None => E x s end.
(** the keys are variables, the values are terms of the same sort whose free variables are found by [fvars] *)
Definition good_map (m : smap) : Prop := forall k v, sget m k = Some v ->
  exists x s, k = TVar x s /\ sort_of v = s /\ wt v = true /\ (forall y s', free_in y s' v = true -> In (y, s') (fvars v)).
Definition sb_ok (m : smap) (sb : list string) : Prop := forall k v, sget m k = Some v -> incl (sbr1 k v) sb.
Definition sb_ok' (m : smap) (sb : option (list string)) : Prop := match sb with None => True | Some l => sb_ok m l end.
Lemma sget_In m k v : sget m k = Some v -> In (k, v) m.
Proof.
  unfold sget. induction m as [|[a b] m IH]; cbn [im_get]; [discriminate|]. destruct (term_eqb k a) eqn:E; intros H; [|right; auto].
  apply term_eqb_eq in E. left. congruence.
Qed.
Lemma sb_ok_of m : sb_ok m (sbr_of m).
Proof. intros k v H y Hy. unfold sbr_of. apply in_flat_map. exists (k, v). split; [apply sget_In; auto|auto]. Qed.

Section Meaning.
  Context {I : interp}.
  Implicit Types E : env I.
  Lemma eval_all_ext2 vs : forall vs' (f g : env I -> bool) E E', map snd vs' = map snd vs ->
    (forall vals, Forall2 (fun s v => idom I s v = true) (map snd vs) vals -> f (upds E vs' vals) = g (upds E' vs vals)) ->
    eval_all vs' f E = eval_all vs g E'.
  Proof.
    induction vs as [|[x s] r IH]; intros [|[y s'] r'] f g E E' Hs H; try discriminate; cbn [eval_all].
    - apply (H []). constructor.
    - cbn in Hs. injection Hs as -> Hs. apply iall_ext. intros v Hv. apply IH; auto. intros vals Hd. apply (H (v :: vals)). constructor; auto.
  Qed.
  Lemma eval_bind_ext2 b vs' vs bs (f g : env I -> value I) E E' : map snd vs' = map snd vs ->
    (forall vals, Forall2 (fun s v => idom I s v = true) (map snd vs) vals -> f (upds E vs' vals) = g (upds E' vs vals)) ->
    eval_bind b vs' bs f E = eval_bind b vs bs g E'.
  Proof.
    intros Hs H. destruct b; cbn [eval_bind].
    - f_equal. apply eval_all_ext2; auto. intros vals Hd. rewrite (H _ Hd). reflexivity.
    - f_equal. f_equal. apply eval_all_ext2; auto. intros vals Hd. rewrite (H _ Hd). reflexivity.
    - destruct vs as [|[x s] [|p r]], vs' as [|[y s'] [|p' r']]; try discriminate Hs.
      + apply ilam_ext; auto.
      + cbn in Hs. injection Hs as ->. apply ichoice_ext. intros v Hv. f_equal. apply (H [v]). repeat constructor; auto.
      + rewrite Hs. apply ilam_ext; auto.
    - rewrite Hs. apply ilam_ext; auto.
  Qed.

  Lemma upds_in_any vs : forall vals E E' x s, List.length vs = List.length vals -> In (x, s) vs -> upds E vs vals x s = upds E' vs vals x s.
  Proof. intros. apply upds_agree; auto. intros Hn. contradiction. Qed.
  Lemma upds_map (f : string * sort -> string * sort) vs : (forall v, In v vs -> snd (f v) = snd v) ->
    (forall v w, In v vs -> In w vs -> f v = f w -> v = w) ->
    forall vals E E' x s, List.length vs = List.length vals -> In (x, s) vs ->
    upds E (map f vs) vals (fst (f (x, s))) (snd (f (x, s))) = upds E' vs vals x s.
  Proof.
    induction vs as [|[y s'] r IH]; intros Hs Hi vals E E' x s Hl Hin; [destruct Hin|].
    destruct vals as [|v rv]; [discriminate|]. cbn [map upds]. destruct (f (y, s')) as [fy fs] eqn:Ef. cbn [upds].
    assert (Hdec : {In (x, s) r} + {~ In (x, s) r}).
    { destruct (existsb (svar_eqb (x, s)) r) eqn:E1; [left; apply svar_mem; auto|right; intros H; apply svar_mem in H; congruence]. }
    destruct Hdec as [Hr|Hr].
    - apply IH; auto.
      + intros w Hw. apply Hs. right; auto.
      + intros a b Ha Hb. apply Hi; right; auto.
    - destruct Hin as [Heq|Hin]; [|contradiction]. injection Heq as -> ->. rewrite Ef. cbn [fst snd].
      rewrite !upds_notin, !upd_same; auto. intros Hf. apply in_map_iff in Hf. destruct Hf as [w [Hw Hwr]]. apply Hr.
      rewrite (Hi (x, s) w); [auto|left; auto|right; auto|congruence].
  Qed.

  Lemma sbr1_free k v l : incl (sbr1 k v) l -> k <> v -> (forall y s', free_in y s' v = true -> In (y, s') (fvars v)) ->
    forall y s', free_in y s' v = true -> In y l.
  Proof.
    intros Hi Hk Hf y s' Hy. apply Hi. unfold sbr1. destruct (term_eqb k v) eqn:E1; [apply term_eqb_eq in E1; contradiction|].
    apply in_or_app. left. apply in_map_iff. exists (y, s'). auto.
  Qed.
  Lemma sbr1_key x s v l : incl (sbr1 (TVar x s) v) l -> TVar x s <> v -> In x l.
  Proof.
    intros Hi Hk. apply Hi. unfold sbr1. destruct (term_eqb (TVar x s) v) eqn:E1; [apply term_eqb_eq in E1; contradiction|].
    apply in_or_app. right. cbn. auto.
  Qed.
  Lemma term_dec (a b : term) : {a = b} + {a <> b}.
  Proof. destruct (term_eqb a b) eqn:E1; [left; apply term_eqb_eq; auto|right; intros ->; assert (term_eqb b b = true) by (apply term_eqb_eq; auto); congruence]. Qed.
  (** binding variables with names that are not to be renamed commutes with the substitution *)
  Lemma sub_env_upds m l vs vals E x s : good_map m -> sb_ok m l -> List.length vs = List.length vals ->
    (forall v, In v vs -> ~ In (fst v) l) -> sub_env m (upds E vs vals) x s = upds (sub_env m E) vs vals x s.
  Proof.
    intros Hg Hb Hl Hn.
    assert (Hdec : {In (x, s) vs} + {~ In (x, s) vs}).
    { destruct (existsb (svar_eqb (x, s)) vs) eqn:E1; [left; apply svar_mem; auto|right; intros H; apply svar_mem in H; congruence]. }
    destruct Hdec as [Hi|Hi].
    - transitivity (upds E vs vals x s); [|apply upds_in_any; auto]. unfold sub_env. destruct (sget m (TVar x s)) as [v|] eqn:E1; [|reflexivity].
      destruct (term_dec (TVar x s) v) as [<-|Hk]; [reflexivity|]. exfalso. apply (Hn _ Hi). cbn. eapply sbr1_key; eauto.
    - rewrite (upds_notin vs vals (sub_env m E)); auto. unfold sub_env. destruct (sget m (TVar x s)) as [v|] eqn:E1; [|apply upds_notin; auto].
      destruct (term_dec (TVar x s) v) as [<-|Hk]; [cbn [eval]; apply upds_notin; auto|].
      destruct (Hg _ _ E1) as [x0 [s0 [_ [_ [_ Hf]]]]]. apply eval_upds_notfree. intros y s' Hy.
      destruct (free_in y s' v) eqn:E2; [|reflexivity]. exfalso. apply (Hn _ Hy). cbn. eapply sbr1_free; eauto.
  Qed.
End Meaning.

Lemma rename_vars_notin sb vs : forall newv ren vs' ren', rename_vars sb newv ren vs = (vs', ren') ->
  (forall v, In v vs' -> ~ In (fst v) sb) /\ map snd vs' = map snd vs.
Proof.
  induction vs as [|[x s] vs IH]; intros newv ren vs' ren' H; cbn [rename_vars] in H.
  - assert (vs' = []) by congruence. subst. split; [intros v []|reflexivity].
  - destruct (rename_vars _ _ _ vs) as [r' ren''] eqn:E. assert (vs' = (fresh (newv ++ sb) x, s) :: r') by congruence. subst.
    apply IH in E. destruct E as [E1 E2]. split; [|cbn; congruence]. intros v [<-|Hv]; [|auto]. cbn. intros Hs.
    apply (fresh_notin (newv ++ sb) x). apply in_or_app. auto.
Qed.
Lemma sins_length m x t : List.length m <= List.length (sins m x t).
Proof. unfold sins. induction m as [|[k v] m IH]; cbn; [lia|]. destruct (term_eqb x k); cbn; lia. Qed.
Lemma sins_nonnil m x t : sins m x t <> [].
Proof. destruct m as [|[k v] m]; cbn; [discriminate|]. destruct (term_eqb x k); discriminate. Qed.
Lemma rename_vars_len sb vs : forall newv ren vs' ren', rename_vars sb newv ren vs = (vs', ren') -> List.length ren <= List.length ren'.
Proof.
  induction vs as [|[x s] vs IH]; intros newv ren vs' ren' H; cbn [rename_vars] in H; [assert (ren' = ren) by congruence; subst; lia|].
  destruct (rename_vars _ _ _ vs) as [r' ren''] eqn:E. assert (ren'' = ren') by congruence. subst. apply IH in E.
  destruct (negb _); [|auto]. pose proof (sins_length ren (TVar x s) (TVar (fresh (newv ++ sb) x) s)). lia.
Qed.
(** no renaming recorded: the variables are unchanged *)
Lemma rename_vars_nil sb vs : forall newv vs', rename_vars sb newv [] vs = (vs', []) -> vs' = vs.
Proof.
  induction vs as [|[x s] vs IH]; intros newv vs' H; cbn [rename_vars] in H; [congruence|].
  destruct (rename_vars _ _ _ vs) as [r' ren''] eqn:E. assert (ren'' = []) by congruence. subst.
  destruct (String.eqb x (fresh (newv ++ sb) x)) eqn:Ex; cbn [negb] in E.
  - apply String.eqb_eq in Ex. apply IH in E. congruence.
  - apply rename_vars_len in E. cbn in E. lia.
Qed.

(** [t'] means the same as [t] under the substitution *)
Definition res_ok (m : smap) (t t' : term) : Prop :=
  wt t' = true /\ sort_of t' = sort_of t /\ forall (I : interp) (E : env I), eval t' E = eval t (sub_env m E).
(** what a substitution with its state has to satisfy *)
Definition inv_s (m : smap) (S : sub) : Prop :=
  sm S = m /\ good_map m /\ sb_ok' m (sb S) /\ forall k r, sget (sc S) k = Some r -> wt k = true -> res_ok m k r.
Lemma inv_s_of m : good_map m -> inv_s m (sub_of m).
Proof. intros H. split; [auto|]. split; [auto|]. split; [exact Logic.I|]. intros k r Hk. discriminate. Qed.
Lemma inv_s_names m S : inv_s m S -> sb_ok m (sub_names S) /\ inv_s m (with_names S).
Proof.
  intros [<- [H2 [H3 H4]]]. assert (H : sb_ok (sm S) (sub_names S)) by (unfold sub_names; destruct (sb S); [exact H3|apply sb_ok_of]).
  split; [auto|]. split; [auto|]. split; [auto|]. split; [exact H|exact H4].
Qed.
Lemma inv_s_cached m S t r : inv_s m S -> (wt t = true -> res_ok m t r) -> inv_s m (cached S t r).
Proof.
  intros [H1 [H2 [H3 H4]]] H. split; [auto|]. split; [auto|]. split; [auto|]. intros k r' Hk. cbn [cached sc] in Hk. rewrite sget_sins in Hk.
  destruct (term_eqb k t) eqn:E; [apply term_eqb_eq in E; subst; assert (r' = r) by congruence; subst; auto|auto].
Qed.

Lemma apply_seq_ok (f : sub -> term -> outcome sres) m :
  (forall S t t' S', inv_s m S -> wt t = true -> f S t = ROk (t', S', true) -> inv_s m S' /\ res_ok m t t') ->
  forall l S l' S', inv_s m S -> forallb wt l = true -> apply_seq f S l = ROk (l', S', true) ->
  inv_s m S' /\ forallb wt l' = true /\ map sort_of l' = map sort_of l /\
  forall (I : interp) (E : env I), map (fun a => eval a E) l' = map (fun a => eval a (sub_env m E)) l.
Proof.
  intros Hf. induction l as [|a l IH]; intros S l' S' Hs Hw H; cbn [apply_seq] in H.
  - assert (l' = []) by congruence. assert (S' = S) by congruence. subst. auto.
  - apply obind_ok in H. destruct H as [[[a' S1] ok1] [H1 H]]. apply obind_ok in H. destruct H as [[[r' S2] ok2] [H2 H]].
    assert (l' = a' :: r') by congruence. assert (S2 = S') by congruence. assert (H4 : ok1 && ok2 = true) by congruence. clear H. subst.
    apply andb_true_iff in H4. destruct H4; subst. cbn [forallb] in Hw. apply andb_true_iff in Hw. destruct Hw as [Hw1 Hw2].
    destruct (Hf _ _ _ _ Hs Hw1 H1) as [A1 [A2 [A3 A4]]]. destruct (IH _ _ _ A1 Hw2 H2) as [B1 [B2 [B3 B4]]].
    split; [auto|]. split; [cbn; rewrite A2, B2; reflexivity|]. split; [cbn; congruence|]. intros I E. cbn. rewrite A4, B4. reflexivity.
Qed.

Lemma good_ren vs vs' ren inner : ren_ok vs vs' ren inner = true -> good_map ren.
Proof.
  unfold ren_ok. rewrite !andb_true_iff. intros [[[_ _] H] _] k v Hk. apply sget_In in Hk. rewrite forallb_forall in H. specialize (H _ Hk).
  cbn in H. destruct k as [|x s| | | | | |]; try discriminate. destruct v as [|y s'| | | | | |]; try discriminate.
  apply andb_true_iff in H. destruct H as [H _]. apply sort_eqb_eq in H. subst. exists x, s'. repeat split. intros z s Hz.
  cbn in *. apply andb_true_iff in Hz. destruct Hz as [H1 H2]. apply String.eqb_eq in H1. apply sort_eqb_eq in H2. subst. auto.
Qed.
Lemma ren_env {I : interp} vs vs' ren inner (E : env I) vals x s : ren_ok vs vs' ren inner = true -> List.length vs = List.length vals ->
  free_in x s inner = true -> sub_env ren (upds E vs' vals) x s = upds E vs vals x s.
Proof.
  intros Hr Hl Hx. pose proof (good_ren _ _ _ _ Hr) as Hg. unfold ren_ok in Hr. rewrite !andb_true_iff in Hr. destruct Hr as [[[H1 H2] H3] H4].
  apply (list_eqb_eq svar_eqb) in H1; [|apply svar_eqb_eq]. rewrite forallb_forall in H2, H3, H4.
  assert (Hsn : forall v, snd (ren_var ren v) = snd v).
  { intros [y sy]. unfold ren_var. cbn [fst snd]. destruct (sget ren (TVar y sy)) as [v|] eqn:Eg; [|reflexivity].
    destruct (Hg _ _ Eg) as [y0 [s0 [Hk [Hv _]]]]. injection Hk as <- <-. destruct v; auto. }
  assert (Hinj : forall v w, In v vs -> In w vs -> ren_var ren v = ren_var ren w -> v = w).
  { intros v w Hv Hw Hvw. specialize (H2 _ Hv). cbn beta in H2. rewrite forallb_forall in H2. specialize (H2 _ Hw). cbn beta in H2. rewrite Hvw in H2.
    replace (svar_eqb (ren_var ren w) (ren_var ren w)) with true in H2 by (symmetry; apply svar_eqb_eq; auto). apply svar_eqb_eq. exact H2. }
  assert (Hin : In (x, s) vs -> upds E vs' vals (fst (ren_var ren (x, s))) (snd (ren_var ren (x, s))) = upds E vs vals x s).
  { intros Hi. rewrite <- H1. apply (upds_map (ren_var ren)); auto. }
  unfold sub_env. destruct (sget ren (TVar x s)) as [v|] eqn:Eg.
  - pose proof (H3 _ (sget_In _ _ _ Eg)) as H5. cbn in H5. destruct v as [|y s'| | | | | |]; try discriminate.
    apply andb_true_iff in H5. destruct H5 as [H5 H6]. apply svar_mem in H6. specialize (Hin H6).
    unfold ren_var in Hin. cbn [fst snd] in Hin. rewrite Eg in Hin. exact Hin.
  - assert (Hrv : ren_var ren (x, s) = (x, s)) by (unfold ren_var; cbn [fst snd]; rewrite Eg; reflexivity).
    rewrite Hrv in Hin. cbn [fst snd] in Hin.
    destruct (existsb (svar_eqb (x, s)) vs) eqn:Ei; [apply Hin; apply svar_mem; auto|].
    rewrite (upds_notin vs); [|intros Hi; apply svar_mem in Hi; congruence].
    apply upds_notin. intros Hi. specialize (H4 _ Hi). cbn [fst snd] in H4. rewrite Ei, Hx in H4. discriminate.
Qed.

Theorem apply_sound : forall n m S t t' S', inv_s m S -> wt t = true ->
  apply n S t = ROk (t', S', true) -> inv_s m S' /\ res_ok m t t'.
Proof.
  induction n as [|n IH]; intros m S t t' S' Hi Hw H; [discriminate|]. cbn [apply] in H.
  destruct (sget (sc S) t) as [v|] eqn:Ec.
  { assert (v = t') by congruence. assert (S = S') by congruence. subst. split; [auto|]. apply Hi; auto. }
  destruct (sget (sm S) t) as [v|] eqn:Eg.
  { assert (v = t') by congruence. assert (S = S') by congruence. subst. split; [auto|]. destruct Hi as [<- [Hg _]]. destruct (Hg _ _ Eg) as [x [s [-> [H1 [H2 H3]]]]].
    split; [auto|]. split; [auto|]. intros I E. cbn [eval]. unfold sub_env. rewrite Eg. reflexivity. }
  apply obind_ok in H. destruct H as [[[r0 S1] ok1] [H0 H]]. assert (r0 = t') by congruence. assert (S' = cached S1 t t') by congruence.
  assert (ok1 = true) by congruence. subst. clear H.
  enough (inv_s m S1 /\ res_ok m t t') as [A B] by (split; [apply inv_s_cached; auto|auto]). clear Ec.
  pose proof Hi as [Hm [Hg [_ _]]]. rewrite Hm in Eg.
  assert (HS := apply_seq_ok (apply n) m (fun S t t' S' => IH m S t t' S')).
  destruct t as [c|x s|f args|o args|s|b vs inner|bs inner|o oa args]; cbn [apply_body] in H0.
  + assert (t' = TConst c) by congruence. assert (S = S1) by congruence. subst. split; [auto|]. split; auto.
  + assert (t' = TVar x s) by congruence. assert (S = S1) by congruence. subst S1 t'. split; [auto|]. split; [auto|]. split; [auto|].
    intros I E. cbn [eval]. unfold sub_env. rewrite Eg. reflexivity.
  + apply obind_ok in H0. destruct H0 as [[[args' S2] ok2] [H1 H]]. apply obind_ok in H. destruct H as [[[f' S3] ok3] [H2 H]].
    assert (t' = TApp f' args') by congruence. assert (S3 = S1) by congruence. assert (Hok : ok2 && ok3 = true) by congruence. clear H. subst S3 t'.
    apply andb_true_iff in Hok. destruct Hok; subst. cbn [wt] in Hw. rewrite !andb_true_iff in Hw. destruct Hw as [[Hw1 Hw2] Hw3].
    destruct (HS _ _ _ _ Hi Hw2 H1) as [A1 [A2 [A3 A4]]]. destruct (IH _ _ _ _ _ A1 Hw1 H2) as [B1 [B2 [B3 B4]]].
    split; [auto|]. split; [cbn [wt]; rewrite A2, B2, A3, B3, Hw3; reflexivity|]. split; [cbn [sort_of]; rewrite B3; reflexivity|].
    intros I E. cbn [eval]. rewrite A4, B4. reflexivity.
  + apply obind_ok in H0. destruct H0 as [[[args' S2] ok2] [H1 H]]. assert (t' = TOp o args') by congruence. assert (S2 = S1) by congruence. assert (ok2 = true) by congruence. clear H. subst S2 t' ok2.
    pose proof Hw as Hw'. cbn [wt] in Hw. rewrite !andb_true_iff in Hw. destruct Hw as [Hw1 Hw2]. destruct (HS _ _ _ _ Hi Hw1 H1) as [A1 [A2 [A3 A4]]].
    assert (Ho : o <> OBvConst) by (intros ->; discriminate Hw2).
    split; [auto|]. split; [cbn [wt]; rewrite A2, A3, Hw2; reflexivity|]. split; [rewrite !sort_of_op, A3; auto|].
    intros I E. cbn [eval]. rewrite A4. reflexivity.
  + discriminate.
  + cbv zeta in H0. destruct (inv_s_names _ _ Hi) as [Hn Hi0]. set (names := sub_names S) in *. rewrite Hm in H0.
    destruct (can_skip m names vs) eqn:Ek.
    * assert (t' = TBind b vs inner) by congruence. assert (S1 = with_names S) by congruence. assert (Hok : skip_ok m vs = true) by congruence. subst t' S1.
      split; [exact Hi0|]. split; [auto|]. split; [auto|]. intros I E. apply eval_agree. intros y s Hy. cbn [free_in] in Hy.
      apply andb_true_iff in Hy. destruct Hy as [Hy _]. unfold skip_ok in Hok. clear -Hok Hy. destruct m as [|[k v] [|]]; try discriminate; destruct k as [|x sx| | | | | |]; try discriminate.
      unfold sub_env, sget. cbn [im_get]. destruct (term_eqb (TVar y s) (TVar x sx)) eqn:E1; [|reflexivity].
      apply term_eqb_eq in E1. injection E1 as -> ->. rewrite Hok in Hy. discriminate.
    * cbn [wt] in Hw. rewrite !andb_true_iff in Hw. destruct Hw as [[Hw1 Hw2] Hw3].
      destruct (rename_vars names [] [] vs) as [vs' ren] eqn:Er. destruct (rename_vars_notin _ _ _ _ _ _ Er) as [Hno Hsn].
      assert (Hlen : List.length vs' = List.length vs) by (rewrite <- (map_length snd vs'), Hsn, map_length; reflexivity).
      assert (HW : forall i', wt i' = true -> sort_of i' = sort_of inner -> wt (TBind b vs' i') = true).
      { intros i' Hi1 Hi2. cbn [wt]. rewrite Hi1, Hi2, Hlen. replace (min_len 1 vs') with (min_len 1 vs); [rewrite Hw2; auto|].
        destruct vs, vs'; try discriminate; reflexivity. }
      assert (HSo : forall i', sort_of i' = sort_of inner -> sort_of (TBind b vs' i') = sort_of (TBind b vs inner)).
      { intros i' Hi'. destruct b; cbn [sort_of]; auto; rewrite ?Hi', ?Hsn; auto. destruct vs as [|[? ?] ?], vs' as [|[? ?] ?]; try discriminate; auto. cbn in Hsn. congruence. }
      destruct ren as [|p ren].
      -- apply rename_vars_nil in Er. subst vs'. apply obind_ok in H0. destruct H0 as [[[i' S2] ok2] [H1 H]].
         assert (t' = TBind b vs i') by congruence. assert (S2 = S1) by congruence. assert (ok2 = true) by congruence. clear H. subst t' S2 ok2.
         destruct (IH _ _ _ _ _ Hi0 Hw1 H1) as [B1 [B2 [B3 B4]]]. split; [auto|]. split; [auto|]. split; [auto|].
         intros I E. cbn [eval]. rewrite B3. apply eval_bind_ext2; auto. intros vals Hd. rewrite B4. apply eval_ext. intros x s.
         apply (sub_env_upds m names); auto. apply doms_length in Hd. rewrite map_length in Hd. auto.
      -- set (R := p :: ren) in *. apply obind_ok in H0. destruct H0 as [[[i1 S2] ok2] [H1 H]]. apply obind_ok in H. destruct H as [[[i2 S3] ok3] [H2 H]].
         assert (t' = TBind b vs' i2) by congruence. assert (S3 = S1) by congruence. assert (Hok : ren_ok vs vs' R inner && ok2 && ok3 = true) by congruence. clear H.
         rewrite !andb_true_iff in Hok. destruct Hok as [[Hro ->] ->]. subst t' S3.
         destruct (IH _ _ _ _ _ (inv_s_of _ (good_ren _ _ _ _ Hro)) Hw1 H1) as [_ [A2 [A3 A4]]].
         destruct (IH _ _ _ _ _ Hi0 A2 H2) as [B1 [B2 [B3 B4]]]. rewrite A3 in B3. split; [auto|]. split; [auto|]. split; [auto|].
         intros I E. cbn [eval]. rewrite B3. apply eval_bind_ext2; auto. intros vals Hd. apply doms_length in Hd. rewrite map_length in Hd.
         rewrite B4, (eval_ext i1 _ (upds (sub_env m E) vs' vals)) by (intros x s; apply (sub_env_upds m names); auto; rewrite Hlen; symmetry; exact Hd).
         rewrite A4. apply eval_agree. intros x s Hx. eapply ren_env; eauto.
  + exfalso. apply obind_ok in H0. destruct H0 as [names [_ H]]. apply obind_ok in H. destruct H as [[bs' R] [H1 H]]. apply obind_ok in H. destruct H as [y [H2 H]].
    apply obind_ok in H. destruct H as [[[i2 S2] ok2] [H3 H]]. discriminate.
  + apply obind_ok in H0. destruct H0 as [[[args' S2] ok2] [H1 H]]. assert (t' = TPOp o oa args') by congruence. assert (S2 = S1) by congruence. assert (ok2 = true) by congruence. clear H. subst S2 t' ok2.
    cbn [wt] in Hw. rewrite !andb_true_iff in Hw. destruct Hw as [Hw1 Hw2]. destruct (HS _ _ _ _ Hi Hw1 H1) as [A1 [A2 [A3 A4]]].
    split; [auto|]. split; [cbn [wt]; rewrite A2, A3, Hw2; reflexivity|]. split; [cbn [sort_of]; rewrite A3; reflexivity|].
    intros I E. cbn [eval]. rewrite A4. reflexivity.
Qed.
