(** What a checked [rare_rewrite] step says. *)
From Coq Require Import List String Ascii NArith ZArith QArith Bool Arith Lia.
From Verif Require Import Base Term Field Sem Sorting Rules Utils Polyeq PolyeqSound R_Simp R_AC Subst SubstSound SubstClean ContextSound R_Rare.
Import ListNotations.
Local Open Scope nat_scope.

(** ** Specification: the lists of a term are spliced into the argument lists they occur in *)
Definition sp (t : term) : list term := match t with TOp ORareList l => l | _ => [t] end.
Fixpoint flat (t : term) : term :=
  match t with
  | TConst _ | TVar _ _ | TSort _ => t
  | TApp f args => TApp (flat f) (flat_map (fun a => sp (flat a)) args)
  | TOp o args => TOp o (flat_map (fun a => sp (flat a)) args)
  | TBind b vs body => TBind b vs (flat body)
  | TLet bs body => TLet bs (flat body)
  | TPOp o oa args => TPOp o (map flat oa) (map flat args)
  end.

(** ** The other rewritings, applied everywhere; used in the proof only *)
Definition redop (o : op) (l : list term) : term :=
  match crw (TOp o l) with Some (TrTerm u) => u | _ => TOp o l end.
Fixpoint red (t : term) : term :=
  match t with
  | TConst _ | TVar _ _ | TSort _ => t
  | TApp f args => TApp (red f) (map red args)
  | TOp o args => redop o (map red args)
  | TBind b vs body => TBind b vs (red body)
  | TLet bs body => TLet bs (red body)
  | TPOp o oa args => TPOp o (map red oa) (map red args)
  end.
Lemma redop_cases o l : redop o l = TOp o l \/ redop o l = TOp OTrue [] \/ redop o l = TOp OFalse [].
Proof.
  unfold redop. destruct (crw (TOp o l)) as [[u|u]|] eqn:E; auto. right. revert E. unfold crw.
  destruct o; try discriminate; destruct l as [|[c|x s|f args1|o1 args1|s|b vs body|bs body|o1 oa args1] [|a2 r]]; try discriminate;
    try (intros H; injection H as <-; auto); destruct o1; try discriminate; destruct args1; try discriminate; intros H; injection H as <-; auto.
Qed.
Lemma redop_list l : redop ORareList l = TOp ORareList l.
Proof. reflexivity. Qed.
Lemma redop_rare o l l' : redop o l = TOp ORareList l' -> o = ORareList /\ l = l'.
Proof. destruct (redop_cases o l) as [H|[H|H]]; rewrite H; intros E; injection E; intros; subst; try discriminate; auto. Qed.
Lemma sp_red u : map red (sp u) = sp (red u).
Proof.
  destruct u as [c|x s|f args|o args|s|b vs body|bs body|o oa args]; try reflexivity.
  assert (H : o = ORareList \/ o <> ORareList) by (destruct o; (left; reflexivity) || (right; discriminate)).
  destruct H as [-> |H]; [reflexivity|]. replace (sp (TOp o args)) with [TOp o args] by (destruct o; try reflexivity; contradiction).
  cbn [map red]. destruct (redop o (map red args)) as [c|x s|f args1|o1 args1|s|b vs body|bs body|o1 oa args1] eqn:E; try reflexivity.
  destruct o1; try reflexivity. apply redop_rare in E. tauto.
Qed.
Definition rf (t : term) : term := red (flat t).
Definition rfl (l : list term) : list term := flat_map (fun a => sp (rf a)) l.
Lemma rfl_map l : map red (flat_map (fun a => sp (flat a)) l) = rfl l.
Proof. unfold rfl, rf. induction l as [|a l IH]; [reflexivity|]. cbn [flat_map]. rewrite map_app, IH, sp_red. reflexivity. Qed.
Lemma rfl_app a b : rfl (a ++ b) = rfl a ++ rfl b.
Proof. unfold rfl. rewrite !flat_map_concat_map, map_app, concat_app. reflexivity. Qed.
Lemma rf_op o l : rf (TOp o l) = redop o (rfl l).
Proof. unfold rf. cbn [flat red]. rewrite rfl_map. reflexivity. Qed.
Lemma rf_app f l : rf (TApp f l) = TApp (rf f) (rfl l).
Proof. unfold rf. cbn [flat red]. rewrite rfl_map. reflexivity. Qed.
Lemma crw_rf t u : crw t = Some (TrTerm u) -> rf t = rf u.
Proof.
  destruct t as [c|x s|f args|o args|s|b vs body|bs body|o oa args]; try discriminate.
  destruct o; try discriminate; destruct args as [|[c|x s|f args1|o1 args1|s|b vs body|bs body|o1 oa args1] [|a2 r]]; try discriminate;
    try (intros H; injection H as <-; reflexivity); destruct o1; try discriminate; destruct args1; try discriminate; intros H; injection H as <-; reflexivity.
Qed.
Lemma rewrite_args_rf rw l : (forall a a', In a l -> rw a = ROk a' -> rf a' = rf a) ->
  forall l', rewrite_args get_rules rw l = ROk l' -> rfl l' = rfl l.
Proof.
  induction l as [|a l IH]; intros H l' Hl; cbn [rewrite_args] in Hl; [injection Hl as <-; reflexivity|].
  rewrite check_rewrites_crw in Hl. cbn [obind] in Hl. apply obind_ok in Hl. destruct Hl as [x [Hx Hl]].
  apply obind_ok in Hl. destruct Hl as [y [Hy Hl]]. injection Hl as <-. rewrite rfl_app, (IH (fun b b' Hb => H b b' (or_intror Hb)) y Hy).
  change (a :: l) with ([a] ++ l). rewrite rfl_app. f_equal. destruct (crw a) as [[t|ts]|] eqn:E.
  - injection Hx as <-. unfold rfl. cbn [flat_map]. rewrite (crw_rf _ _ E). reflexivity.
  - injection Hx as <-. apply crw_many in E. subst a. unfold rfl at 2. cbn [flat_map]. rewrite rf_op, redop_list, app_nil_r. reflexivity.
  - apply obind_ok in Hx. destruct Hx as [a' [Ha Hx]]. injection Hx as <-. unfold rfl. cbn [flat_map]. rewrite (H a a'); auto. left; auto.
Qed.
Lemma omap_rf (rw : term -> outcome term) l : (forall a a', In a l -> rw a = ROk a' -> rf a' = rf a) ->
  forall l', omap rw l = ROk l' -> map rf l' = map rf l.
Proof.
  induction l as [|a l IH]; intros H l' Hl; cbn [omap] in Hl; [injection Hl as <-; reflexivity|].
  apply obind_ok in Hl. destruct Hl as [x [Hx Hl]]. apply obind_ok in Hl. destruct Hl as [y [Hy Hl]]. injection Hl as <-. cbn [map].
  rewrite (H a x), (IH (fun b b' Hb => H b b' (or_intror Hb)) y Hy); auto. left; auto.
Qed.
(** Rewriting does not change what is left after splicing all lists and reducing. *)
Lemma rewrite_rf n : forall t t', rewrite get_rules n t = ROk t' -> rf t' = rf t.
Proof.
  induction n as [|n IH]; intros t t' H; [discriminate|].
  destruct t as [c|x s|f args|o args|s|b vs body|bs body|o oa args]; cbn [rewrite] in H; try (injection H as <-; reflexivity).
  - apply obind_ok in H. destruct H as [f' [Hf H]]. apply obind_ok in H. destruct H as [l [Hl H]].
    apply rewrite_args_rf in Hl; [|intros; apply IH; auto]. apply IH in Hf.
    assert (HA : rf (TApp f' l) = rf (TApp f args)) by (rewrite !rf_app; congruence).
    destruct (term_eqb (TApp f' l) (TApp f args)); [injection H as <-; exact HA|]. apply IH in H. congruence.
  - rewrite check_rewrites_crw in H. cbn [obind] in H.
    assert (HA : forall l, rewrite_args get_rules (rewrite get_rules n) args = ROk l -> rf (TOp o l) = rf (TOp o args)).
    { intros l Hl. apply rewrite_args_rf in Hl; [|intros; apply IH; auto]. rewrite !rf_op. congruence. }
    destruct (crw (TOp o args)) as [[u|us]|] eqn:E.
    + injection H as <-. symmetry. apply crw_rf; auto.
    + apply obind_ok in H. destruct H as [l [Hl H]]. apply HA in Hl. destruct (term_eqb (TOp o l) (TOp o args)); [injection H as <-; exact Hl|].
      apply IH in H. congruence.
    + apply obind_ok in H. destruct H as [l [Hl H]]. apply HA in Hl. rewrite check_rewrites_crw in H. cbn [obind] in H.
      destruct (crw (TOp o l)); [apply IH in H; congruence|injection H as <-; exact Hl].
  - apply obind_ok in H. destruct H as [b' [Hb H]]. injection H as <-. apply IH in Hb. unfold rf in *. cbn [flat red]. congruence.
  - apply obind_ok in H. destruct H as [b' [Hb H]]. injection H as <-. apply IH in Hb. unfold rf in *. cbn [flat red]. congruence.
  - apply obind_ok in H. destruct H as [oa' [Ho H]]. apply obind_ok in H. destruct H as [l [Hl H]]. injection H as <-.
    apply omap_rf in Ho; [|intros; apply IH; auto]. apply omap_rf in Hl; [|intros; apply IH; auto].
    unfold rf. cbn [flat red]. rewrite !map_map. unfold rf in Ho, Hl. congruence.
Qed.

(** ** On well-sorted terms nothing is spliced, and reducing keeps sort and value *)
Lemma pop_oargs o oa ss : pop_wt o oa ss = true -> forall a, In a oa -> flat a = a /\ red a = a.
Proof.
  intros H a Ha.
  assert (D : forallb (fun k => match k with Some _ => true | None => false end) (map as_const_nat oa) = true \/ exists s, oa = [TSort s]).
  { unfold pop_wt in H. destruct o; destruct (map as_const_nat oa) as [|[i|] [|[j|] [|k l]]]; auto; try discriminate;
      right; destruct ss as [|s1 [|s2 ss]]; try discriminate;
      destruct oa as [|[] [|]]; try discriminate; eauto; destruct s; discriminate. }
  destruct D as [D|[s ->]]; [|destruct Ha as [<-|[]]; auto].
  rewrite forallb_forall in D. specialize (D (as_const_nat a) (in_map _ _ _ Ha)). destruct a; try discriminate; auto.
Qed.
Lemma flat_id t : wt t = true -> flat t = t.
Proof.
  assert (HF : forall args, Forall (fun t => wt t = true -> flat t = t) args -> forallb wt args = true -> flat_map (fun a => sp (flat a)) args = args).
  { induction 1 as [|a r Ha _ IH]; cbn [forallb flat_map]; intros Hw; [reflexivity|]. apply andb_true_iff in Hw. destruct Hw as [Hw1 Hw2].
    rewrite Ha, IH by auto. destruct a; try reflexivity. destruct o; try reflexivity. cbn [wt op_wt] in Hw1. rewrite andb_false_r in Hw1. discriminate. }
  assert (HM : forall args, Forall (fun t => wt t = true -> flat t = t) args -> forallb wt args = true -> map flat args = args).
  { induction 1 as [|a r Ha _ IH]; cbn [forallb map]; intros Hw; [reflexivity|]. apply andb_true_iff in Hw. destruct Hw as [Hw1 Hw2]. rewrite Ha, IH; auto. }
  induction t using term_ind'; cbn [wt flat]; intros Hw; try reflexivity.
  - apply andb_true_iff in Hw. destruct Hw as [Hw _]. apply andb_true_iff in Hw. destruct Hw. rewrite IHt, HF; auto.
  - apply andb_true_iff in Hw. destruct Hw. rewrite HF; auto.
  - apply andb_true_iff in Hw. destruct Hw as [Hw _]. apply andb_true_iff in Hw. destruct Hw. rewrite IHt; auto.
  - apply andb_true_iff in Hw. destruct Hw. rewrite IHt; auto.
  - apply andb_true_iff in Hw. destruct Hw as [H1 H2]. rewrite (HM args) by auto. f_equal.
    transitivity (map (fun x => x) oargs); [|apply map_id]. apply map_ext_in. intros a Ha. eapply pop_oargs; eauto.
Qed.

(** [t'] has the sort and, everywhere, the value of [t] *)
Definition same_sem (t t' : term) : Prop :=
  wt t' = true /\ sort_of t' = sort_of t /\ forall (I : interp) (E : env I), eval t' E = eval t E.
Lemma redop_sem o l : wt (TOp o l) = true -> same_sem (TOp o l) (redop o l).
Proof.
  intros Hw. unfold redop. destruct (crw (TOp o l)) as [[u|u]|] eqn:E; try (split; [auto|split; reflexivity]).
  destruct o; try discriminate; destruct l as [|[c|x s|f args1|o1 args1|s|b vs body|bs body|o1 oa args1] [|a2 r]]; try discriminate;
    destruct o1; try discriminate; destruct args1; try discriminate; cbn in E; injection E as <-; split; [reflexivity|split; reflexivity|reflexivity|split; reflexivity].
Qed.
Lemma red_sound t : wt t = true -> same_sem t (red t).
Proof.
  assert (HF : forall args, Forall (fun t => wt t = true -> same_sem t (red t)) args -> forallb wt args = true ->
    forallb wt (map red args) = true /\ map sort_of (map red args) = map sort_of args /\
    forall (I : interp) (E : env I), map (fun a => eval a E) (map red args) = map (fun a => eval a E) args).
  { induction 1 as [|a r Ha _ IH]; cbn [forallb map]; intros Hw; [auto|]. apply andb_true_iff in Hw. destruct Hw as [Hw1 Hw2].
    destruct (Ha Hw1) as [A1 [A2 A3]]. destruct (IH Hw2) as [B1 [B2 B3]]. rewrite A1, B1, A2, B2. split; [auto|]. split; [auto|]. intros I E. rewrite A3, B3. reflexivity. }
  induction t using term_ind'; cbn [red]; intros Hw; try (split; [auto|split; reflexivity]).
  - cbn [wt] in Hw. apply andb_true_iff in Hw. destruct Hw as [Hw Hs]. apply andb_true_iff in Hw. destruct Hw as [H1 H2].
    destruct (IHt H1) as [A1 [A2 A3]]. destruct (HF args) as [B1 [B2 B3]]; auto. split; [|split].
    + cbn [wt]. rewrite A1, B1, A2, B2, Hs. reflexivity.
    + cbn [sort_of]. rewrite A2. reflexivity.
    + intros I E. cbn [eval]. rewrite A3, B3. reflexivity.
  - pose proof Hw as Hw0. apply wt_op_args in Hw. destruct Hw as [H1 H2]. destruct (HF args) as [B1 [B2 B3]]; auto.
    assert (Hw' : wt (TOp o (map red args)) = true) by (cbn [wt]; rewrite B1, B2, H2; reflexivity).
    destruct (redop_sem _ _ Hw') as [C1 [C2 C3]]. split; [exact C1|]. split.
    + rewrite C2, !wt_op_sort by auto. rewrite B2. reflexivity.
    + intros I E. rewrite C3. cbn [eval]. rewrite B3. reflexivity.
  - cbn [wt] in Hw. apply andb_true_iff in Hw. destruct Hw as [Hw Hs]. apply andb_true_iff in Hw. destruct Hw as [H1 H2].
    destruct (IHt H1) as [A1 [A2 A3]]. split; [|split].
    + cbn [wt]. rewrite A1, A2, H2, Hs. reflexivity.
    + cbn [sort_of]. rewrite A2. reflexivity.
    + intros I E. cbn [eval]. rewrite A2. apply eval_bind_ext2; [reflexivity|]. intros vals _. apply A3.
  - cbn [wt] in Hw. apply andb_true_iff in Hw. destruct Hw as [H1 H2]. destruct (IHt H2) as [A1 [A2 A3]]. split; [|split].
    + cbn [wt]. rewrite A1, H1. reflexivity.
    + exact A2.
    + intros I E. cbn [eval]. apply A3.
  - cbn [wt] in Hw. apply andb_true_iff in Hw. destruct Hw as [H1 H2]. destruct (HF args) as [B1 [B2 B3]]; auto.
    assert (Ho : map red oargs = oargs).
    { transitivity (map (fun x => x) oargs); [|apply map_id]. apply map_ext_in. intros a Ha. eapply pop_oargs; eauto. }
    rewrite Ho. split; [|split].
    + cbn [wt]. rewrite B1, B2, H2. reflexivity.
    + cbn [sort_of]. rewrite B2. reflexivity.
    + intros I E. cbn [eval]. rewrite B3. reflexivity.
Qed.
(** the rewritten term means what the spliced one means, as soon as both are well-sorted *)
Theorem rewrite_meta_sem t t' : rewrite_meta t = ROk t' -> wt t' = true -> wt (flat t) = true ->
  sort_of t' = sort_of (flat t) /\ forall (I : interp) (E : env I), eval t' E = eval (flat t) E.
Proof.
  intros H H1 H2. apply rewrite_rf in H. unfold rf in H. rewrite (flat_id t' H1) in H.
  destruct (red_sound t' H1) as [_ [A2 A3]]. destruct (red_sound (flat t) H2) as [_ [B2 B3]].
  split; [congruence|]. intros I E. rewrite <- A3, <- B3, H. reflexivity.
Qed.

(** ** Specification of RARE rules *)
(** the instance of a term of the rule: arguments for parameters, lists spliced *)
Definition instance (m : smap) (t : term) : term := flat (nsub m t).
(** an argument is a well-sorted term, or a list of such *)
Definition arg_fine (t : term) : bool :=
  (wt t && no_let t) || match t with TOp ORareList l => forallb (fun a => wt a && no_let a) l | _ => false end.
(** [m] gives an argument to each name of [:args], of the sort of the parameter unless that is polymorphic; no variable
    bound in the rule is a parameter or occurs in an argument *)
Record rare_inst (r : rare_rule) (m : smap) : Prop := mkInst
  { ri_keys : forall k v, sget m k = Some v -> exists x p, k = TVar x (fst p) /\ param_find (rr_params r) x = Some p /\
      In x (rr_args r) /\ arg_fine v = true /\ (sort_of v = fst p \/ poly_sort (fst p) = true);
    ri_all : forall x, In x (rr_args r) -> exists p v, param_find (rr_params r) x = Some p /\ sget m (TVar x (fst p)) = Some v;
    ri_names : forall t, In t (rr_concl r :: rr_prems r) -> avoids (sbr_of m) t }.
(** a rule is valid if all its well-sorted instances are: the premises imply the conclusion *)
Definition rare_valid (r : rare_rule) : Prop := forall m, rare_inst r m ->
  (forall t, In t (rr_concl r :: rr_prems r) -> bool_term (instance m t) = true) ->
  entails (map (fun p => [instance m p]) (rr_prems r)) [instance m (rr_concl r)].

(** the condition on a step, as a test *)
Definition avoidsb (l : list string) (t : term) : bool := no_let t && forallb (fun x => negb (smem x l)) (bnames t).
Definition rare_ok (rules : rare_rules) : clause -> list clause -> list term -> bool := fun _ _ args =>
  match args with
  | TConst (CStr name) :: ts =>
      match rare_find rules name with
      | Some r =>
          match rare_map (rr_params r) (rev (combine (rr_args r) ts)) [] with
          | ROk m => forallb arg_fine ts
              && forallb (fun t => avoidsb (sbr_of m) t && bool_term (instance m t)) (rr_concl r :: rr_prems r)
          | _ => false
          end
      | None => false
      end
  | _ => false
  end.
Lemma avoidsb_ok l t : avoidsb l t = true -> avoids l t.
Proof.
  unfold avoidsb. intros H. apply andb_true_iff in H. destruct H as [H1 H2]. split; [auto|]. intros x Hx Hl.
  rewrite forallb_forall in H2. specialize (H2 x Hx). rewrite (proj2 (smem_In _ _) Hl) in H2. discriminate.
Qed.

Lemma rare_map_In ps l : forall m m', rare_map ps l m = ROk m' -> forall k v, In (k, v) m' -> In (k, v) m \/
  exists x p, k = TVar x (fst p) /\ param_find ps x = Some p /\ In (x, v) l.
Proof.
  induction l as [|[x t] l IH]; intros m m' H k v Hk; cbn [rare_map] in H; [injection H as <-; auto|].
  apply obind_ok in H. destruct H as [p [Hp H]]. apply unwrap_ok in Hp. apply (IH _ _ H) in Hk. destruct Hk as [Hk|[y [q [H1 [H2 H3]]]]].
  - apply sins_In in Hk. destruct Hk as [Hk|[-> ->]]; [auto|]. right. exists x, p. cbn. auto.
  - right. exists y, q. cbn. auto.
Qed.
Lemma rare_map_mono ps l : forall m m', rare_map ps l m = ROk m' -> forall k, sget m k <> None -> sget m' k <> None.
Proof.
  induction l as [|[x t] l IH]; intros m m' H k Hk; cbn [rare_map] in H; [injection H as <-; auto|].
  apply obind_ok in H. destruct H as [p [Hp H]]. apply (IH _ _ H). rewrite sget_sins. destruct (term_eqb k (TVar x (fst p))); [discriminate|auto].
Qed.
Lemma rare_map_all ps l : forall m m', rare_map ps l m = ROk m' -> forall x t, In (x, t) l ->
  exists p, param_find ps x = Some p /\ sget m' (TVar x (fst p)) <> None.
Proof.
  induction l as [|[x t] l IH]; intros m m' H y u Hy; cbn [rare_map] in H; [destruct Hy|].
  apply obind_ok in H. destruct H as [p [Hp H]]. apply unwrap_ok in Hp. destruct Hy as [Hy|Hy]; [|eapply IH; eauto].
  injection Hy as <- <-. exists p. split; [auto|]. eapply rare_map_mono; eauto. rewrite sget_sins.
  rewrite (proj2 (term_eqb_eq _ _)) by reflexivity. discriminate.
Qed.
Lemma subst_new_ok m m' : subst_new m = ROk m' -> m' = m /\ forall k v, In (k, v) m -> is_var k = true /\ (sort_of k = sort_of v \/ poly_sort (sort_of k) = true).
Proof.
  unfold subst_new. intros H. apply obind_ok in H. destruct H as [u [Hu H]]. injection H as <-. split; [auto|]. intros k v Hk.
  destruct (ofor_ok _ _ _ Hu (k, v) Hk) as [b Hb]. apply obind_ok in Hb. destruct Hb as [[] [H1 H2]]. cbn [fst snd] in *.
  apply rassert_ok in H1. apply rassert_ok in H2. split; [auto|]. apply orb_true_iff in H2. destruct H2 as [H2|H2]; [left; apply sort_eqb_eq; auto|auto].
Qed.
Lemma sub_apply_clean m S t : keys_vars m -> avoids (sbr_of m) t -> cl_ok m (sbr_of m) S ->
  exists S', cl_ok m (sbr_of m) S' /\ sub_apply S t = ROk (nsub m t, S', true).
Proof. intros H1 H2 H3. apply apply_clean; auto. Qed.
(** the premises of the step are rewritten instances of those of the rule *)
Lemma rare_prems_ok m : keys_vars m -> forall ps rps S S', cl_ok m (sbr_of m) S -> (forall t, In t rps -> avoids (sbr_of m) t) ->
  List.length rps = List.length ps -> rare_prems S rps ps = ROk S' ->
  cl_ok m (sbr_of m) S' /\ Forall2 (fun p rp => exists t, p = [t] /\ rewrite_meta (nsub m rp) = ROk t) ps rps.
Proof.
  intros Hk. induction ps as [|p ps IH]; intros [|rp rps] S S' HS Ha Hl H; try discriminate; cbn [rare_prems] in H.
  - injection H as <-. auto.
  - apply obind_ok in H. destruct H as [t [Ht H]]. destruct (sub_apply_clean m S rp Hk) as [S1 [HS1 E]]; [apply Ha; left; auto|auto|].
    rewrite E in H. cbn [obind] in H. apply obind_ok in H. destruct H as [v [Hv H]]. apply obind_ok in H. destruct H as [u [Hu H]]. apply teq_ok in Hu. subst v.
    apply IH in H; auto; [|intros x Hx; apply Ha; right; auto]. destruct H as [H1 H2]. split; [auto|]. constructor; [|auto].
    exists t. split; [|auto]. destruct p as [|a [|]]; try discriminate. cbn in Ht. congruence.
Qed.
Lemma bool_term_wt' t : bool_term t = true -> wt t = true.
Proof. intros H. apply andb_true_iff in H. tauto. Qed.

(** Accepted instances of valid rules hold. *)
Theorem rare_step_sound rules c ps name ts r : r_rare rules c ps (TConst (CStr name) :: ts) = ROk tt ->
  rare_find rules name = Some r -> rare_valid r -> rare_ok rules c ps (TConst (CStr name) :: ts) = true ->
  clause_wt c = true -> forallb clause_wt ps = true -> entails ps c.
Proof.
  intros H Hr Hv Hok Hc Hps. unfold r_rare in H. unfold rare_ok in Hok. rewrite Hr in H, Hok. cbn [ok_or obind] in H.
  apply obind_ok in H. destruct H as [u1 [H1 H]]. apply rassert_ok in H1. apply Nat.eqb_eq in H1.
  apply obind_ok in H. destruct H as [u2 [H2 H]]. apply rassert_ok in H2. apply Nat.eqb_eq in H2.
  apply obind_ok in H. destruct H as [m [Hm H]]. rewrite Hm in Hok.
  apply obind_ok in H. destruct H as [u3 [H3 H]]. apply rassert_ok in H3. apply Nat.eqb_eq in H3.
  apply obind_ok in H. destruct H as [m' [Hm' H]]. apply subst_new_ok in Hm'. destruct Hm' as [-> Hs].
  apply obind_ok in H. destruct H as [S1 [HS1 H]].
  apply andb_true_iff in Hok. destruct Hok as [Hf Hok]. rewrite forallb_forall in Hf, Hok.
  assert (Hav : forall t, In t (rr_concl r :: rr_prems r) -> avoids (sbr_of m) t).
  { intros t Ht. apply avoidsb_ok. specialize (Hok t Ht). apply andb_true_iff in Hok. tauto. }
  assert (Hbt : forall t, In t (rr_concl r :: rr_prems r) -> bool_term (instance m t) = true).
  { intros t Ht. specialize (Hok t Ht). apply andb_true_iff in Hok. tauto. }
  assert (Hkv : keys_vars m) by (intros k v Hk; apply sget_In in Hk; apply Hs in Hk; tauto).
  assert (Hi : rare_inst r m).
  { constructor; [| |exact Hav].
    - intros k v Hk. apply sget_In in Hk. destruct (Hs k v Hk) as [_ Hsort]. apply (rare_map_In _ _ _ _ Hm) in Hk.
      destruct Hk as [[]|[x [p [-> [Hp Hin]]]]]. exists x, p. apply in_rev in Hin. split; [auto|]. split; [auto|].
      split; [eapply in_combine_l; eauto|]. split; [apply Hf; eapply in_combine_r; eauto|]. cbn [sort_of] in Hsort. destruct Hsort; auto.
    - intros x Hx. apply (In_nth_error) in Hx. destruct Hx as [n Hn].
      assert (Hn' : exists t, nth_error ts n = Some t).
      { destruct (nth_error ts n) eqn:E; [eauto|]. apply nth_error_None in E. assert (n < List.length (rr_args r)) by (apply nth_error_Some; congruence). lia. }
      destruct Hn' as [t Ht]. destruct (rare_map_all _ _ _ _ Hm x t) as [p [Hp Hg]].
      { apply -> in_rev. clear - Hn Ht. revert ts n Hn Ht. induction (rr_args r) as [|a l IH]; intros [|b ts] [|n] Hn Ht; try discriminate; cbn in *.
        - left. congruence.
        - right. eauto. }
      destruct (sget m (TVar x (fst p))) as [v|] eqn:E; [|contradiction]. exists p, v. auto. }
  apply rare_prems_ok with (m := m) in HS1; auto; [|apply cl_of|intros t Ht; apply Hav; right; auto]. destruct HS1 as [HS1 Hprem].
  destruct (sub_apply_clean m S1 (rr_concl r) Hkv) as [S2 [_ E]]; [apply Hav; left; auto|auto|]. rewrite E in H. cbn [obind] in H.
  apply obind_ok in H. destruct H as [u4 [_ H]]. apply obind_ok in H. destruct H as [v [Hvv H]].
  destruct c as [|t [|]]; try discriminate. cbn [idx nth_error unwrap obind] in H. apply teq_ok in H. subst v.
  intros I EE HE Hp.
  assert (Hw : forall a u, bool_term (instance m a) = true -> rewrite_meta (nsub m a) = ROk u -> bool_term u = true -> holds EE u = holds EE (instance m a)).
  { intros a u Ha Hu Hbu. unfold instance in *. apply rewrite_meta_sem in Hu; [|apply bool_term_wt'; auto|apply bool_term_wt'; auto].
    destruct Hu as [_ Hu]. unfold holds. rewrite Hu. reflexivity. }
  assert (Hcon : clause_holds EE [instance m (rr_concl r)]).
  { apply Hv; auto. intros q Hq. apply in_map_iff in Hq. destruct Hq as [rp [<- Hrp]].
    assert (HX : exists t', In [t'] ps /\ rewrite_meta (nsub m rp) = ROk t').
    { clear - Hprem Hrp. induction Hprem as [|p q ps qs [t [-> Ht]] _ IH]; [destruct Hrp|]. destruct Hrp as [<-|Hrp]; [exists t; split; [left; auto|auto]|].
      destruct (IH Hrp) as [t' [A B]]. exists t'. split; [right; auto|auto]. }
    destruct HX as [t' [Hin Ht']]. exists (instance m rp). split; [left; auto|]. rewrite <- (Hw rp t'); auto.
    - destruct (Hp _ Hin) as [l [[<-|[]] Hl]]. exact Hl.
    - apply Hbt. right; auto.
    - rewrite forallb_forall in Hps. specialize (Hps _ Hin). unfold clause_wt in Hps. cbn [forallb] in Hps. apply andb_true_iff in Hps. tauto. }
  destruct Hcon as [l [[<-|[]] Hl]]. exists t. split; [left; auto|]. rewrite (Hw (rr_concl r)); auto.
  - apply Hbt. left; auto.
  - unfold clause_wt in Hc. cbn [forallb] in Hc. apply andb_true_iff in Hc. tauto.
Qed.
Theorem rare_sound rules : (forall name r, rare_find rules name = Some r -> rare_valid r) -> rule_sound_if (r_rare rules) (rare_ok rules).
Proof.
  intros Hv c ps args H Hok Hc Hp. pose proof Hok as Hok0. unfold rare_ok in Hok0. destruct args as [|[[]| | | | | | |] ts]; try discriminate.
  destruct (rare_find rules s) as [r|] eqn:E; [|discriminate]. eapply rare_step_sound; eauto.
Qed.

(** ** Rules without polymorphism and lists: it is enough that the premises imply the conclusion, as formulas *)
Definition mono (r : rare_rule) : bool :=
  forallb (fun p => negb (poly_sort (fst (snd p))) && negb (snd (snd p)) && negb (sort_eqb (fst (snd p)) SRareList)) (rr_params r).
Lemma param_find_In ps x p : param_find ps x = Some p -> In (x, p) ps.
Proof.
  induction ps as [|[y q] ps IH]; cbn [param_find]; [discriminate|]. destruct (String.eqb x y) eqn:E; intros H; [|right; auto].
  apply String.eqb_eq in E. left. congruence.
Qed.
Lemma sub_env_ok {I : interp} m (E : env I) : good_map m -> env_ok E -> env_ok (sub_env m E).
Proof.
  intros Hg HE x s. unfold sub_env. destruct (sget m (TVar x s)) as [v|] eqn:Ev; [|apply HE].
  destruct (Hg _ _ Ev) as [y [s' [H1 [H2 [H3 _]]]]]. injection H1 as <- <-. rewrite <- H2. apply eval_dom; auto.
Qed.
Theorem mono_valid r : mono r = true -> (forall t, In t (rr_concl r :: rr_prems r) -> bool_term t = true) ->
  entails (map (fun p => [p]) (rr_prems r)) [rr_concl r] -> rare_valid r.
Proof.
  intros Hm Hbt Hent m Hi _ I E HE Hp. unfold mono in Hm. rewrite forallb_forall in Hm.
  assert (Hg : good_map m).
  { intros k v Hk. destruct (ri_keys _ _ Hi k v Hk) as [x [p [-> [H1 [_ [H2 H3]]]]]]. specialize (Hm _ (param_find_In _ _ _ H1)). cbn [fst snd] in Hm.
    apply andb_true_iff in Hm. destruct Hm as [Hm1 Hm3]. apply andb_true_iff in Hm1. destruct Hm1 as [Hm1 _]. rewrite negb_true_iff in Hm1, Hm3.
    exists x, (fst p). split; [auto|]. destruct H3 as [H3|H3]; [|congruence]. split; [auto|]. unfold arg_fine in H2. apply orb_true_iff in H2. destruct H2 as [H2|H2].
    - apply andb_true_iff in H2. destruct H2 as [H2 H4]. split; [auto|]. intros y s'. apply fvars_spec. auto.
    - destruct v; try discriminate. destruct o; try discriminate. cbn in H3. rewrite <- H3 in Hm3. discriminate. }
  assert (Hs : forall t, In t (rr_concl r :: rr_prems r) -> holds E (instance m t) = holds (sub_env m E) t).
  { intros t Ht. destruct (subst_clean m t) as [_ [H1 [H2 H3]]]; [auto|apply bool_term_wt'; auto|apply (ri_names _ _ Hi); auto|].
    unfold instance. rewrite flat_id by auto. unfold holds. rewrite H3. reflexivity. }
  destruct (Hent I (sub_env m E)) as [l [[<-|[]] Hl]].
  - apply sub_env_ok; auto.
  - intros q Hq. apply in_map_iff in Hq. destruct Hq as [rp [<- Hrp]]. exists rp. split; [left; auto|]. rewrite <- Hs by (right; auto).
    destruct (Hp [instance m rp]) as [l [[<-|[]] Hl]]; [apply in_map_iff; eauto|auto].
  - exists (instance m (rr_concl r)). split; [left; auto|]. rewrite Hs by (left; auto). exact Hl.
Qed.

(** ** Panics *)
Definition rare_declared (r : rare_rule) : bool :=
  forallb (fun x => match param_find (rr_params r) x with Some _ => true | None => false end) (rr_args r)
  && forallb no_let (rr_concl r :: rr_prems r).
Lemma rare_map_total ps l : (forall x t, In (x, t) l -> param_find ps x <> None) -> forall m, rare_map ps l m <> RPanic.
Proof.
  induction l as [|[x t] l IH]; intros H m; cbn [rare_map]; [discriminate|].
  pose proof (H x t (or_introl eq_refl)) as Hx. destruct (param_find ps x) as [p|]; [|contradiction]. cbn [unwrap obind]. apply IH.
  intros y u Hy. apply (H y u). right; auto.
Qed.
Lemma rare_prems_no_panic rps : forallb no_let rps = true -> forall ps S, List.length rps = List.length ps -> rare_prems S rps ps <> RPanic.
Proof.
  induction rps as [|rp rps IH]; intros Hn [|p ps] S Hl; try discriminate; cbn [rare_prems].
  cbn [forallb] in Hn. apply andb_true_iff in Hn. destruct Hn as [H1 H2].
  destruct p as [|t [|]]; cbn [premise_term obind]; try discriminate.
  pose proof (apply_nopanic (tsize rp) S rp H1) as H3. unfold sub_apply. destruct (apply (tsize rp) S rp) as [[[u S1] b]| |]; cbn [obind]; [|discriminate|contradiction].
  destruct (rewrite_meta_total u) as [v ->]. cbn [obind]. unfold teq, rassert. destruct (term_eqb t v); cbn [obind]; [|discriminate]. apply IH; auto.
Qed.
Theorem rare_no_panic rules c ps args : (forall name r, rare_find rules name = Some r -> rare_declared r = true) -> r_rare rules c ps args <> RPanic.
Proof.
  intros H. unfold r_rare. destruct args as [|[[]| | | | | | |] ts]; try discriminate.
  destruct (rare_find rules s) as [r|] eqn:Er; cbn [ok_or obind]; [|discriminate]. specialize (H _ _ Er). apply andb_true_iff in H. destruct H as [H1 H2].
  rewrite forallb_forall in H1. unfold rassert at 1. destruct (Nat.eqb _ _); cbn [obind]; [|discriminate].
  unfold rassert at 1. destruct (Nat.eqb (List.length c) 1) eqn:Ec; cbn [obind]; [|discriminate].
  pose proof (rare_map_total (rr_params r) (rev (combine (rr_args r) ts))) as Hm. assert (Hm' : rare_map (rr_params r) (rev (combine (rr_args r) ts)) [] <> RPanic).
  { apply Hm. intros x t Hx. apply in_rev in Hx. apply in_combine_l in Hx. specialize (H1 x Hx). destruct (param_find _ _); congruence. }
  clear Hm. destruct (rare_map _ _ _) as [m| |]; cbn [obind]; [|discriminate|contradiction].
  unfold rassert at 1. destruct (Nat.eqb (List.length (rr_prems r)) (List.length ps)) eqn:El; cbn [obind]; [|discriminate]. apply Nat.eqb_eq in El.
  assert (Hs : subst_new m <> RPanic).
  { unfold subst_new. assert (HF : forall l, ofor (fun p => rassert (is_var (fst p)) ;; rassert (sort_eqb (sort_of (fst p)) (sort_of (snd p)) || poly_sort (sort_of (fst p)))) l <> RPanic).
    { induction l as [|p l IH]; cbn [ofor]; [discriminate|]. unfold rassert. destruct (is_var (fst p)); cbn [obind]; [|discriminate]. destruct (_ || _); cbn [obind]; [exact IH|discriminate]. }
    specialize (HF m). destruct (ofor _ m); cbn [obind]; congruence. }
  destruct (subst_new m) as [m'| |]; cbn [obind]; [|discriminate|contradiction].
  cbn [forallb] in H2. apply andb_true_iff in H2. destruct H2 as [H2 H3].
  pose proof (rare_prems_no_panic (rr_prems r) H3 ps (sub_of m') El) as Hp. destruct (rare_prems _ _ _) as [S1| |]; cbn [obind]; [|discriminate|contradiction].
  pose proof (apply_nopanic (tsize (rr_concl r)) S1 (rr_concl r) H2) as Ha. unfold sub_apply. destruct (apply _ S1 _) as [[[u S2] b]| |]; cbn [obind]; [|discriminate|contradiction].
  assert (HF : forall l, ofor (fun p => do t <- premise_term p ; do v <- rewrite_meta t ; teq t v) l <> RPanic).
  { induction l as [|p l IH]; cbn [ofor]; [discriminate|]. destruct p as [|t [|]]; cbn [premise_term obind]; try discriminate.
    destruct (rewrite_meta_total t) as [v ->]. cbn [obind]. unfold teq, rassert. destruct (term_eqb t v); cbn [obind]; [exact IH|discriminate]. }
  specialize (HF ps). destruct (ofor _ ps) as [[]| |]; cbn [obind]; [|discriminate|contradiction].
  destruct (rewrite_meta_total u) as [v ->]. cbn [obind]. destruct c as [|t c]; [discriminate|]. cbn [idx nth_error unwrap obind]. unfold teq, rassert. destruct (term_eqb v t); discriminate.
Qed.
