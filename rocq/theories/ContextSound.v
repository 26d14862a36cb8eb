(** Meaning of the context stack. *)
From Coq Require Import List String Ascii ZArith QArith Bool Arith Lia.
From Verif Require Import Base Term Field Sem Sorting Rules Refute Utils Polyeq PolyeqSound R_Simp Subst SubstSound SubstClean SubstRefute Checker CheckerSound CheckerSem Context.
Import ListNotations.
Local Open Scope nat_scope.
Local Open Scope string_scope.

(** ** Specification *)
(** The anchors are hygienic, in order: a variable is not declared while it stands for another term, and neither
    declared nor assigned when an earlier assigned term mentions it; an assigned term does not mention its variable
    (except x := x) and binds no name used in earlier assignments.
    The state: variables assigned so far, and terms assigned so far. *)
Definition hstate : Type := (list (string * sort) * list term)%type.
Definition hnames (h : hstate) : list string := map fst (fst h) ++ flat_map anames (snd h).
Definition unused (v : string * sort) (h : hstate) : bool := forallb (fun t => negb (free_in (fst v) (snd v) t)) (snd h).
Definition avoids_b (l : list string) (t : term) : bool := no_let t && forallb (fun x => negb (smem x l)) (bnames t).
Fixpoint hyg (h : hstate) (l : list anchor) : option hstate :=
  match l with
  | [] => Some h
  | AVar v :: r => if negb (existsb (svar_eqb v) (fst h)) && unused v h then hyg h r else None
  | AAssign v t :: r =>
      if term_eqb t (TVar (fst v) (snd v)) then hyg h r
      else if negb (free_in (fst v) (snd v) t) && unused v h && avoids_b (hnames h) t
           then hyg (v :: fst h, t :: snd h) r else None
  end.
(** the open anchors, innermost first *)
Fixpoint hyg_ctx (cx : list (list anchor)) : option hstate :=
  match cx with
  | [] => Some ([], [])
  | a :: r => match hyg_ctx r with Some h => hyg h a | None => None end
  end.

Lemma avoids_b_spec l t : avoids_b l t = true <-> avoids l t.
Proof.
  unfold avoids_b, avoids. rewrite andb_true_iff, forallb_forall. split; intros [H1 H2]; (split; [auto|]); intros x Hx.
  - specialize (H2 x Hx). apply negb_true_iff in H2. rewrite <- smem_In. congruence.
  - apply negb_true_iff, not_true_iff_false. rewrite smem_In. auto.
Qed.

(** ** Names *)
Definition nmi (L : list string) (S : sub) : Prop :=
  (forall k v, In (k, v) (sm S) -> v = k \/ incl (anames v) L /\ incl (vname k) L /\ no_let v = true) /\
  (forall l, sb S = Some l -> incl l L) /\
  (forall k r, sget (sc S) k = Some r -> no_let k = true /\ no_let r = true /\ incl (anames r) (L ++ anames k) /\ (is_var k = true -> r = k)).
Lemma fvars_anames t x : In x (map fst (fvars t)) -> In x (anames t).
Proof. intros H. apply in_map_iff in H. destruct H as [[y s] [<- H]]. apply fvars_sub in H. eapply free_anames; eauto. Qed.
Lemma nmi_names L S : nmi L S -> incl (sub_names S) L.
Proof.
  intros [H1 [H2 _]]. unfold sub_names. destruct (sb S) as [l|]; [auto|]. intros x Hx. apply in_flat_map in Hx. destruct Hx as [[k v] [Hk Hx]].
  cbn [fst snd] in Hx. unfold sbr1 in Hx. destruct (term_eqb k v) eqn:E; [destruct Hx|]. destruct (H1 _ _ Hk) as [-> |[Ha [Hb _]]].
  - rewrite (proj2 (term_eqb_eq k k)) in E; [discriminate|auto].
  - apply in_app_or in Hx. destruct Hx as [Hx|Hx]; [apply Ha, fvars_anames; auto|auto].
Qed.
Lemma nmi_with L S : nmi L S -> nmi L (with_names S).
Proof.
  intros H. pose proof (nmi_names _ _ H) as Hn. destruct H as [H1 [H2 H3]]. split; [auto|]. split; [|auto]. cbn. intros l Hl. injection Hl as <-. auto.
Qed.
Lemma incl_app_mono {A} (L : list A) a b : incl a b -> incl (L ++ a) (L ++ b).
Proof. intros H. apply incl_app; [apply incl_appl, incl_refl|apply incl_appr; auto]. Qed.
Definition named (L : list string) (t t' : term) : Prop := no_let t' = true /\ incl (anames t') (L ++ anames t).
Lemma apply_names : forall n L S t, tsize t <= n -> avoids L t -> nmi L S ->
  exists t' S', apply n S t = ROk (t', S', true) /\ sm S' = sm S /\ nmi L S' /\ named L t t'.
Proof.
  induction n as [|n IH]; intros L S t Hn Ha HS; [destruct t; cbn [tsize] in Hn; lia|]. cbn [apply].
  destruct (sget (sc S) t) as [v|] eqn:Ec.
  { exists v, S. split; [auto|]. split; [auto|]. split; [auto|]. destruct HS as [_ [_ HS]]. apply HS in Ec. split; apply Ec. }
  destruct (sget (sm S) t) as [v|] eqn:Eg.
  { exists v, S. split; [auto|]. split; [auto|]. split; [auto|]. destruct HS as [HS _]. apply sget_In in Eg. destruct (HS _ _ Eg) as [-> |[H1 [_ H2]]].
    - split; [apply Ha|apply incl_appr, incl_refl].
    - split; [auto|]. apply incl_appl; auto. }
  enough (exists t' S', apply_body (apply n) S t = ROk (t', S', true) /\ sm S' = sm S /\ nmi L S' /\ named L t t' /\ (is_var t = true -> t' = t)) as [t' [S' [A [B [C [[D1 D2] D3]]]]]].
  { exists t', (cached S' t t'). rewrite A. cbn [obind]. split; [auto|]. split; [auto|]. split; [|split; auto].
    destruct C as [C1 [C2 C3]]. split; [auto|]. split; [auto|]. intros k r Hk. cbn [cached sc] in Hk. rewrite sget_sins in Hk.
    destruct (term_eqb k t) eqn:E; [|auto]. apply term_eqb_eq in E. injection Hk as <-. subst k. split; [apply Ha|]. split; [auto|]. split; auto. }
  assert (HA : forall args S, (forall t, In t args -> tsize t <= n /\ avoids L t) -> nmi L S ->
    exists args' S', apply_seq (apply n) S args = ROk (args', S', true) /\ sm S' = sm S /\ nmi L S' /\
      forallb no_let args' = true /\ incl (flat_map anames args') (L ++ flat_map anames args)).
  { clear Ec Eg HS S. induction args as [|a args IHa]; intros S Hargs Hs0; cbn [apply_seq].
    - exists [], S. split; [auto|]. split; [auto|]. split; [auto|]. split; [auto|]. intros x [].
    - destruct (Hargs a (or_introl eq_refl)) as [A1 A2]. destruct (IH L S a A1 A2 Hs0) as [a' [S1 [-> [B1 [B2 [B3 B4]]]]]]. cbn [obind].
      destruct (IHa S1 (fun t Ht => Hargs t (or_intror Ht)) B2) as [r' [S2 [-> [C1 [C2 [C3 C4]]]]]]. cbn [obind]. exists (a' :: r'), S2.
      split; [auto|]. split; [congruence|]. split; [auto|]. split; [cbn; rewrite B3, C3; auto|]. cbn [flat_map]. apply incl_app.
      + intros x Hx. apply B4 in Hx. rewrite !in_app_iff in *. tauto.
      + intros x Hx. apply C4 in Hx. rewrite !in_app_iff in *. tauto. }
  destruct t as [c|x s|f args|o args|s|b vs inner|bs inner|o oa args]; cbn [apply_body];
    try (eexists; exists S; split; [reflexivity|]; split; [auto|]; split; [auto|]; split; [|auto]; split; [auto|]; apply incl_appr, incl_refl); cbn [tsize] in Hn.
  - destruct Ha as [H1 H2]. cbn in H1, H2. apply andb_true_iff in H1. destruct H1 as [H1 H1'].
    destruct (HA args S) as [args' [S1 [-> [B1 [B2 [B3 B4]]]]]]; [|auto|].
    { intros t Ht. split; [apply (list_sum_in _ args); auto; lia|]. rewrite forallb_forall in H1'. split; [auto|].
      intros x Hx. apply H2. apply in_or_app. right. apply in_flat_map. eauto. }
    cbn [obind]. destruct (IH L S1 f) as [f' [S2 [-> [C1 [C2 [C3 C4]]]]]]; [lia| |auto|].
    { split; [auto|]. intros x Hx. apply H2. apply in_or_app. auto. }
    cbn [obind]. exists (TApp f' args'), S2. split; [auto|]. split; [congruence|]. split; [auto|]. split; [|discriminate]. split; [cbn [no_let]; rewrite B3, C3; auto|].
    cbn [anames]. apply incl_app; intros x Hx; [apply C4 in Hx|apply B4 in Hx]; rewrite !in_app_iff in *; tauto.
  - destruct (HA args S) as [args' [S1 [-> [B1 [B2 [B3 B4]]]]]]; [|auto|].
    { intros t Ht. split; [apply (list_sum_in _ args); auto; lia|]. apply (avoids_args L args); auto. }
    cbn [obind]. exists (TOp o args'), S1. split; [auto|]. split; [auto|]. split; [auto|]. split; [|discriminate]. split; auto.
  - cbv zeta. destruct Ha as [H1 H2]. cbn in H1, H2.
    assert (Hvs : forall v, In v vs -> ~ In (fst v) (sub_names S)).
    { intros v Hv Hq. apply (H2 (fst v)); [apply in_or_app; left; apply in_map; auto|]. apply (nmi_names _ _ HS). auto. }
    rewrite (no_skip (sm S) _ vs Hvs), (rename_vars_id _ vs [] Hvs).
    destruct (IH L (with_names S) inner) as [i' [S1 [-> [C1 [C2 [C3 C4]]]]]]; [lia| |apply nmi_with; auto|].
    { split; [auto|]. intros x Hx. apply H2. apply in_or_app. auto. }
    cbn [obind]. exists (TBind b vs i'), S1. split; [auto|]. split; [auto|]. split; [auto|]. split; [|discriminate]. split; [auto|]. cbn [anames].
    apply incl_app; intros x Hx; [|apply C4 in Hx]; rewrite !in_app_iff in *; tauto.
  - destruct Ha as [H1 _]. discriminate.
  - destruct (HA args S) as [args' [S1 [-> [B1 [B2 [B3 B4]]]]]]; [|auto|].
    { intros t Ht. split; [apply (list_sum_in _ args); auto; lia|]. apply (avoids_args L args); auto. }
    cbn [obind]. exists (TPOp o oa args'), S1. split; [auto|]. split; [auto|]. split; [auto|]. split; [|discriminate]. split; auto.
Qed.
Lemma nmi_mono L L' S : incl L L' -> nmi L S -> nmi L' S.
Proof.
  intros Hi [H1 [H2 H3]]. split; [|split].
  - intros k v Hk. destruct (H1 _ _ Hk) as [?|[A [B C]]]; [auto|right]. split; [|split]; eauto using incl_tran.
  - intros l Hl. eauto using incl_tran.
  - intros k r Hk. destruct (H3 _ _ Hk) as [A [B [C D]]]. split; [auto|]. split; [auto|]. split; [|auto]. eapply incl_tran; [exact C|]. apply incl_app; [apply incl_appl; auto|apply incl_appr, incl_refl].
Qed.

(** ** The invariant of one level: the state [h] of the anchors up to here, the environments [P] they allow *)
Definition sup (us : list term) (v : term) : Prop :=
  forall (I : interp) (E1 E2 : env I), (forall x s t, In t us -> free_in x s t = true -> E1 x s = E2 x s) -> eval v E1 = eval v E2.
Definition envp : Type := forall I : interp, env I -> Prop.
Definition lv_ok (h : hstate) (P : envp) (S : sub) : Prop :=
  inv_s (sm S) S /\ nmi (hnames h) S /\
  (forall k v, sget (sm S) k = Some v -> v = k \/ sup (snd h) v /\ exists x s, k = TVar x s /\ In (x, s) (fst h)) /\
  (forall (I : interp) (E : env I), P I E -> forall x s, sub_env (sm S) E x s = E x s).
Lemma lv_empty P : lv_ok ([], []) P sub_empty.
Proof.
  split; [apply inv_s_of; intros k v Hk; discriminate|]. split; [|split].
  - split; [intros k v []|]. split; [discriminate|]. intros k r H. discriminate.
  - intros k v H. discriminate.
  - intros I E _ x s. reflexivity.
Qed.
Lemma sget_srem m x k : sget (srem m x) k = if term_eqb x k then None else sget m k.
Proof.
  unfold srem. rewrite (sget_filter (fun k => negb (term_eqb x k))). destruct (term_eqb x k); reflexivity.
Qed.
Lemma sins_In (m : smap) a b k v : In (k, v) (sins m a b) -> In (k, v) m \/ (k = a /\ v = b).
Proof.
  unfold sins. induction m as [|[c d] m IH]; cbn [im_insert In]; [intros [H|[]]; right; split; congruence|].
  destruct (term_eqb a c) eqn:E; cbn [In].
  - apply term_eqb_eq in E. subst. intros [H|H]; [right; split; congruence|auto].
  - intros [H|H]; [auto|]. apply IH in H. tauto.
Qed.
Lemma unused_spec v h : unused v h = true -> forall t, In t (snd h) -> free_in (fst v) (snd v) t = false.
Proof. unfold unused. rewrite forallb_forall. intros H t Ht. apply H in Ht. apply negb_true_iff in Ht. auto. Qed.
Lemma sup_upd us v (I : interp) (E : env I) x s w : sup us v -> (forall t, In t us -> free_in x s t = false) -> eval v (upd E x s w) = eval v E.
Proof.
  intros H Hu. apply H. intros y s' t Ht Hf. apply upd_other. intros Hq. injection Hq as -> ->. rewrite (Hu t Ht) in Hf. discriminate.
Qed.

Lemma add_var h P S x s : lv_ok h P S -> negb (existsb (svar_eqb (x, s)) (fst h)) && unused (x, s) h = true ->
  lv_ok h (fun I E' => exists E v, P I E /\ idom I s v = true /\ E' = upd E x s v) (sub_remove S (TVar x s)).
Proof.
  intros [H1 [H2 [H3 H4]]] Hh. apply andb_true_iff in Hh. destruct Hh as [Hx Hu]. apply negb_true_iff in Hx.
  assert (Hid : forall v, sget (sm S) (TVar x s) = Some v -> v = TVar x s).
  { intros v Hv. destruct (H3 _ _ Hv) as [?|[_ [y [s' [Hq Hi]]]]]; [auto|]. injection Hq as <- <-. apply svar_mem in Hi. congruence. }
  assert (Hagree : forall (I : interp) (E : env I) w, P I E -> forall k v, sget (sm S) k = Some v -> k <> TVar x s -> forall y s', k = TVar y s' ->
     eval v (upd E x s w) = upd E x s w y s').
  { intros I E w HE k v Hk Hn y s' ->. rewrite upd_other by (intros Hq; injection Hq as -> ->; auto).
    destruct (H3 _ _ Hk) as [-> |[Hs _]].
    - cbn [eval]. rewrite upd_other; [reflexivity|]. intros Hq; injection Hq as -> ->; auto.
    - rewrite (sup_upd _ _ _ _ _ _ _ Hs (unused_spec _ _ Hu)). specialize (H4 I E HE y s'). unfold sub_env in H4. rewrite Hk in H4. exact H4. }
  unfold sub_remove. destruct (sget (sm S) (TVar x s)) as [v0|] eqn:E0.
  - specialize (Hid v0 eq_refl). subst v0.
    assert (Henv : forall (I : interp) (E : env I) y s', sub_env (sm S) E y s' = sub_env (srem (sm S) (TVar x s)) E y s').
    { intros I E y s'. unfold sub_env. rewrite sget_srem. destruct (term_eqb (TVar x s) (TVar y s')) eqn:E1; [|reflexivity].
      apply term_eqb_eq in E1. injection E1 as <- <-. rewrite E0. reflexivity. }
    split; [|split; [|split]].
    + destruct H1 as [_ [Hg [Hs Hc]]]. split; [reflexivity|]. cbn [sm sb sc]. split; [|split; [exact Logic.I|]].
      * intros k v Hk. rewrite sget_srem in Hk. destruct (term_eqb (TVar x s) k); [discriminate|]. auto.
      * intros k r Hk Hw. destruct (Hc k r Hk Hw) as [A [B C]]. split; [auto|]. split; [auto|]. intros I E. rewrite C. apply eval_ext. apply Henv.
    + destruct H2 as [N1 [N2 N3]]. split; [|split].
      * intros k v Hk. cbn [sm] in Hk. unfold srem in Hk. apply filter_In in Hk. apply N1. apply Hk.
      * discriminate.
      * exact N3.
    + intros k v Hk. cbn [sm] in Hk. rewrite sget_srem in Hk. destruct (term_eqb (TVar x s) k); [discriminate|]. auto.
    + intros I E' [E [v [HE [Hv ->]]]] y s'. cbn [sm]. unfold sub_env. rewrite sget_srem. destruct (term_eqb (TVar x s) (TVar y s')) eqn:E1; [reflexivity|].
      destruct (sget (sm S) (TVar y s')) as [w|] eqn:Ew; [|reflexivity]. eapply Hagree; eauto. intros Hq. injection Hq as -> ->.
      rewrite (proj2 (term_eqb_eq (TVar x s) (TVar x s))) in E1; [discriminate|auto].
  - split; [exact H1|]. split; [auto|]. split; [auto|]. intros I E' [E [v [HE [Hv ->]]]] y s'. unfold sub_env.
    destruct (sget (sm S) (TVar y s')) as [w|] eqn:Ew; [|reflexivity]. eapply Hagree; eauto. congruence.
Qed.

Lemma inv_insert S x s t' : inv_s (sm S) S -> wt t' = true -> sort_of t' = s -> no_let t' = true ->
  (forall k r, sget (sc S) k = Some r -> no_let k = true) -> inv_s (sins (sm S) (TVar x s) t') (sub_insert S (TVar x s) t').
Proof.
  intros [_ [Hg [Hs Hc]]] Hw Hso Hn Hk. split; [reflexivity|]. split; [|split].
  - intros k v Hv. rewrite sget_sins in Hv. destruct (term_eqb k (TVar x s)) eqn:E; [|auto]. apply term_eqb_eq in E. subst k. injection Hv as <-.
    exists x, s. split; [auto|]. split; [auto|]. split; [auto|]. intros y s'. apply fvars_spec. auto.
  - cbn [sub_insert sb]. destruct (sb S) as [l|]; cbn [sb_ok']; [|exact Logic.I]. intros k v Hv. rewrite sget_sins in Hv.
    destruct (term_eqb k (TVar x s)) eqn:E; [apply term_eqb_eq in E; subst k; injection Hv as <-; apply incl_appr, incl_refl|].
    apply incl_appl. apply Hs. auto.
  - intros k r Hv Hwk. cbn [sub_insert sc] in Hv. rewrite (sget_filter (fun t => negb (in_fvars (TVar x s) t))) in Hv.
    destruct (negb (in_fvars (TVar x s) k)) eqn:E; [|discriminate]. destruct (Hc k r Hv Hwk) as [A [B C]]. split; [auto|]. split; [auto|].
    intros I E0. rewrite C. apply eval_agree. intros y s' Hy. unfold sub_env. rewrite sget_sins. destruct (term_eqb (TVar y s') (TVar x s)) eqn:E1; [|reflexivity].
    apply term_eqb_eq in E1. injection E1 as -> ->. apply negb_true_iff in E. cbn [in_fvars] in E.
    apply (fvars_spec k (Hk _ _ Hv)) in Hy. apply svar_mem in Hy. congruence.
Qed.

Lemma add_assign h P S x s t : lv_ok h P S -> wt t = true -> sort_of t = s ->
  (if term_eqb t (TVar x s) then True else negb (free_in x s t) && unused (x, s) h && avoids_b (hnames h) t = true) ->
  exists S', add_arg S (AAssign (x, s) t) = ROk (S', true) /\
  lv_ok (if term_eqb t (TVar x s) then h else ((x, s) :: fst h, t :: snd h)) (fun I E' => exists E, P I E /\ E' = upd E x s (eval t E)) S'.
Proof.
  intros [H1 [H2 [H3 H4]]] Hw Hs Hh. cbn [add_arg].
  assert (Hav : avoids (hnames h) t).
  { destruct (term_eqb t (TVar x s)) eqn:E; [apply term_eqb_eq in E; subst t; split; [auto|intros ? []]|].
    apply andb_true_iff in Hh. apply avoids_b_spec. apply Hh. }
  destruct (apply_names (tsize t) _ S t (le_n _) Hav H2) as [t' [S1 [HA [Hm [N1 [N2 N3]]]]]]. unfold sub_apply. rewrite HA. cbn [obind].
  destruct (apply_sound _ _ _ _ _ _ H1 Hw HA) as [I1 [R1 [R2 R3]]]. rewrite R2, Hs, (proj2 (sort_eqb_eq s s) eq_refl).
  eexists. split; [reflexivity|].
  assert (Hins : inv_s (sins (sm S1) (TVar x s) t') (sub_insert S1 (TVar x s) t')).
  { apply inv_insert; auto; [rewrite Hm; exact I1|congruence|]. intros k r Hk. apply N1 in Hk. apply Hk. }
  assert (Hval : forall (I : interp) (E : env I), P I E -> eval t' E = eval t E).
  { intros I E HE. rewrite R3. apply eval_ext. apply H4. auto. }
  assert (Hu : term_eqb t (TVar x s) = false -> forall t0, In t0 (t :: snd h) -> free_in x s t0 = false).
  { intros Et. rewrite Et in Hh. rewrite !andb_true_iff in Hh. destruct Hh as [[Hf Hu] _]. apply negb_true_iff in Hf.
    intros t0 [<-|Ht]; [auto|]. apply (unused_spec _ _ Hu); auto. }
  destruct (term_eqb t (TVar x s)) eqn:Et.
  - apply term_eqb_eq in Et. subst t. clear Hh Hu.
    assert (Ht' : t' = TVar x s \/ sget (sm S) (TVar x s) = Some t').
    { cbn [tsize apply] in HA. destruct (sget (sc S) (TVar x s)) as [r|] eqn:Ec.
      - assert (r = t') by congruence. subst. left. apply H2 in Ec. apply Ec. reflexivity.
      - destruct (sget (sm S) (TVar x s)) as [r|]; [right; congruence|]. cbn [apply_body obind] in HA. left. congruence. }
    assert (Hent : t' = TVar x s \/ sup (snd h) t' /\ In (x, s) (fst h)).
    { destruct Ht' as [?|Ht']; [auto|]. destruct (H3 _ _ Ht') as [?|[A [y [s' [Hq Hi]]]]]; [auto|]. injection Hq as <- <-. auto. }
    split; [exact Hins|]. split; [|split].
    + destruct N1 as [M1 [M2 M3]]. assert (HL : t' = TVar x s \/ incl (anames t') (hnames h) /\ incl [x] (hnames h) /\ no_let t' = true).
      { destruct Ht' as [?|Ht']; [auto|]. apply sget_In in Ht'. apply H2 in Ht'. exact Ht'. }
      split; [|split].
      * intros k v Hk. cbn [sub_insert sm] in Hk. apply sins_In in Hk. destruct Hk as [Hk|[-> ->]]; [auto|exact HL].
      * cbn [sub_insert sb]. intros l Hl. destruct (sb S1) as [l0|] eqn:Eb; [|discriminate]. injection Hl as <-. apply incl_app; [auto|].
        unfold sbr1. destruct (term_eqb (TVar x s) t') eqn:E1; [intros ? []|]. destruct HL as [-> |[A [B _]]]; [rewrite (proj2 (term_eqb_eq _ _) eq_refl) in E1; discriminate|].
        apply incl_app; [|exact B]. intros z Hz. apply A, fvars_anames; auto.
      * intros k r Hk. cbn [sub_insert sc] in Hk. rewrite (sget_filter (fun t => negb (in_fvars (TVar x s) t))) in Hk. destruct (negb _); [apply M3; exact Hk|discriminate].
    + intros k v Hk. cbn [sub_insert sm] in Hk. rewrite sget_sins in Hk. destruct (term_eqb k (TVar x s)) eqn:E1; [|rewrite Hm in Hk; auto].
      apply term_eqb_eq in E1. subst k. injection Hk as <-. destruct Hent as [?|[A B]]; [auto|right]. split; [auto|]. exists x, s. auto.
    + intros I E' [E [HE ->]] y s'. cbn [sub_insert sm]. unfold sub_env. rewrite sget_sins.
      assert (HX : forall v, eval v (upd E x s (eval (TVar x s) E)) = eval v E).
      { intros v. apply eval_ext. intros z s2. cbn [eval]. unfold upd. destruct (_ && _) eqn:E1; [|reflexivity]. apply andb_true_iff in E1. destruct E1 as [E1 E2].
        apply String.eqb_eq in E1. apply sort_eqb_eq in E2. subst. reflexivity. }
      replace (upd E x s (eval (TVar x s) E) y s') with (E y s') by (symmetry; apply (HX (TVar y s'))).
      destruct (term_eqb (TVar y s') (TVar x s)) eqn:E1.
      * apply term_eqb_eq in E1. injection E1 as -> ->. rewrite HX. apply (Hval I E HE).
      * rewrite Hm. specialize (H4 I E HE y s'). unfold sub_env in H4. destruct (sget (sm S) (TVar y s')); [rewrite HX; auto|reflexivity].
  - specialize (Hu eq_refl).
    assert (Hsup : sup (t :: snd h) t').
    { intros I E1 E2 Hag. rewrite !R3. apply eval_agree. intros y s' Hy. unfold sub_env.
      destruct (sget (sm S) (TVar y s')) as [v|] eqn:Ev.
      + destruct (H3 _ _ Ev) as [-> |[Hv _]]; [apply (Hag y s' t); [left; auto|auto]|]. apply Hv. intros z s2 t2 Ht Hf. apply (Hag z s2 t2); [right; auto|auto].
      + apply (Hag y s' t); [left; auto|auto]. }
    assert (HL : incl (hnames h) (hnames ((x, s) :: fst h, t :: snd h))).
    { unfold hnames. cbn [fst snd map flat_map]. intros z Hz. apply in_app_or in Hz. apply in_or_app. destruct Hz; [left; right; auto|right; apply in_or_app; auto]. }
    assert (HT : incl (anames t') (hnames ((x, s) :: fst h, t :: snd h))).
    { intros z Hz. apply N3 in Hz. apply in_app_or in Hz. destruct Hz as [Hz|Hz]; [auto|]. apply in_or_app. right. cbn [fst snd flat_map]. apply in_or_app. auto. }
    split; [exact Hins|]. split; [|split].
    + apply (nmi_mono _ _ _ HL) in N1. destruct N1 as [M1 [M2 M3]]. split; [|split].
      * intros k v Hk. cbn [sub_insert sm] in Hk. apply sins_In in Hk. destruct Hk as [Hk|[-> ->]]; [auto|]. right. split; [auto|]. split; [|auto].
        intros z [<-|[]]. left. reflexivity.
      * cbn [sub_insert sb]. intros l Hl. destruct (sb S1) as [l0|] eqn:Eb; [|discriminate]. injection Hl as <-. apply incl_app; [auto|].
        unfold sbr1. destruct (term_eqb (TVar x s) t'); [intros ? []|]. apply incl_app; [intros z Hz; apply HT, fvars_anames; auto|]. intros z [<-|[]]. left. reflexivity.
      * intros k r Hk. cbn [sub_insert sc] in Hk. rewrite (sget_filter (fun t => negb (in_fvars (TVar x s) t))) in Hk. destruct (negb (in_fvars (TVar x s) k)); [apply M3; exact Hk|discriminate].
    + intros k v Hk. cbn [sub_insert sm] in Hk. rewrite sget_sins in Hk. destruct (term_eqb k (TVar x s)) eqn:E1.
      * apply term_eqb_eq in E1. subst k. injection Hk as <-. right. split; [auto|]. exists x, s. split; [auto|]. left. auto.
      * rewrite Hm in Hk. destruct (H3 _ _ Hk) as [?|[A [y [s' [-> Hi]]]]]; [auto|right]. split; [|exists y, s'; split; [auto|right; auto]].
        intros I E1' E2' Hag. apply A. intros z s2 t2 Ht. apply Hag. right; auto.
    + intros I E' [E [HE ->]] y s'. cbn [sub_insert sm]. unfold sub_env. rewrite sget_sins.
      assert (Hag : forall z s2 t2, In t2 (t :: snd h) -> free_in z s2 t2 = true -> upd E x s (eval t E) z s2 = E z s2).
      { intros z s2 t2 Ht Hf. apply upd_other. intros Hq. injection Hq as -> ->. rewrite (Hu t2 Ht) in Hf. discriminate. }
      destruct (term_eqb (TVar y s') (TVar x s)) eqn:E1.
      * apply term_eqb_eq in E1. injection E1 as -> ->. rewrite upd_same, (Hsup I _ E Hag). apply Hval. auto.
      * assert (Hne : (y, s') <> (x, s)) by (intros Hq; injection Hq as -> ->; rewrite (proj2 (term_eqb_eq _ _) eq_refl) in E1; discriminate).
        rewrite upd_other by auto. rewrite Hm. specialize (H4 I E HE y s'). unfold sub_env in H4.
        destruct (sget (sm S) (TVar y s')) as [v|] eqn:Ev; [|reflexivity].
        destruct (H3 _ _ Ev) as [-> |[Hv _]]; [cbn [eval]; rewrite upd_other; auto|]. rewrite <- H4. apply Hv. intros z s2 t2 Ht Hf. apply (Hag z s2 t2); [right; auto|auto].
Qed.

(** ** A whole anchor, and the stack *)
Lemma add_args_ok : forall l h h' P S, lv_ok h P S -> hyg h l = Some h' -> forallb anchor_wt l = true ->
  exists S', add_args S l = ROk (S', true) /\ lv_ok h' (fun I E' => exists E, P I E /\ ext l E E') S'.
Proof.
  induction l as [|a l IH]; intros h h' P S HS Hh Hw; cbn [hyg] in Hh.
  - injection Hh as <-. exists S. split; [reflexivity|]. destruct HS as [A [B [C D]]]. split; [auto|]. split; [auto|]. split; [auto|].
    intros I E' [E [HE He]]. inversion He; subst. auto.
  - cbn [forallb] in Hw. apply andb_true_iff in Hw. destruct Hw as [Ha Hw]. cbn [add_args]. destruct a as [[x s]|[x s] t].
    + destruct (negb _ && _) eqn:Ec in Hh; [|discriminate]. cbn [add_arg obind]. apply (add_var h P S) in Ec; [|exact HS].
      destruct (IH _ _ _ _ Ec Hh Hw) as [S' [-> HS']]. cbn [obind]. exists S'. split; [reflexivity|]. destruct HS' as [A [B [C D]]].
      split; [auto|]. split; [auto|]. split; [auto|]. intros I E' [E [HE He]]. apply D. inversion He; subst. eauto 8.
    + cbn [anchor_wt] in Ha. apply andb_true_iff in Ha. destruct Ha as [Ht Hs]. apply sort_eqb_eq in Hs. cbn [fst snd] in Hh.
      assert (HC : (if term_eqb t (TVar x s) then True else negb (free_in x s t) && unused (x, s) h && avoids_b (hnames h) t = true) /\
                   hyg (if term_eqb t (TVar x s) then h else ((x, s) :: fst h, t :: snd h)) l = Some h').
      { destruct (term_eqb t (TVar x s)); [auto|]. destruct (_ && _ && _); [auto|discriminate]. }
      destruct HC as [HC Hh']. destruct (add_assign h P S x s t HS Ht Hs HC) as [S1 [-> HS1]]. cbn [obind].
      destruct (IH _ _ _ _ HS1 Hh' Hw) as [S' [-> HS']]. cbn [obind]. exists S'. split; [reflexivity|]. destruct HS' as [A [B [C D]]].
      split; [auto|]. split; [auto|]. split; [auto|]. intros I E' [E [HE He]]. apply D. inversion He; subst. eauto 8.
Qed.

Definition ctx_env (cx : list (list anchor)) : envp := fun I E => in_ctx cx E.
(** the stack [st] is for the open anchors [cx]; what is calculated is right *)
Fixpoint stk_ok (cx : list (list anchor)) (st : cstack) : Prop :=
  match cx, st with
  | [], [] => True
  | a :: cx', mkLv a' o :: st' =>
      a' = a /\ forallb anchor_wt a = true /\ stk_ok cx' st' /\
      exists h, hyg_ctx (a :: cx') = Some h /\
        match o with Some sg => lv_ok h (ctx_env (a :: cx')) sg /\ (match st' with mkLv _ None :: _ => False | _ => True end) | None => True end
  | _, _ => False
  end.
Lemma catch_up_ok : forall cx st, stk_ok cx st -> exists st', catch_up st = ROk st' /\ stk_ok cx st' /\
  (match st' with mkLv _ None :: _ => False | _ => True end).
Proof.
  induction cx as [|a cx IH]; intros [|[a' o] st] H; cbn [stk_ok] in H; try contradiction.
  - exists []. cbn. auto.
  - destruct H as [-> [Hw [Hst [h [Hh Ho]]]]]. destruct o as [S|]; cbn [catch_up].
    + eexists. split; [reflexivity|]. split; [|auto]. cbn [stk_ok]. split; [auto|]. split; [auto|]. split; [auto|]. exists h. auto.
    + destruct (IH st Hst) as [st1 [-> [H1 H2]]]. cbn [obind]. cbn [hyg_ctx] in Hh. destruct (hyg_ctx cx) as [h0|] eqn:E0; [|discriminate].
      assert (HL : lv_ok h0 (ctx_env cx) (top_sub st1)).
      { destruct cx as [|a2 cx2], st1 as [|[a3 o3] st3]; cbn [stk_ok] in H1; try contradiction.
        - cbn in E0. injection E0 as <-. apply lv_empty.
        - destruct o3 as [S3|]; [|contradiction]. destruct H1 as [-> [_ [_ [h2 [Hh2 [HS _]]]]]]. rewrite E0 in Hh2. injection Hh2 as <-. exact HS. }
      destruct (add_args_ok a h0 h _ _ HL Hh Hw) as [S' [-> HS']]. cbn [obind fst]. eexists. split; [reflexivity|]. split; [|auto].
      cbn [stk_ok]. split; [auto|]. split; [auto|]. split; [auto|]. exists h. split; [cbn [hyg_ctx]; rewrite E0; auto|]. split; [|auto].
      destruct HS' as [A [B [C D]]]. split; [auto|]. split; [auto|]. split; [auto|]. intros I E' HE'. apply D. unfold ctx_env in *. inversion HE'; subst. eauto.
Qed.
Lemma lv_apply h P S t : lv_ok h P S -> wt t = true -> avoids (hnames h) t ->
  exists t' S', sub_apply S t = ROk (t', S', true) /\ lv_ok h P S' /\ wt t' = true /\ sort_of t' = sort_of t /\
    forall (I : interp) (E : env I), P I E -> eval t' E = eval t E.
Proof.
  intros [H1 [H2 [H3 H4]]] Hw Ha. destruct (apply_names (tsize t) _ S t (le_n _) Ha H2) as [t' [S' [HA [Hm [N1 N2]]]]].
  destruct (apply_sound _ _ _ _ _ _ H1 Hw HA) as [I1 [R1 [R2 R3]]]. exists t', S'. split; [exact HA|]. split.
  - unfold lv_ok. rewrite Hm. auto.
  - split; [auto|]. split; [auto|]. intros I E HE. rewrite R3. apply eval_ext. auto.
Qed.

(** *** Histories *)
(** the open anchors after an operation *)
Definition cx_after (cx : list (list anchor)) (o : cop) : list (list anchor) :=
  match o with OpPush a => a :: cx | OpPop => tl cx | _ => cx end.
(** the anchors whose substitution [o] applies *)
Definition cx_used (cx : list (list anchor)) (o : cop) : list (list anchor) :=
  match o with OpApplyPrev _ => (match cx with [] | [_] => [] | _ => tl cx end) | _ => cx end.
Definition op_ok (cx : list (list anchor)) (o : cop) : Prop :=
  match o with
  | OpPush a => forallb anchor_wt a = true /\ hyg_ctx (a :: cx) <> None
  | OpPop => True
  | OpApply t | OpApplyPrev t => wt t = true /\ exists h, hyg_ctx (cx_used cx o) = Some h /\ avoids (hnames h) t
  end.
Fixpoint ops_ok (cx : list (list anchor)) (ops : list cop) : Prop :=
  match ops with [] => True | o :: r => op_ok cx o /\ ops_ok (cx_after cx o) r end.
(** [t'] means the same as [t] wherever the anchors [cx] are respected *)
Definition same_in (cx : list (list anchor)) (t t' : term) : Prop :=
  wt t' = true /\ sort_of t' = sort_of t /\ forall (I : interp) (E : env I), in_ctx cx E -> eval t' E = eval t E.
Fixpoint outs_ok (cx : list (list anchor)) (ops : list cop) (outs : list term) : Prop :=
  match ops with
  | [] => outs = []
  | (OpApply t | OpApplyPrev t) as o :: r =>
      match outs with t' :: outs' => same_in (cx_used cx o) t t' /\ outs_ok cx r outs' | [] => False end
  | o :: r => outs_ok (cx_after cx o) r outs
  end.
Lemma apply_top cx st t : stk_ok cx st -> wt t = true -> (exists h, hyg_ctx cx = Some h /\ avoids (hnames h) t) ->
  exists t' st', ctx_apply st t = ROk (t', st') /\ stk_ok cx st' /\ same_in cx t t'.
Proof.
  intros Hst Hw [h [Hh Ha]]. destruct (catch_up_ok cx st Hst) as [st1 [HC [H1 H2]]].
  destruct cx as [|a cx], st as [|lv st]; cbn [stk_ok] in Hst; try contradiction.
  { exists t, []. split; [reflexivity|]. split; [exact Logic.I|]. split; [auto|]. split; auto. }
  unfold ctx_apply. rewrite HC. cbn [obind]. destruct st1 as [|[a1 [S|]] st1]; cbn [stk_ok] in H1; try contradiction.
  destruct H1 as [-> [B1 [B2 [h' [B3 [B4 B5]]]]]]. rewrite Hh in B3. injection B3 as <-.
  destruct (lv_apply _ _ _ t B4 Hw Ha) as [t' [S' [-> [C1 [C2 [C3 C4]]]]]]. cbn [obind]. exists t'. eexists. split; [reflexivity|]. split.
  - cbn [stk_ok]. split; [auto|]. split; [auto|]. split; [auto|]. exists h. auto.
  - split; [auto|]. split; auto.
Qed.
Lemma apply_prev_ok cx st t : stk_ok cx st -> wt t = true -> (exists h, hyg_ctx (cx_used cx (OpApplyPrev t)) = Some h /\ avoids (hnames h) t) ->
  exists t' st', ctx_apply_prev st t = ROk (t', st') /\ stk_ok cx st' /\ same_in (cx_used cx (OpApplyPrev t)) t t'.
Proof.
  intros Hst Hw [h [Hh Ha]]. destruct (catch_up_ok cx st Hst) as [st1 [HC [H1 H2]]].
  destruct cx as [|a [|b cx]]; destruct st as [|lv [|lv2 st]]; cbn [stk_ok] in Hst;
    try contradiction; try (destruct lv as [? ?]; try (destruct lv2); tauto).
  - exists t, []. split; [reflexivity|]. split; [exact Logic.I|]. split; [auto|]. split; auto.
  - exists t, [lv]. split; [reflexivity|]. split; [exact Hst|]. split; [auto|]. split; auto.
  - unfold ctx_apply_prev. rewrite HC. cbn [obind]. destruct st1 as [|[a1 [S|]] [|[b1 [S1|]] st1]]; cbn [stk_ok] in H1; try contradiction; try (exfalso; clear -H1; tauto).
    2: { exfalso. destruct H1 as [_ [_ [_ [h' [_ [_ F]]]]]]. exact F. }
    destruct H1 as [-> [A1 [[-> [B1 [B2 [h2 [B3 [B4 B5]]]]]] [h1 [A3 [A4 A5]]]]]]. cbn [cx_used tl] in Hh. rewrite Hh in B3. injection B3 as <-.
    destruct (lv_apply _ _ _ t B4 Hw Ha) as [t' [S' [-> [C1 [C2 [C3 C4]]]]]]. cbn [obind]. exists t'. eexists. split; [reflexivity|]. split.
    + cbn [stk_ok]. split; [auto|]. split; [auto|]. split; [|exists h1; auto]. split; [auto|]. split; [auto|]. split; [auto|]. exists h. auto.
    + split; [auto|]. split; auto.
Qed.
Theorem ctx_history : forall ops cx st, stk_ok cx st -> ops_ok cx ops ->
  exists outs, ctx_run st ops = ROk outs /\ outs_ok cx ops outs.
Proof.
  induction ops as [|o ops IH]; intros cx st Hst Hok; [exists []; split; reflexivity|].
  destruct Hok as [Ho Hok]. destruct o as [a| |t|t]; cbn [ctx_run outs_ok cx_after op_ok] in *.
  - apply IH; auto. cbn [stk_ok ctx_push]. destruct Ho as [H1 H2]. split; [auto|]. split; [auto|]. split; [auto|].
    destruct (hyg_ctx (a :: cx)) as [h|]; [|congruence]. exists h. auto.
  - apply IH; auto. destruct cx as [|a cx], st as [|[a' o] st]; cbn [stk_ok] in Hst; try contradiction; cbn; tauto.
  - destruct Ho as [Hw Hh]. destruct (apply_top cx st t Hst Hw Hh) as [t' [st' [-> [H1 H2]]]]. cbn [obind].
    destruct (IH cx st' H1 Hok) as [outs [-> H3]]. cbn [obind]. exists (t' :: outs). auto.
  - destruct Ho as [Hw Hh]. destruct (apply_prev_ok cx st t Hst Hw Hh) as [t' [st' [-> [H1 H2]]]]. cbn [obind].
    destruct (IH cx st' H1 Hok) as [outs [-> H3]]. cbn [obind]. exists (t' :: outs). auto.
Qed.
