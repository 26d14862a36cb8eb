(** Conditions on the input under which substitution is correct, and inputs on which it is not. *)
From Coq Require Import List String Ascii ZArith QArith Bool Arith Lia.
From Verif Require Import Base Term Field Sem Sorting Rules Utils Polyeq PolyeqSound R_Simp Subst SubstSound.
Import ListNotations.
Local Open Scope nat_scope.
Local Open Scope string_scope.

(** ** Specification: the names bound in a term, and all names of variables in a term *)
Fixpoint bnames (t : term) : list string :=
  match t with
  | TConst _ | TSort _ | TVar _ _ => []
  | TApp f args => bnames f ++ flat_map bnames args
  | TOp _ args | TPOp _ _ args => flat_map bnames args
  | TBind _ vs body => map fst vs ++ bnames body
  | TLet bs body => map fst bs ++ flat_map (fun p => bnames (snd p)) bs ++ bnames body
  end.
Fixpoint anames (t : term) : list string :=
  match t with
  | TConst _ | TSort _ => []
  | TVar x _ => [x]
  | TApp f args => anames f ++ flat_map anames args
  | TOp _ args | TPOp _ _ args => flat_map anames args
  | TBind _ vs body => map fst vs ++ anames body
  | TLet bs body => map fst bs ++ flat_map (fun p => anames (snd p)) bs ++ anames body
  end.
(** the textbook substitution that pays no attention to binders *)
Fixpoint nsub (m : smap) (t : term) : term :=
  match sget m t with
  | Some v => v
  | None =>
      match t with
      | TConst _ | TSort _ | TVar _ _ => t
      | TApp f args => TApp (nsub m f) (map (nsub m) args)
      | TOp o args => TOp o (map (nsub m) args)
      | TPOp o oa args => TPOp o oa (map (nsub m) args)
      | TBind b vs body => TBind b vs (nsub m body)
      | TLet bs body => TLet bs (nsub m body)
      end
  end.
Definition keys_vars (m : smap) : Prop := forall k v, sget m k = Some v -> is_var k = true.
Lemma keys_none m t : keys_vars m -> is_var t = false -> sget m t = None.
Proof. intros H Ht. destruct (sget m t) eqn:E; [|reflexivity]. apply H in E. congruence. Qed.

(** no binder binds one of the names, no [let] *)
Definition avoids (l : list string) (t : term) : Prop := no_let t = true /\ forall x, In x (bnames t) -> ~ In x l.
Lemma filter_none {A} (f : A -> bool) l : (forall a, In a l -> f a = false) -> filter f l = [].
Proof. induction l as [|a l IH]; intros H; [reflexivity|]. cbn. rewrite (H a (or_introl eq_refl)). apply IH. intros b Hb. apply H. right; auto. Qed.
Lemma rename_vars_id sb vs ren : (forall v, In v vs -> ~ In (fst v) sb) -> rename_vars sb [] ren vs = (vs, ren).
Proof.
  revert ren. induction vs as [|[x s] vs IH]; intros ren H; [reflexivity|]. cbn [rename_vars app].
  rewrite fresh_same by (apply (H (x, s)); left; auto). rewrite String.eqb_refl. cbn [negb]. rewrite IH; [reflexivity|]. intros v Hv. apply H. right; auto.
Qed.
Lemma no_skip m l vs : (forall v, In v vs -> ~ In (fst v) l) -> can_skip m l vs = false.
Proof.
  intros H. unfold can_skip. rewrite filter_none.
  - destruct m as [|[k v] [|]]; try reflexivity; destruct k; reflexivity.
  - intros v Hv. apply not_true_iff_false. intros Hs. apply smem_In in Hs. apply (H v); auto.
Qed.

Lemma list_sum_in (t : term) (args : list term) n : In t args -> list_sum (map tsize args) <= n -> tsize t <= n.
Proof. intros Hi Hl. apply in_sum in Hi. lia. Qed.

Section SeqClean.
  Variable f : sub -> term -> outcome sres.
  Variable g : term -> term.
  Variable ok : sub -> Prop.
  Lemma apply_seq_clean l : (forall t S, In t l -> ok S -> exists S', ok S' /\ f S t = ROk (g t, S', true)) ->
    forall S, ok S -> exists S', ok S' /\ apply_seq f S l = ROk (map g l, S', true).
  Proof.
    induction l as [|a l IH]; intros H S Hs; cbn [apply_seq map]; [eauto|].
    destruct (H a S (or_introl eq_refl) Hs) as [S1 [H1 ->]]. cbn [obind].
    destruct (IH (fun t S Ht => H t S (or_intror Ht)) S1 H1) as [S2 [H2 ->]]. cbn [obind]. exists S2. auto.
  Qed.
End SeqClean.

Lemma avoids_args l args : avoids l (TOp ONot args) -> forall t, In t args -> avoids l t.
Proof.
  intros [H1 H2] t Ht. cbn in *. split; [rewrite forallb_forall in H1; auto|]. intros x Hx. apply H2. apply in_flat_map. eauto.
Qed.
(** the state while [m] is applied, where [l] are the names to be avoided *)
Definition st_ok (m : smap) (l : list string) (S : sub) : Prop := sm S = m /\ (sb S = Some l \/ sb S = None /\ l = sbr_of m).
Lemma st_names m l S : st_ok m l S -> sub_names S = l /\ st_ok m l (with_names S).
Proof.
  intros [<- H]. assert (E : sub_names S = l) by (unfold sub_names; destruct H as [-> |[-> ->]]; reflexivity).
  split; [auto|]. split; [auto|]. left. cbn. congruence.
Qed.
Lemma st_cached m l S t r : st_ok m l S -> st_ok m l (cached S t r).
Proof. intros H. exact H. Qed.
Lemma st_of m : st_ok m (sbr_of m) (sub_of m).
Proof. split; [auto|]. right. auto. Qed.
Definition cl_ok (m : smap) (l : list string) (S : sub) : Prop := st_ok m l S /\ forall k r, sget (sc S) k = Some r -> r = nsub m k.
Lemma cl_of m : cl_ok m (sbr_of m) (sub_of m).
Proof. split; [apply st_of|]. intros k r H. discriminate. Qed.
(** If no binder binds a name to be avoided, the textbook substitution is computed. *)
Lemma apply_clean : forall n m l S t, keys_vars m -> tsize t <= n -> avoids l t -> cl_ok m l S ->
  exists S', cl_ok m l S' /\ apply n S t = ROk (nsub m t, S', true).
Proof.
  induction n as [|n IH]; intros m l S t Hk Hn Ha Hs; [destruct t; cbn [tsize] in Hn; lia|]. cbn [apply].
  destruct (sget (sc S) t) as [v|] eqn:Ec.
  { exists S. split; [auto|]. apply Hs in Ec. subst. reflexivity. }
  pose proof Hs as [[Hm _] _]. rewrite Hm. destruct (sget m t) as [v|] eqn:Eg.
  { exists S. split; [auto|]. replace (nsub m t) with v; [reflexivity|]. destruct t; cbn [nsub]; rewrite Eg; reflexivity. }
  enough (exists S', cl_ok m l S' /\ apply_body (apply n) S t = ROk (nsub m t, S', true)) as [S' [A B]].
  { exists (cached S' t (nsub m t)). rewrite B. cbn [obind]. split; [|reflexivity]. destruct A as [A1 A2]. split; [exact A1|]. intros k r Hkr.
    cbn [cached sc] in Hkr. rewrite sget_sins in Hkr. destruct (term_eqb k t) eqn:E; [apply term_eqb_eq in E; congruence|auto]. }
  assert (HS : forall args S, (forall t, In t args -> tsize t <= n /\ avoids l t) -> cl_ok m l S ->
    exists S', cl_ok m l S' /\ apply_seq (apply n) S args = ROk (map (nsub m) args, S', true)).
  { intros args S0 Hargs Hs0. apply (apply_seq_clean (apply n) (nsub m) (cl_ok m l)); auto.
    intros t0 S1 Ht Hs1. destruct (Hargs t0 Ht). apply IH; auto. }
  destruct t as [c|x s|f args|o args|s|b vs inner|bs inner|o oa args]; cbn [nsub apply_body]; rewrite Eg; try (exists S; auto; fail); cbn [tsize] in Hn.
  + destruct Ha as [H1 H2]. cbn in H1, H2. apply andb_true_iff in H1. destruct H1 as [H1 H1'].
    destruct (HS args S) as [S1 [Hs1 ->]]; [|auto|].
    { intros t Ht. split; [apply (list_sum_in _ args); auto; lia|]. rewrite forallb_forall in H1'. split; [auto|].
      intros x Hx. apply H2. apply in_or_app. right. apply in_flat_map. eauto. }
    cbn [obind]. destruct (IH m l S1 f Hk) as [S2 [Hs2 ->]]; [lia| |auto|].
    { split; [auto|]. intros x Hx. apply H2. apply in_or_app. auto. }
    cbn [obind]. exists S2. auto.
  + destruct (HS args S) as [S1 [Hs1 ->]]; [|auto|cbn [obind]; exists S1; auto].
    intros t Ht. split; [apply (list_sum_in _ args); auto; lia|]. apply (avoids_args l args); auto.
  + cbv zeta. destruct Ha as [H1 H2]. cbn in H1, H2. destruct Hs as [Hs Hc]. destruct (st_names _ _ _ Hs) as [Hl Hs0]. rewrite Hl, Hm.
    assert (Hvs : forall v, In v vs -> ~ In (fst v) l).
    { intros v Hv. apply H2. apply in_or_app. left. apply in_map; auto. }
    rewrite (no_skip m l vs Hvs), (rename_vars_id l vs [] Hvs).
    destruct (IH m l (with_names S) inner Hk) as [S2 [Hs2 ->]]; [lia| |split; auto|].
    { split; [auto|]. intros x Hx. apply H2. apply in_or_app. auto. }
    cbn [obind]. exists S2. auto.
  + destruct Ha as [H1 _]. discriminate.
  + destruct (HS args S) as [S1 [Hs1 ->]]; [|auto|cbn [obind]; exists S1; auto].
    intros t Ht. split; [apply (list_sum_in _ args); auto; lia|]. apply (avoids_args l args); auto.
Qed.

(** ** A wider condition, under which bound variables may be renamed.
    Everything a user has to check: the names bound on each path are distinct and none of them has a primed copy in
    use, and a variable that is both bound and a key has the same sort in both places. *)
Definition prime (x : string) : string := x ++ "'".
Definition key_sort (m : smap) (v : string * sort) : Prop :=
  forall s' w, In (TVar (fst v) s', w) m -> s' = snd v.
Fixpoint tidy (m : smap) (l : list string) (t : term) : Prop :=
  match t with
  | TConst _ | TSort _ | TVar _ _ => True
  | TApp f args => tidy m l f /\ (fix all (a : list term) := match a with [] => True | x :: r => tidy m l x /\ all r end) args
  | TOp _ args | TPOp _ _ args => (fix all (a : list term) := match a with [] => True | x :: r => tidy m l x /\ all r end) args
  | TBind _ vs body =>
      NoDup (map fst vs) /\
      (forall v, In v vs -> ~ In (fst v) (bnames body) /\ ~ In (prime (fst v)) (l ++ map fst vs ++ anames body) /\ key_sort m v) /\
      tidy m l body
  | TLet _ _ => False
  end.
Definition tidy_all (m : smap) (l : list string) : list term -> Prop :=
  fix all (a : list term) := match a with [] => True | x :: r => tidy m l x /\ all r end.
Lemma tidy_all_spec m l args : tidy_all m l args <-> forall t, In t args -> tidy m l t.
Proof. induction args as [|a r IH]; cbn; [split; [intros _ t []|auto]|]. rewrite IH. split; [intros [H1 H2] t [<-|Ht]; auto|intros H; split; intros; apply H; auto]. Qed.
Lemma tidy_no_let m l t : tidy m l t -> no_let t = true.
Proof.
  induction t using term_ind'; cbn [tidy no_let]; intros HT; auto.
  - destruct HT as [H1 H2]. change (tidy_all m l args) in H2. rewrite tidy_all_spec in H2. rewrite IHt by auto. cbn. apply forallb_forall.
    intros a Ha. rewrite Forall_forall in H. auto.
  - change (tidy_all m l args) in HT. rewrite tidy_all_spec in HT. apply forallb_forall. intros a Ha. rewrite Forall_forall in H. auto.
  - destruct HT as [_ [_ HT]]. auto.
  - change (tidy_all m l args) in HT. rewrite tidy_all_spec in HT. apply forallb_forall. intros a Ha. rewrite Forall_forall in H0. auto.
Qed.
Lemma bnames_anames t x : In x (bnames t) -> In x (anames t).
Proof.
  induction t using term_ind'; cbn [bnames anames]; intros HI; auto.
  - destruct HI.
  - apply in_app_iff in HI. apply in_app_iff. destruct HI as [HI|HI]; [auto|right]. apply in_flat_map in HI. destruct HI as [a [Ha HI]].
    rewrite Forall_forall in H. apply in_flat_map. eauto.
  - apply in_flat_map in HI. destruct HI as [a [Ha HI]]. rewrite Forall_forall in H. apply in_flat_map. eauto.
  - apply in_app_iff in HI. apply in_app_iff. destruct HI; auto.
  - apply in_app_iff in HI. apply in_app_iff. destruct HI as [HI|HI]; [auto|right]. apply in_app_iff in HI. apply in_app_iff. destruct HI as [HI|HI]; [left|auto].
    apply in_flat_map in HI. destruct HI as [a [Ha HI]]. rewrite Forall_forall in H. apply in_flat_map. exists a. split; auto.
  - apply in_flat_map in HI. destruct HI as [a [Ha HI]]. rewrite Forall_forall in H0. apply in_flat_map. eauto.
Qed.
Lemma free_anames t x s : free_in x s t = true -> In x (anames t).
Proof.
  induction t using term_ind'; cbn [free_in anames]; intros HI; try discriminate.
  - apply andb_true_iff in HI. destruct HI as [HI _]. apply String.eqb_eq in HI. subst. left; auto.
  - apply orb_true_iff in HI. apply in_app_iff. destruct HI as [HI|HI]; [auto|right]. apply existsb_exists in HI. destruct HI as [a [Ha HI]].
    rewrite Forall_forall in H. apply in_flat_map. eauto.
  - apply existsb_exists in HI. destruct HI as [a [Ha HI]]. rewrite Forall_forall in H. apply in_flat_map. eauto.
  - apply andb_true_iff in HI. apply in_app_iff. destruct HI; auto.
  - apply orb_true_iff in HI. rewrite !in_app_iff. destruct HI as [HI|HI].
    + apply existsb_exists in HI. destruct HI as [a [Ha HI]]. rewrite Forall_forall in H. right. left. apply in_flat_map. exists a. split; auto.
    + apply andb_true_iff in HI. destruct HI; auto.
  - apply existsb_exists in HI. destruct HI as [a [Ha HI]]. rewrite Forall_forall in H0. apply in_flat_map. eauto.
Qed.

Lemma str_app_inj a b c : (a ++ c = b ++ c)%string -> a = b.
Proof.
  revert b. induction a as [|x a IH]; intros [|y b] H; auto.
  - apply (f_equal String.length) in H. rewrite !str_len_app in H. cbn in H. lia.
  - apply (f_equal String.length) in H. rewrite !str_len_app in H. cbn in H. lia.
  - cbn in H. injection H as -> H. f_equal. auto.
Qed.
Lemma prime_inj a b : prime a = prime b -> a = b.
Proof. apply str_app_inj. Qed.
Lemma prime_neq a : prime a <> a.
Proof. intros H. apply (f_equal String.length) in H. unfold prime in H. rewrite str_len_app in H. cbn in H. lia. Qed.

(** renaming free variables to primed copies keeps the condition *)
Definition prime_map (ren : smap) (xs : list string) : Prop :=
  forall k v, sget ren k = Some v -> exists x s, k = TVar x s /\ v = TVar (prime x) s /\ In x xs.
Lemma prime_keys ren xs : prime_map ren xs -> keys_vars ren.
Proof. intros H k v Hk. apply H in Hk. destruct Hk as [x [s [-> _]]]. reflexivity. Qed.
Lemma nsub_bnames ren xs t : prime_map ren xs -> bnames (nsub ren t) = bnames t.
Proof.
  intros Hp. pose proof (prime_keys _ _ Hp) as Hk. 
  assert (HF : forall args, Forall (fun t => bnames (nsub ren t) = bnames t) args -> flat_map bnames (map (nsub ren) args) = flat_map bnames args).
  { induction 1 as [|a r Ha _ IH]; [reflexivity|]. cbn. rewrite Ha, IH. reflexivity. }
  induction t using term_ind'; cbn [nsub].
  - rewrite keys_none; auto.
  - destruct (sget ren (TVar x s)) eqn:E; [|reflexivity]. apply Hp in E. destruct E as [y [s' [_ [-> _]]]]. reflexivity.
  - rewrite keys_none by auto. cbn [bnames]. rewrite IHt, HF; auto.
  - rewrite keys_none by auto. cbn [bnames]. auto.
  - rewrite keys_none; auto.
  - rewrite keys_none by auto. cbn [bnames]. rewrite IHt. reflexivity.
  - rewrite keys_none by auto. cbn [bnames]. rewrite IHt. reflexivity.
  - rewrite keys_none by auto. cbn [bnames]. auto.
Qed.
Lemma nsub_anames ren xs t : prime_map ren xs -> forall x, In x (anames (nsub ren t)) -> In x (anames t) \/ exists y, In y xs /\ x = prime y.
Proof.
  intros Hp. pose proof (prime_keys _ _ Hp) as Hk. 
  assert (HF : forall args, Forall (fun t => forall x, In x (anames (nsub ren t)) -> In x (anames t) \/ exists y, In y xs /\ x = prime y) args ->
     forall x, In x (flat_map anames (map (nsub ren) args)) -> In x (flat_map anames args) \/ exists y, In y xs /\ x = prime y).
  { induction 1 as [|a r Ha _ IH]; [auto|]. cbn. intros x Hx. apply in_app_iff in Hx. rewrite in_app_iff. destruct Hx as [Hx|Hx]; [apply Ha in Hx|apply IH in Hx]; tauto. }
  induction t using term_ind'; cbn [nsub]; intros z Hz.
  - rewrite keys_none in Hz; auto.
  - destruct (sget ren (TVar x s)) eqn:E; [|auto]. apply Hp in E. destruct E as [y [s' [_ [-> Hy]]]]. right. cbn in Hz. destruct Hz as [Hz|[]]. eauto.
  - rewrite keys_none in Hz by auto. cbn [anames] in *. apply in_app_iff in Hz. rewrite in_app_iff. destruct Hz as [Hz|Hz]; [apply IHt in Hz|apply (HF args) in Hz]; auto; tauto.
  - rewrite keys_none in Hz by auto. cbn [anames] in *. auto.
  - rewrite keys_none in Hz; auto.
  - rewrite keys_none in Hz by auto. cbn [anames] in *. apply in_app_iff in Hz. rewrite in_app_iff. destruct Hz as [Hz|Hz]; [auto|apply IHt in Hz; tauto].
  - rewrite keys_none in Hz by auto. cbn [anames] in *. rewrite !in_app_iff in *. destruct Hz as [Hz|[Hz|Hz]]; [auto|auto|apply IHt in Hz; tauto].
  - rewrite keys_none in Hz by auto. cbn [anames] in *. auto.
Qed.
Lemma nsub_tidy m l ren xs t : prime_map ren xs -> (forall x, In x xs -> ~ In x (bnames t)) -> tidy m l t -> tidy m l (nsub ren t).
Proof.
  intros Hp. pose proof (prime_keys _ _ Hp) as Hk.
  assert (HF : forall args, Forall (fun t => (forall x, In x xs -> ~ In x (bnames t)) -> tidy m l t -> tidy m l (nsub ren t)) args ->
     (forall x, In x xs -> ~ In x (flat_map bnames args)) -> tidy_all m l args -> tidy_all m l (map (nsub ren) args)).
  { induction 1 as [|a r Ha _ IH]; [auto|]. cbn. intros Hx [H1 H2]. split; [apply Ha|apply IH]; auto; intros x Hi Hi'; apply (Hx x); auto; apply in_or_app; auto. }
  induction t using term_ind'; cbn [nsub]; intros Hx HT.
  - rewrite keys_none; auto.
  - destruct (sget ren (TVar x s)) eqn:E; [|auto]. apply Hp in E. destruct E as [y [s' [_ [-> Hy]]]]. exact Logic.I.
  - rewrite keys_none by auto. cbn [tidy bnames] in *. destruct HT as [H1 H2]. split.
    + apply IHt; auto. intros z Hz Hz'. apply (Hx z); auto. apply in_or_app; auto.
    + apply HF; auto. intros z Hz Hz'. apply (Hx z); auto. apply in_or_app; auto.
  - rewrite keys_none by auto. cbn [tidy bnames] in *. apply HF; auto.
  - rewrite keys_none; auto.
  - rewrite keys_none by auto. cbn [tidy bnames] in *. destruct HT as [H1 [H2 H3]]. split; [auto|]. split.
    + intros v Hv. destruct (H2 v Hv) as [H4 [H5 H6]]. split; [erewrite nsub_bnames; eauto|]. split; [|auto].
      intros Hq. apply in_app_iff in Hq. destruct Hq as [Hq|Hq]; [apply H5; apply in_or_app; auto|].
      apply in_app_iff in Hq. destruct Hq as [Hq|Hq]; [apply H5; rewrite !in_app_iff; auto|].
      apply (nsub_anames _ _ _ Hp) in Hq. destruct Hq as [Hq|[y [Hy Hq]]]; [apply H5; rewrite !in_app_iff; auto|].
      apply prime_inj in Hq. apply (Hx y Hy). apply in_or_app. left. rewrite <- Hq. apply in_map; auto.
    + apply IHt; auto. intros z Hz Hz'. apply (Hx z); auto. apply in_or_app; auto.
  - destruct HT.
  - rewrite keys_none by auto. cbn [tidy bnames] in *. apply HF; auto.
Qed.
Lemma nsub_size ren xs t : prime_map ren xs -> tsize (nsub ren t) = tsize t.
Proof.
  intros Hp. pose proof (prime_keys _ _ Hp) as Hk.
  assert (HF : forall args, Forall (fun t => tsize (nsub ren t) = tsize t) args -> map tsize (map (nsub ren) args) = map tsize args).
  { induction 1 as [|a r Ha _ IH]; [auto|]. cbn. rewrite Ha, IH. auto. }
  induction t using term_ind'; cbn [nsub].
  - rewrite keys_none; auto.
  - destruct (sget ren (TVar x s)) eqn:E; [|auto]. apply Hp in E. destruct E as [y [s' [_ [-> Hy]]]]. reflexivity.
  - rewrite keys_none by auto. cbn [tsize]. rewrite IHt, HF; auto.
  - rewrite keys_none by auto. cbn [tsize]. rewrite HF; auto.
  - rewrite keys_none; auto.
  - rewrite keys_none by auto. cbn [tsize]. rewrite IHt; auto.
  - rewrite keys_none by auto. cbn [tsize]. rewrite IHt; auto.
  - rewrite keys_none by auto. cbn [tsize]. rewrite HF; auto.
Qed.

(** the renaming computed for distinct names without primed copies *)
Definition ren1 (l : list string) (v : string * sort) : string * sort := if smem (fst v) l then (prime (fst v), snd v) else v.
Lemma fresh_prime newv l x : In x l -> ~ In (prime x) l -> ~ In (prime x) newv -> fresh (newv ++ l) x = prime x.
Proof.
  intros H1 H2 H3. unfold fresh. assert (Hl : 1 <= List.length (newv ++ l)) by (rewrite app_length; destruct l; [destruct H1|cbn; lia]).
  destruct (List.length (newv ++ l)) as [|k]; [lia|]. cbn [fresh_name].
  assert (smem x (newv ++ l) = true) as -> by (apply smem_In, in_or_app; auto).
  assert (smem (x ++ "'")%string (newv ++ l) = false) as ->.
  { apply not_true_iff_false. intros H. apply smem_In, in_app_iff in H. destruct H; contradiction. }
  reflexivity.
Qed.
Definition ren_upto (l : list string) (vs : list (string * sort)) : smap :=
  fold_left (fun ren v => if smem (fst v) l then sins ren (TVar (fst v) (snd v)) (TVar (prime (fst v)) (snd v)) else ren) vs [].
Lemma rename_vars_prime l vs : forall newv ren, NoDup (map fst vs) ->
  (forall v, In v vs -> ~ In (prime (fst v)) l /\ ~ In (prime (fst v)) newv /\ ~ In (fst v) newv /\ ~ In (prime (fst v)) (map fst vs)) ->
  rename_vars l newv ren vs = (map (ren1 l) vs,
    fold_left (fun ren v => if smem (fst v) l then sins ren (TVar (fst v) (snd v)) (TVar (prime (fst v)) (snd v)) else ren) vs ren).
Proof.
  induction vs as [|[x s] vs IH]; intros newv ren Hnd H; [reflexivity|]. cbn [rename_vars map fold_left fst snd] in *.
  apply NoDup_cons_iff in Hnd. destruct Hnd as [Hx Hnd]. destruct (H (x, s) (or_introl eq_refl)) as [H1 [H2 [H3 H4]]]. cbn [fst] in *.
  assert (Hrest : forall v, In v vs -> ~ In (prime (fst v)) l /\ ~ In (prime (fst v)) newv /\ ~ In (fst v) newv /\ ~ In (prime (fst v)) (map fst vs)).
  { intros v Hv. destruct (H v (or_intror Hv)) as [A [B [C D]]]. repeat split; auto. intros Hq. apply D. right; auto. }
  unfold ren1 at 1. cbn [fst snd].
  destruct (smem x l) eqn:Es.
  - apply smem_In in Es. rewrite fresh_prime by auto. assert (String.eqb x (prime x) = false) as -> by (apply String.eqb_neq; intros Hq; symmetry in Hq; apply prime_neq in Hq; auto).
    cbn [negb]. rewrite IH; auto. intros v Hv. destruct (Hrest v Hv) as [A [B [C D]]]. repeat split; auto.
    + intros Hq. apply in_app_iff in Hq. destruct Hq as [Hq|[Hq|[]]]; [auto|]. apply prime_inj in Hq. apply Hx. rewrite Hq. apply in_map; auto.
    + intros Hq. apply in_app_iff in Hq. destruct Hq as [Hq|[Hq|[]]]; [auto|]. apply H4. rewrite Hq. right. apply in_map; auto.
  - rewrite fresh_same.
    + rewrite String.eqb_refl. cbn [negb]. rewrite IH; auto.
    + intros Hq. apply in_app_iff in Hq. destruct Hq as [Hq|Hq]; [auto|]. apply smem_In in Hq. congruence.
Qed.
Lemma ren_upto_get l vs : forall ren k, NoDup (map fst vs) ->
  sget (fold_left (fun ren v => if smem (fst v) l then sins ren (TVar (fst v) (snd v)) (TVar (prime (fst v)) (snd v)) else ren) vs ren) k =
  match k with
  | TVar x s => if existsb (svar_eqb (x, s)) vs && smem x l then Some (TVar (prime x) s) else sget ren k
  | _ => sget ren k
  end.
Proof.
  induction vs as [|[x s] vs IH]; intros ren k Hnd.
  - cbn. destruct k; reflexivity.
  - cbn [fold_left fst snd]. cbn [map fst] in Hnd. apply NoDup_cons_iff in Hnd. destruct Hnd as [Hx Hnd]. rewrite IH by auto.
    assert (Hg : forall k, sget (if smem x l then sins ren (TVar x s) (TVar (prime x) s) else ren) k =
       if smem x l && term_eqb k (TVar x s) then Some (TVar (prime x) s) else sget ren k).
    { intros k0. destruct (smem x l); cbn [andb]; [apply sget_sins|reflexivity]. }
    destruct k as [|y s'| | | | | |]; rewrite ?Hg; try (replace (term_eqb _ (TVar x s)) with false by reflexivity; rewrite andb_false_r; reflexivity).
    cbn [existsb]. destruct (svar_eqb (y, s') (x, s)) eqn:E1.
    + apply svar_eqb_eq in E1. injection E1 as -> ->.
      assert (existsb (svar_eqb (x, s)) vs = false) as ->.
      { apply not_true_iff_false. intros Hq. apply svar_mem in Hq. apply Hx. apply (in_map fst) in Hq. exact Hq. }
      cbn [orb andb]. assert (term_eqb (TVar x s) (TVar x s) = true) as -> by (apply term_eqb_eq; auto). rewrite andb_true_r. reflexivity.
    + cbn [orb]. assert (term_eqb (TVar y s') (TVar x s) = false) as ->.
      { apply not_true_iff_false. intros Hq. apply term_eqb_eq in Hq. injection Hq as -> ->. assert (svar_eqb (x, s) (x, s) = true) by (apply svar_eqb_eq; auto). congruence. }
      rewrite andb_false_r. reflexivity.
Qed.
Lemma ren_upto_In l vs : forall ren k v,
  In (k, v) (fold_left (fun ren v => if smem (fst v) l then sins ren (TVar (fst v) (snd v)) (TVar (prime (fst v)) (snd v)) else ren) vs ren) ->
  In (k, v) ren \/ exists x s, In (x, s) vs /\ v = TVar (prime x) s /\ (exists y, k = TVar y s /\ (y, s) = (x, s)).
Proof.
  assert (HI : forall (m : smap) a b k v, In (k, v) (sins m a b) -> In (k, v) m \/ (k = a /\ v = b)).
  { intros m a b k v. unfold sins. induction m as [|[c d] m IH]; cbn [im_insert In]; [intros [H|[]]; right; split; congruence|].
    destruct (term_eqb a c) eqn:E; cbn [In].
    - apply term_eqb_eq in E. subst. intros [H|H]; [right; split; congruence|auto].
    - intros [H|H]; [auto|]. apply IH in H. tauto. }
  induction vs as [|[x s] vs IH]; intros ren k v H; [auto|]. cbn [fold_left fst snd] in H. apply IH in H.
  destruct H as [H|[y [s' [H1 [H2 H3]]]]]; [|right; exists y, s'; split; [right; auto|auto]].
  destruct (smem x l); [|auto]. apply HI in H. destruct H as [H|[-> ->]]; [auto|]. right. exists x, s. split; [left; auto|]. split; [auto|]. exists x. auto.
Qed.

Lemma sbr_of_var_names ren xs : (forall k v, In (k, v) ren -> exists x s, k = TVar x s /\ v = TVar (prime x) s /\ In x xs) ->
  forall z, In z (sbr_of ren) -> exists x, In x xs /\ (z = x \/ z = prime x).
Proof.
  intros H z Hz. unfold sbr_of in Hz. apply in_flat_map in Hz. destruct Hz as [[k v] [Hk Hz]]. destruct (H _ _ Hk) as [x [s [-> [-> Hx]]]].
  exists x. split; [auto|]. cbn [fst snd] in Hz. unfold sbr1 in Hz. destruct (term_eqb _ _); [destruct Hz|]. cbn in Hz. destruct Hz as [<-|[<-|[]]]; auto.
Qed.

Lemma sget_none_var m x s : (forall w, ~ In (TVar x s, w) m) -> sget m (TVar x s) = None.
Proof. intros H. destruct (sget m (TVar x s)) eqn:E; [|reflexivity]. apply sget_In in E. exfalso. eapply H; eauto. Qed.

Lemma apply_tidy : forall n m l S t, keys_vars m -> tsize t <= n -> tidy m l t -> st_ok m l S ->
  exists t' S', st_ok m l S' /\ apply n S t = ROk (t', S', true).
Proof.
  induction n as [|n IH]; intros m l S t Hk Hn Ha Hs; [destruct t; cbn [tsize] in Hn; lia|]. cbn [apply].
  destruct (sget (sc S) t) as [v|] eqn:Ec; [exists v, S; auto|].
  destruct (sget (sm S) t) as [v|] eqn:Eg; [exists v, S; auto|].
  enough (exists t' S', st_ok m l S' /\ apply_body (apply n) S t = ROk (t', S', true)) as [t' [S' [A B]]].
  { exists t', (cached S' t t'). rewrite B. cbn [obind]. split; [apply st_cached; auto|reflexivity]. }
  assert (HS : forall args S, (forall t, In t args -> tsize t <= n /\ tidy m l t) -> st_ok m l S ->
      exists args' S', st_ok m l S' /\ apply_seq (apply n) S args = ROk (args', S', true)).
  { clear Ec Eg Hs S. induction args as [|a args IHa]; intros S Hargs Hs0; cbn [apply_seq]; [exists [], S; auto|].
    destruct (Hargs a (or_introl eq_refl)) as [A1 A2]. destruct (IH m l S a Hk A1 A2 Hs0) as [a' [sb1 [Hs1 ->]]]. cbn [obind].
    destruct (IHa sb1 (fun t Ht => Hargs t (or_intror Ht)) Hs1) as [r' [sb2 [Hs2 ->]]]. cbn [obind]. exists (a' :: r'), sb2. auto. }
  assert (HD : forall args, list_sum (map tsize args) <= n -> tidy_all m l args -> forall t, In t args -> tsize t <= n /\ tidy m l t).
  { intros args Hl Ht t0 Ht0. split; [eapply list_sum_in; eauto|]. rewrite tidy_all_spec in Ht. auto. }
  destruct t as [c|x s|f args|o args|s|b vs inner|bs inner|o oa args]; cbn [apply_body]; try (eexists; exists S; split; [exact Hs|reflexivity]); cbn [tsize] in Hn; cbn [tidy] in Ha.
  - destruct Ha as [H1 H2]. destruct (HS args S) as [args' [sb1 [Hs1 ->]]]; [apply HD; [lia|auto]|auto|]. cbn [obind].
    destruct (IH m l sb1 f Hk) as [f' [sb2 [Hs2 ->]]]; [lia|auto|auto|]. cbn [obind]. exists (TApp f' args'), sb2. auto.
  - destruct (HS args S) as [args' [sb1 [Hs1 ->]]]; [apply HD; [lia|auto]|auto|]. cbn [obind]. exists (TOp o args'), sb1. auto.
  - cbv zeta. destruct Ha as [Hnd [Hv Ht]].
    destruct (st_names _ _ _ Hs) as [Hl Hs0]. rewrite Hl. replace (sm S) with m by (symmetry; apply Hs).
    destruct (can_skip m l vs) eqn:Ek.
    + exists (TBind b vs inner), (with_names S). split; [auto|]. do 2 f_equal. unfold can_skip in Ek. unfold skip_ok. clear Hs Hs0. destruct m as [|[k w] [|]]; try discriminate;
        destruct k as [|x s| | | | | |]; try discriminate.
      destruct (filter (fun v => smem (fst v) l) vs) as [|[y s'] [|]] eqn:Ef; try discriminate. apply String.eqb_eq in Ek. subst y.
      assert (Hin : In (x, s') vs) by (apply (proj1 (filter_In (fun v => smem (fst v) l) (x, s') vs)); rewrite Ef; left; auto).
      destruct (Hv _ Hin) as [_ [_ Hks]]. unfold key_sort in Hks. cbn [fst snd] in Hks. rewrite (Hks s w (or_introl eq_refl)). apply svar_mem. auto.
    + assert (Hcond : forall v, In v vs -> ~ In (prime (fst v)) l /\ ~ In (prime (fst v)) [] /\ ~ In (fst v) [] /\ ~ In (prime (fst v)) (map fst vs)).
      { intros v Hvv. destruct (Hv v Hvv) as [_ [H2 _]]. repeat split; auto; intros Hq; apply H2; rewrite !in_app_iff; auto. }
      rewrite (rename_vars_prime l vs [] [] Hnd Hcond). fold (ren_upto l vs).
      assert (Hget : forall k, sget (ren_upto l vs) k = match k with TVar x s => if existsb (svar_eqb (x, s)) vs && smem x l then Some (TVar (prime x) s) else None | _ => None end).
      { intros k. unfold ren_upto. rewrite ren_upto_get by auto. destruct k; reflexivity. }
      assert (HIn : forall k v, In (k, v) (ren_upto l vs) -> exists x s, k = TVar x s /\ v = TVar (prime x) s /\ In (x, s) vs).
      { intros k v Hkv. unfold ren_upto in Hkv. apply ren_upto_In in Hkv. destruct Hkv as [[]|[x [s [H1 [H2 [y [H3 H4]]]]]]]. injection H4 as ->. exists x, s. auto. }
      assert (Hpm : prime_map (ren_upto l vs) (map fst vs)).
      { intros k v Hkv. apply sget_In, HIn in Hkv. destruct Hkv as [x [s [-> [-> Hi]]]]. exists x, s. split; [auto|]. split; [auto|]. apply (in_map fst) in Hi. exact Hi. }
      assert (Hren : ren_ok vs (map (ren1 l) vs) (ren_upto l vs) inner = true).
      { assert (Hrv : forall v, In v vs -> ren_var (ren_upto l vs) v = ren1 l v).
        { intros [x s] Hi. unfold ren_var, ren1. cbn [fst snd]. rewrite Hget. apply svar_mem in Hi. rewrite Hi. cbn [andb]. destruct (smem x l); reflexivity. }
        unfold ren_ok. rewrite !andb_true_iff. split; [split; [split|]|].
        - apply (list_eqb_eq svar_eqb); [apply svar_eqb_eq|]. apply map_ext_in. exact Hrv.
        - apply forallb_forall. intros v Hvv. apply forallb_forall. intros w Hww. rewrite (Hrv v Hvv), (Hrv w Hww).
          destruct (svar_eqb v w) eqn:E1; [apply orb_true_r|]. rewrite orb_false_r. apply negb_true_iff, not_true_iff_false. intros E2. apply svar_eqb_eq in E2.
          assert (Hfst : fst v <> fst w).
          { intros Hq. assert (v = w); [|subst; assert (svar_eqb w w = true) by (apply svar_eqb_eq; auto); congruence].
            clear -Hnd Hvv Hww Hq. induction vs as [|a r IHr]; [destruct Hvv|]. cbn in Hnd. apply NoDup_cons_iff in Hnd. destruct Hnd as [Ha Hnd].
            destruct Hvv as [<-|Hvv], Hww as [<-|Hww]; auto.
            - exfalso. apply Ha. rewrite Hq. apply in_map; auto.
            - exfalso. apply Ha. rewrite <- Hq. apply in_map; auto. }
          unfold ren1 in E2. destruct (Hcond v Hvv) as [_ [_ [_ C1]]], (Hcond w Hww) as [_ [_ [_ C2]]].
          destruct v as [xv sv], w as [xw sw]. cbn [fst snd] in *. destruct (smem xv l), (smem xw l); injection E2 as E2 E3.
          + apply prime_inj in E2. auto.
          + apply C1. rewrite E2. apply (in_map fst) in Hww. exact Hww.
          + apply C2. rewrite <- E2. apply (in_map fst) in Hvv. exact Hvv.
          + auto.
        - apply forallb_forall. intros [k v] Hkv. apply HIn in Hkv. destruct Hkv as [x [s [-> [-> Hi]]]]. apply andb_true_iff. split; [apply sort_eqb_eq; auto|apply svar_mem; auto].
        - apply forallb_forall. intros v' Hv'. apply in_map_iff in Hv'. destruct Hv' as [v [<- Hvv]]. unfold ren1. destruct (smem (fst v) l).
          + cbn [fst snd]. apply orb_true_iff. right. apply negb_true_iff, not_true_iff_false. intros Hq. apply free_anames in Hq.
            destruct (Hv v Hvv) as [_ [H2 _]]. apply H2. rewrite !in_app_iff. auto.
          + apply orb_true_iff. left. destruct v as [x s]. apply svar_mem. auto. }
      assert (Hin : forall x, In x (map fst vs) -> ~ In x (bnames inner)).
      { intros x Hx. apply in_map_iff in Hx. destruct Hx as [v [<- Hvv]]. apply (Hv v Hvv). }
      destruct (ren_upto l vs) as [|p0 ren0] eqn:Er.
      * destruct (IH m l (with_names S) inner Hk) as [t' [sb' [Hs' ->]]]; [lia|auto|auto|]. cbn [obind]. eexists; exists sb'; split; [exact Hs'|reflexivity].
      * rewrite <- Er in *. destruct (apply_clean n (ren_upto l vs) (sbr_of (ren_upto l vs)) (sub_of (ren_upto l vs)) inner) as [sb1 [_ ->]].
        -- apply (prime_keys _ _ Hpm).
        -- lia.
        -- split; [eapply tidy_no_let; eauto|]. intros x Hx Hx'. 
           destruct (sbr_of_var_names (ren_upto l vs) (map fst vs)) with (z := x) as [y [Hy [Hz|Hz]]].
           ++ intros k v Hkv. apply HIn in Hkv. destruct Hkv as [x0 [s0 [-> [-> Hi]]]]. exists x0, s0. split; [auto|]. split; [auto|]. apply (in_map fst) in Hi. exact Hi.
           ++ auto.
           ++ subst y. apply (Hin x); auto.
           ++ subst x. apply in_map_iff in Hy. destruct Hy as [v [<- Hvv]]. destruct (Hv v Hvv) as [_ [H2 _]]. apply H2. rewrite !in_app_iff. right. right. apply bnames_anames. auto.
        -- apply cl_of.
        -- cbn [obind]. destruct (IH m l (with_names S) (nsub (ren_upto l vs) inner) Hk) as [t' [sb' [Hs' ->]]].
           ++ rewrite (nsub_size _ _ _ Hpm). lia.
           ++ eapply nsub_tidy; eauto.
           ++ auto.
           ++ cbn [obind]. rewrite Hren. eexists; exists sb'; split; [exact Hs'|reflexivity].
  - destruct Ha.
  - destruct (HS args S) as [args' [sb1 [Hs1 ->]]]; [apply HD; [lia|auto]|auto|]. cbn [obind]. exists (TPOp o oa args'), sb1. auto.
Qed.

Lemma good_keys m : good_map m -> keys_vars m.
Proof. intros H k v Hk. apply H in Hk. destruct Hk as [x [s [-> _]]]. reflexivity. Qed.
(** C17 *)
Theorem subst_tidy m t : good_map m -> wt t = true -> tidy m (sbr_of m) t ->
  exists t', subst m t = ROk t' /\ wt t' = true /\ sort_of t' = sort_of t /\
    forall (I : interp) (E : env I), eval t' E = eval t (sub_env m E).
Proof.
  intros Hg Hw Ht. destruct (apply_tidy (tsize t) m (sbr_of m) (sub_of m) t) as [t' [S' [_ H]]]; auto; [apply good_keys; auto|apply st_of|].
  exists t'. unfold subst, sub_apply. rewrite H. cbn [obind fst]. split; [reflexivity|].
  apply (apply_sound _ m) in H; auto; [|apply inv_s_of; auto]. destruct H as [_ [H1 [H2 H3]]]. auto.
Qed.
(** the special case without any renaming: the textbook substitution *)
Theorem subst_clean m t : good_map m -> wt t = true -> avoids (sbr_of m) t ->
  subst m t = ROk (nsub m t) /\ wt (nsub m t) = true /\ sort_of (nsub m t) = sort_of t /\
    forall (I : interp) (E : env I), eval (nsub m t) E = eval t (sub_env m E).
Proof.
  intros Hg Hw Ht. destruct (apply_clean (tsize t) m (sbr_of m) (sub_of m) t) as [S' [_ H]]; auto; [apply good_keys; auto|apply cl_of|].
  unfold subst, sub_apply. rewrite H. cbn [obind fst]. split; [reflexivity|].
  apply (apply_sound _ m) in H; auto; [|apply inv_s_of; auto]. destruct H as [_ [H1 [H2 H3]]]. auto.
Qed.
(** no error in any case, and no panic without [let] *)
Theorem subst_no_err m t : subst m t <> RErr.
Proof. unfold subst, sub_apply. pose proof (apply_fuel (tsize t) (sub_of m) t (le_n _)). destruct (apply _ _ _); cbn [obind]; congruence. Qed.
Theorem subst_total m t : no_let t = true -> exists t', subst m t = ROk t'.
Proof.
  intros Hn. unfold subst, sub_apply. pose proof (apply_fuel (tsize t) (sub_of m) t (le_n _)). pose proof (apply_nopanic (tsize t) (sub_of m) t Hn).
  destruct (apply _ _ _) as [r| |]; cbn [obind]; [eauto|congruence|congruence].
Qed.
