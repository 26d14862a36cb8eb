(** The rules that look at the open anchors (refl, bind, let, onepoint, sko_ex, sko_forall, bind_let) never panic on terms without
    [let], real division and empty applications of associative operators, when the anchors of the context are well-sorted. *)
From Coq Require Import List String ZArith NArith Bool Arith Lia.
From Verif Require Import Base Term Field Sem Sorting Rules Utils Polyeq R_Simp Subst SubstSound ContextSound Checker Context R_Binder PolyeqSound HashOrder NoPanic NoPanicPoly.
Import ListNotations.
Local Open Scope nat_scope.

Fixpoint calm (t : term) : bool :=
  match t with
  | TOp o l => (negb (is_left o || is_right o) || negb (Nat.eqb (List.length l) 0)) && negb (op_eqb o ORealDiv) && forallb calm l
  | TApp f l => calm f && forallb calm l
  | TBind _ _ b => calm b
  | TLet _ _ => false
  | TPOp _ _ l => forallb calm l
  | _ => true
  end.
Lemma forallb_imp {A} (f g : A -> bool) l : (forall a, In a l -> f a = true -> g a = true) -> forallb f l = true -> forallb g l = true.
Proof. intros H Hf. apply forallb_forall. intros a Ha. apply H; auto. rewrite forallb_forall in Hf. auto. Qed.
Lemma calm_tame t : calm t = true -> tame t = true.
Proof.
  induction t using term_ind'; cbn [calm tame]; intros Hc; auto; try discriminate.
  - apply andb_true_iff in Hc. destruct Hc as [H1 H2]. rewrite IHt by auto. eapply forallb_imp; [|exact H2]. intros a Ha. rewrite Forall_forall in H. auto.
  - apply andb_true_iff in Hc. destruct Hc as [Hc H2]. apply andb_true_iff in Hc. destruct Hc as [H3 H4]. unfold op_tame. rewrite H3, H4. cbn [andb orb].
    eapply forallb_imp; [|exact H2]. intros a Ha. rewrite Forall_forall in H. auto.
  - eapply forallb_imp; [|exact Hc]. intros a Ha. rewrite Forall_forall in H0. auto.
Qed.
Lemma calm_no_let t : calm t = true -> no_let t = true.
Proof.
  induction t using term_ind'; cbn [calm no_let]; intros Hc; auto; try discriminate.
  - apply andb_true_iff in Hc. destruct Hc as [H1 H2]. rewrite IHt by auto. eapply forallb_imp; [|exact H2]. intros a Ha. rewrite Forall_forall in H. auto.
  - apply andb_true_iff in Hc. destruct Hc as [_ Hc]. eapply forallb_imp; [|exact Hc]. intros a Ha. rewrite Forall_forall in H. auto.
  - eapply forallb_imp; [|exact Hc]. intros a Ha. rewrite Forall_forall in H0. auto.
Qed.
Lemma calm_args o l : calm (TOp o l) = true -> forallb calm l = true.
Proof. cbn [calm]. intros H. apply andb_true_iff in H. tauto. Qed.

(** ** Substitution keeps calm terms calm, and sorts *)
Definition kc (k r : term) : Prop := calm k = true -> calm r = true.
Definition ks (k r : term) : Prop := wt k = true -> calm k = true -> wt r = true /\ sort_of r = sort_of k.
Definition mapP (P : term -> term -> Prop) (m : smap) : Prop := forall k v, sget m k = Some v -> P k v.
Definition inv_p (P : term -> term -> Prop) (S : sub) : Prop := mapP P (sm S) /\ mapP P (sc S).
Lemma inv_p_names P S : inv_p P S -> inv_p P (with_names S).
Proof. intros H. exact H. Qed.
Lemma mapP_sins P m k v : mapP P m -> P k v -> mapP P (sins m k v).
Proof. intros Hm H k' v' H'. rewrite sget_sins in H'. destruct (term_eqb k' k) eqn:E; [|auto]. apply term_eqb_eq in E. subst. congruence. Qed.
Lemma inv_p_cached P S t r : inv_p P S -> P t r -> inv_p P (cached S t r).
Proof. intros [H1 H2] H. split; [exact H1|]. apply mapP_sins; auto. Qed.
Lemma mapP_nil P : mapP P [].
Proof. intros k v H. discriminate. Qed.
Lemma inv_p_of P m : mapP P m -> inv_p P (sub_of m).
Proof. intros H. split; [exact H|apply mapP_nil]. Qed.
Lemma var_kc m : var_map m -> mapP kc m.
Proof. intros H k v Hk _. apply H in Hk. destruct Hk as [_ Hk]. destruct v; try discriminate. reflexivity. Qed.
(** the renamings made at binders keep sorts *)
Lemma ren_ks sb vs : forall newv ren vs' ren', rename_vars sb newv ren vs = (vs', ren') -> mapP ks ren -> mapP ks ren'.
Proof.
  induction vs as [|[x s] vs IH]; intros newv ren vs' ren' H Hr; cbn [rename_vars] in H.
  - injection H as <- <-. auto.
  - cbv zeta in H. destruct (rename_vars _ _ _ vs) as [r' ren''] eqn:E in H. injection H as <- <-. apply IH in E; auto.
    destruct (negb _); [|auto]. apply mapP_sins; auto. intros _ _. split; reflexivity.
Qed.
Lemma seq_p (P : term -> term -> Prop) (Q : term -> bool) (f : sub -> term -> outcome sres) :
  (forall S t r S' ok, inv_p P S -> Q t = true -> f S t = ROk (r, S', ok) -> inv_p P S' /\ P t r) ->
  forall l S l' S' ok, inv_p P S -> forallb Q l = true -> apply_seq f S l = ROk (l', S', ok) -> inv_p P S' /\ Forall2 P l l'.
Proof.
  intros Hf. induction l as [|a l IH]; intros S l' S' ok Hi Hn H; cbn [apply_seq] in H.
  - assert (l' = []) by congruence. assert (S' = S) by congruence. subst. split; [auto|constructor].
  - cbn [forallb] in Hn. apply andb_true_iff in Hn. destruct Hn as [Hn1 Hn2].
    apply obind_ok in H. destruct H as [[[a' S1] ok1] [H1 H]]. apply obind_ok in H. destruct H as [[[r' S2] ok2] [H2 H]].
    assert (l' = a' :: r') by congruence. assert (S2 = S') by congruence. subst. clear H.
    destruct (Hf _ _ _ _ _ Hi Hn1 H1) as [A B]. destruct (IH _ _ _ _ A Hn2 H2) as [C D]. split; [auto|constructor; auto].
Qed.
Lemma kc_list l l' : Forall2 kc l l' -> forallb calm l = true -> forallb calm l' = true /\ List.length l' = List.length l.
Proof.
  induction 1 as [|a b l l' H HF IH]; intros Hc; [auto|]. cbn [forallb List.length] in *. apply andb_true_iff in Hc. destruct Hc as [H1 H2].
  destruct (IH H2) as [A B]. rewrite (H H1), A, B. auto.
Qed.
Lemma apply_calm : forall n S t r S' ok, inv_p kc S -> calm t = true -> apply n S t = ROk (r, S', ok) -> inv_p kc S' /\ calm r = true.
Proof.
  induction n as [|n IH]; intros S t r S' ok Hi Hc H; [discriminate|]. cbn [apply] in H.
  destruct (sget (sc S) t) as [v|] eqn:Ec.
  { assert (v = r) by congruence. assert (S = S') by congruence. subst. split; [auto|]. apply (proj2 Hi _ _ Ec Hc). }
  destruct (sget (sm S) t) as [v|] eqn:Em.
  { assert (v = r) by congruence. assert (S = S') by congruence. subst. split; [auto|]. apply (proj1 Hi _ _ Em Hc). }
  apply obind_ok in H. destruct H as [[[r0 S1] ok1] [H0 H]]. assert (r0 = r) by congruence. assert (S' = cached S1 t r) by congruence. subst r0 S'. clear H.
  enough (inv_p kc S1 /\ calm r = true) as [A B] by (split; [apply inv_p_cached; auto; intros _; exact B|auto]). clear Ec Em.
  assert (HS := seq_p kc calm (apply n) (fun S t r S' ok A B C => let (X, Y) := IH S t r S' ok A B C in conj X (fun _ => Y))).
  destruct t as [c|x s|f args|o args|s|b vs inner|bs inner|o oa args]; cbn [apply_body] in H0; cbn [calm] in Hc.
  - assert (r = TConst c) by congruence. assert (S1 = S) by congruence. subst. auto.
  - assert (r = TVar x s) by congruence. assert (S1 = S) by congruence. subst. auto.
  - apply andb_true_iff in Hc. destruct Hc as [Hn1 Hn2].
    apply obind_ok in H0. destruct H0 as [[[args' S2] ok2] [H1 H]]. apply obind_ok in H. destruct H as [[[f' S3] ok3] [H2 H]].
    assert (r = TApp f' args') by congruence. assert (S3 = S1) by congruence. subst r S3. destruct (HS _ _ _ _ _ Hi Hn2 H1) as [A B].
    destruct (IH _ _ _ _ _ A Hn1 H2) as [P Q]. split; [auto|]. cbn [calm]. rewrite Q. apply (kc_list _ _ B Hn2).
  - apply andb_true_iff in Hc. destruct Hc as [Hc1 Hc2]. apply obind_ok in H0. destruct H0 as [[[args' S2] ok2] [H1 H]]. assert (r = TOp o args') by congruence. assert (S2 = S1) by congruence. subst r S2.
    destruct (HS _ _ _ _ _ Hi Hc2 H1) as [A B]. split; [auto|]. destruct (kc_list _ _ B Hc2) as [B1 B2]. cbn [calm]. rewrite B1, B2, Hc1. reflexivity.
  - assert (r = TSort s) by congruence. assert (S1 = S) by congruence. subst. auto.
  - cbv zeta in H0. destruct (can_skip (sm S) (sub_names S) vs).
    { assert (r = TBind b vs inner) by congruence. assert (S1 = with_names S) by congruence. subst r S1. split; [apply inv_p_names; auto|exact Hc]. }
    destruct (rename_vars (sub_names S) [] [] vs) as [vs' ren] eqn:Er. assert (Hvm := rename_vars_map _ _ _ _ _ _ Er var_map_nil). destruct ren as [|p ren].
    + apply obind_ok in H0. destruct H0 as [[[i' S2] ok2] [H1 H]]. assert (r = TBind b vs' i') by congruence. assert (S2 = S1) by congruence. subst r S2.
      destruct (IH _ _ _ _ _ (inv_p_names _ _ Hi) Hc H1) as [A B]. split; auto.
    + apply obind_ok in H0. destruct H0 as [[[i1 S2] ok2] [H1 H]]. apply obind_ok in H. destruct H as [[[i2 S3] ok3] [H2 H]].
      assert (r = TBind b vs' i2) by congruence. assert (S3 = S1) by congruence. subst r S3.
      destruct (IH _ _ _ _ _ (inv_p_of _ _ (var_kc _ Hvm)) Hc H1) as [_ A]. destruct (IH _ _ _ _ _ (inv_p_names _ _ Hi) A H2) as [P Q]. split; auto.
  - discriminate.
  - apply obind_ok in H0. destruct H0 as [[[args' S2] ok2] [H1 H]]. assert (r = TPOp o oa args') by congruence. assert (S2 = S1) by congruence. subst r S2.
    destruct (HS _ _ _ _ _ Hi Hc H1) as [A B]. split; [auto|]. cbn [calm]. apply (kc_list _ _ B Hc).
Qed.
Lemma ks_list l l' : Forall2 ks l l' -> forallb wt l = true -> forallb calm l = true -> forallb wt l' = true /\ map sort_of l' = map sort_of l.
Proof.
  induction 1 as [|a b l l' H HF IH]; intros Hw Hc; [auto|]. cbn [forallb map] in *. apply andb_true_iff in Hc, Hw. destruct Hc as [H1 H2], Hw as [H3 H4].
  destruct (IH H4 H2) as [A B]. destruct (H H3 H1) as [C D]. rewrite A, B, C, D. auto.
Qed.
Lemma both_list l : forallb wt l = true -> forallb calm l = true -> forallb (fun t => wt t && calm t) l = true.
Proof. intros H1 H2. apply forallb_forall. intros a Ha. rewrite forallb_forall in H1, H2. rewrite H1, H2; auto. Qed.
Lemma apply_sorts : forall n S t r S' ok, inv_p ks S -> wt t = true -> calm t = true -> apply n S t = ROk (r, S', ok) ->
  inv_p ks S' /\ wt r = true /\ sort_of r = sort_of t.
Proof.
  induction n as [|n IH]; intros S t r S' ok Hi Hw Hc H; [discriminate|]. cbn [apply] in H.
  destruct (sget (sc S) t) as [v|] eqn:Ec.
  { assert (v = r) by congruence. assert (S = S') by congruence. subst. split; [auto|]. apply (proj2 Hi _ _ Ec Hw Hc). }
  destruct (sget (sm S) t) as [v|] eqn:Em.
  { assert (v = r) by congruence. assert (S = S') by congruence. subst. split; [auto|]. apply (proj1 Hi _ _ Em Hw Hc). }
  apply obind_ok in H. destruct H as [[[r0 S1] ok1] [H0 H]]. assert (r0 = r) by congruence. assert (S' = cached S1 t r) by congruence. subst r0 S'. clear H.
  enough (inv_p ks S1 /\ wt r = true /\ sort_of r = sort_of t) as [A B] by (split; [apply inv_p_cached; auto; intros _ _; exact B|auto]). clear Ec Em.
  assert (HS := seq_p ks (fun t => wt t && calm t) (apply n) (fun S t r S' ok A B C =>
    let B' := proj1 (andb_true_iff _ _) B in let (X, Y) := IH S t r S' ok A (proj1 B') (proj2 B') C in conj X (fun _ _ => Y))).
  destruct t as [c|x s|f args|o args|s|b vs inner|bs inner|o oa args]; cbn [apply_body] in H0; cbn [calm] in Hc.
  - assert (r = TConst c) by congruence. assert (S1 = S) by congruence. subst. auto.
  - assert (r = TVar x s) by congruence. assert (S1 = S) by congruence. subst. auto.
  - apply andb_true_iff in Hc. destruct Hc as [Hn1 Hn2]. cbn [wt] in Hw. rewrite !andb_true_iff in Hw. destruct Hw as [[Hw1 Hw2] Hw3].
    apply obind_ok in H0. destruct H0 as [[[args' S2] ok2] [H1 H]]. apply obind_ok in H. destruct H as [[[f' S3] ok3] [H2 H]].
    assert (r = TApp f' args') by congruence. assert (S3 = S1) by congruence. subst r S3. destruct (HS _ _ _ _ _ Hi (both_list _ Hw2 Hn2) H1) as [A B].
    destruct (IH _ _ _ _ _ A Hw1 Hn1 H2) as [P [Q1 Q2]]. destruct (ks_list _ _ B Hw2 Hn2) as [B1 B2].
    split; [auto|]. split; [cbn [wt]; rewrite Q1, Q2, B1, B2, Hw3; reflexivity|]. cbn [sort_of]. rewrite Q2. reflexivity.
  - apply andb_true_iff in Hc. destruct Hc as [Hc1 Hc2]. pose proof Hw as Hw'. cbn [wt] in Hw. rewrite !andb_true_iff in Hw. destruct Hw as [Hw1 Hw2].
    apply obind_ok in H0. destruct H0 as [[[args' S2] ok2] [H1 H]]. assert (r = TOp o args') by congruence. assert (S2 = S1) by congruence. subst r S2.
    destruct (HS _ _ _ _ _ Hi (both_list _ Hw1 Hc2) H1) as [A B]. split; [auto|]. destruct (ks_list _ _ B Hw1 Hc2) as [B1 B2].
    assert (Ho : o <> OBvConst) by (intros ->; discriminate Hw2).
    split; [cbn [wt]; rewrite B1, B2, Hw2; reflexivity|]. rewrite !sort_of_op, B2; auto.
  - discriminate.
  - cbv zeta in H0. destruct (can_skip (sm S) (sub_names S) vs).
    { assert (r = TBind b vs inner) by congruence. assert (S1 = with_names S) by congruence. subst r S1. split; [apply inv_p_names; auto|split; auto]. }
    cbn [wt] in Hw. rewrite !andb_true_iff in Hw. destruct Hw as [[Hw1 Hw2] Hw3].
    destruct (rename_vars (sub_names S) [] [] vs) as [vs' ren] eqn:Er. assert (Hvm := rename_vars_map _ _ _ _ _ _ Er var_map_nil).
    assert (Hks := ren_ks _ _ _ _ _ _ Er (mapP_nil ks)). destruct (rename_vars_notin _ _ _ _ _ _ Er) as [_ Hsn].
    assert (Hlen : List.length vs' = List.length vs) by (rewrite <- (map_length snd vs'), Hsn, map_length; reflexivity).
    assert (HW : forall i', wt i' = true -> sort_of i' = sort_of inner -> wt (TBind b vs' i') = true).
    { intros i' Hi1 Hi2. cbn [wt]. rewrite Hi1, Hi2, Hlen. replace (min_len 1 vs') with (min_len 1 vs); [rewrite Hw2; auto|].
      destruct vs, vs'; try discriminate; reflexivity. }
    assert (HSo : forall i', sort_of i' = sort_of inner -> sort_of (TBind b vs' i') = sort_of (TBind b vs inner)).
    { intros i' Hi'. destruct b; cbn [sort_of]; auto; rewrite ?Hi', ?Hsn; auto. destruct vs as [|[? ?] ?], vs' as [|[? ?] ?]; try discriminate; auto. cbn in Hsn. congruence. }
    destruct ren as [|p ren].
    + apply obind_ok in H0. destruct H0 as [[[i' S2] ok2] [H1 H]]. assert (r = TBind b vs' i') by congruence. assert (S2 = S1) by congruence. subst r S2.
      destruct (IH _ _ _ _ _ (inv_p_names _ _ Hi) Hw1 Hc H1) as [A [B C]]. split; auto.
    + apply obind_ok in H0. destruct H0 as [[[i1 S2] ok2] [H1 H]]. apply obind_ok in H. destruct H as [[[i2 S3] ok3] [H2 H]].
      assert (r = TBind b vs' i2) by congruence. assert (S3 = S1) by congruence. subst r S3.
      destruct (apply_calm _ _ _ _ _ _ (inv_p_of _ _ (var_kc _ Hvm)) Hc H1) as [_ A].
      destruct (IH _ _ _ _ _ (inv_p_of _ _ Hks) Hw1 Hc H1) as [_ [A1 A2]]. destruct (IH _ _ _ _ _ (inv_p_names _ _ Hi) A1 A H2) as [P [Q1 Q2]].
      rewrite A2 in Q2. split; auto.
  - discriminate.
  - cbn [wt] in Hw. rewrite !andb_true_iff in Hw. destruct Hw as [Hw1 Hw2].
    apply obind_ok in H0. destruct H0 as [[[args' S2] ok2] [H1 H]]. assert (r = TPOp o oa args') by congruence. assert (S2 = S1) by congruence. subst r S2.
    destruct (HS _ _ _ _ _ Hi (both_list _ Hw1 Hc) H1) as [A B]. destruct (ks_list _ _ B Hw1 Hc) as [B1 B2].
    split; [auto|]. split; [cbn [wt]; rewrite B1, B2, Hw2; reflexivity|]. cbn [sort_of]. rewrite B2. reflexivity.
Qed.

(** ** The context stack *)
Definition anchor_calm (a : anchor) : bool :=
  match a with AVar _ => true | AAssign (_, s) t => wt t && calm t && sort_eqb s (sort_of t) end.
Definition inv2 (S : sub) : Prop := inv_p kc S /\ inv_p ks S.
Lemma inv2_empty : inv2 sub_empty.
Proof. split; split; apply mapP_nil. Qed.
Lemma sub_apply_total S t : no_let t = true -> exists r S' ok, sub_apply S t = ROk (r, S', ok).
Proof.
  intros Hn. unfold sub_apply. destruct (apply (tsize t) S t) as [[[r S'] ok]| |] eqn:E; [eauto| |].
  - exfalso. apply (apply_fuel (tsize t) S t); auto.
  - exfalso. apply (apply_nopanic (tsize t) S t); auto.
Qed.
Lemma sub_apply_calm S t : inv_p kc S -> calm t = true -> exists r S' ok, sub_apply S t = ROk (r, S', ok) /\ inv_p kc S' /\ calm r = true.
Proof.
  intros Hi Hc. destruct (sub_apply_total S t (calm_no_let _ Hc)) as [r [S' [ok E]]]. exists r, S', ok. split; [exact E|]. eapply apply_calm; eauto.
Qed.
Lemma mapP_filter P (g : term -> bool) m : mapP P m -> mapP P (filter (fun p => g (fst p)) m).
Proof. intros H k v Hk. rewrite sget_filter in Hk. destruct (g k); [auto|discriminate]. Qed.
Lemma inv_p_insert P S x t : inv_p P S -> P x t -> inv_p P (sub_insert S x t).
Proof. intros [H1 H2] H. split; [apply mapP_sins; auto|]. cbn [sub_insert sc]. apply (mapP_filter P (fun k => negb (in_fvars x k))). exact H2. Qed.
Lemma inv_p_remove P S x : inv_p P S -> inv_p P (sub_remove S x).
Proof. intros [H1 H2]. unfold sub_remove. destruct (sget (sm S) x); [|split; auto]. split; [|exact H2]. cbn [sm]. apply (mapP_filter P (fun k => negb (term_eqb x k))). exact H1. Qed.
Lemma add_arg_calm S a : inv2 S -> anchor_calm a = true -> exists S' ok, add_arg S a = ROk (S', ok) /\ inv2 S'.
Proof.
  intros [Hc Hs] Ha. destruct a as [[x s]|[x s] t]; cbn [add_arg anchor_calm] in *.
  - eexists _, _. split; [reflexivity|]. split; apply inv_p_remove; auto.
  - rewrite !andb_true_iff in Ha. destruct Ha as [[H1 H2] H3]. apply sort_eqb_eq in H3.
    destruct (sub_apply_calm S t Hc H2) as [r [S1 [ok [E [I1 C1]]]]]. destruct (apply_sorts _ _ _ _ _ _ Hs H1 H2 E) as [I2 [W2 S2]].
    rewrite E. cbn [obind]. assert (Es : sort_eqb s (sort_of r) = true) by (apply sort_eqb_eq; congruence). rewrite Es. eexists _, _. split; [reflexivity|].
    split; apply inv_p_insert; auto; [intros _; exact C1|intros _ _; split; [exact W2|cbn [sort_of]; congruence]].
Qed.
Lemma add_args_calm l : forall S, inv2 S -> forallb anchor_calm l = true -> exists S' ok, add_args S l = ROk (S', ok) /\ inv2 S'.
Proof.
  induction l as [|a l IH]; intros S Hi Ha; cbn [add_args forallb] in *; [eexists _, _; split; [reflexivity|auto]|]. apply andb_true_iff in Ha. destruct Ha as [H1 H2].
  destruct (add_arg_calm S a Hi H1) as [S1 [ok1 [E1 I1]]]. rewrite E1. cbn [obind]. destruct (IH S1 I1 H2) as [S2 [ok2 [E2 I2]]]. rewrite E2. cbn [obind].
  eexists _, _. split; [reflexivity|auto].
Qed.
Definition lv_calm (lv : level) : Prop := match lv_sub lv with Some S0 => inv2 S0 | None => False end.
Lemma catch_up_calm cx : forallb (forallb anchor_calm) cx = true ->
  exists st, catch_up (fresh_stack cx) = ROk st /\ List.length st = List.length cx /\ Forall lv_calm st.
Proof.
  induction cx as [|a cx IH]; intros H; cbn [fresh_stack map catch_up forallb] in *; [exists []; repeat split; constructor|].
  apply andb_true_iff in H. destruct H as [H1 H2]. destruct (IH H2) as [st [E [L F]]]. fold (fresh_stack cx). rewrite E. cbn [obind].
  assert (Ht : inv2 (top_sub st)). { destruct st as [|[b [S0|]] st]; [apply inv2_empty| |]; inversion F; subst; auto. contradiction. }
  destruct (add_args_calm a _ Ht H1) as [S' [ok [E2 I2]]]. rewrite E2. cbn [obind fst]. eexists. split; [reflexivity|].
  split; [cbn [List.length]; congruence|]. constructor; [exact I2|exact F].
Qed.
(** stacks that have a calculated form in which the substitutions map calm terms to calm terms *)
Definition lv_kc (lv : level) : Prop := match lv_sub lv with Some S0 => inv_p kc S0 | None => False end.
Definition stack_calm (n : nat) (st : cstack) : Prop :=
  List.length st = n /\ exists st1, catch_up st = ROk st1 /\ List.length st1 = n /\ Forall lv_kc st1.
Lemma calm_fresh cx : forallb (forallb anchor_calm) cx = true -> stack_calm (List.length cx) (fresh_stack cx).
Proof.
  intros H. split; [unfold fresh_stack; apply map_length|]. destruct (catch_up_calm cx H) as [st [E [L F]]]. exists st. split; [auto|]. split; [auto|].
  eapply Forall_impl; [|exact F]. intros [a [S0|]]; unfold lv_calm, lv_kc; cbn [lv_sub]; [intros [X _]; exact X|auto].
Qed.
Lemma calm_done n st : List.length st = n -> Forall lv_kc st -> stack_calm n st.
Proof.
  intros <- F. split; [reflexivity|]. destruct st as [|[a [S0|]] st]; [exists []; auto| |]; [|inversion F; contradiction].
  exists (mkLv a (Some S0) :: st). auto.
Qed.
Lemma ctx_apply_calm n st t : stack_calm n st -> calm t = true ->
  exists t' st', ctx_apply st t = ROk (t', st') /\ stack_calm n st' /\ calm t' = true.
Proof.
  intros [Hl [st1 [E [L F]]]] Hc. destruct st as [|lv st]; [exists t, []; split; [reflexivity|]; split; [|auto]; split; [exact Hl|exists st1; auto]|].
  unfold ctx_apply. rewrite E. cbn [obind]. destruct st1 as [|[a [S0|]] st1]; [cbn in *; lia| |inversion F; contradiction].
  inversion F as [|? ? F1 F2]; subst. destruct (sub_apply_calm S0 t F1 Hc) as [r [S' [ok [E2 [I2 C2]]]]]. rewrite E2. cbn [obind].
  eexists _, _. split; [reflexivity|]. split; [|exact C2]. apply calm_done; [exact L|]. constructor; [exact I2|auto].
Qed.
Lemma ctx_apply_prev_calm n st t : stack_calm n st -> calm t = true -> exists t' st', ctx_apply_prev st t = ROk (t', st') /\ calm t' = true.
Proof.
  intros [Hl [st1 [E [L F]]]] Hc. destruct st as [|lv [|lv2 st]]; [eexists _, _; split; [reflexivity|auto]..|].
  unfold ctx_apply_prev. rewrite E. cbn [obind]. destruct st1 as [|l1 [|[a [S0|]] st1]]; [cbn in *; lia..| |].
  - inversion F as [|? ? _ F2]; subst. inversion F2 as [|? ? F1 _]; subst. destruct (sub_apply_calm S0 t F1 Hc) as [r [S' [ok [E2 [I2 C2]]]]]. rewrite E2. cbn [obind].
    eexists _, _. split; [reflexivity|exact C2].
  - inversion F as [|? ? _ F2]; subst. inversion F2; contradiction.
Qed.

(** ** The rules *)
Definition safe_ctx (r : crule) : Prop := forall ra, forallb calm (ra_concl ra) = true ->
  forallb (forallb anchor_calm) (ra_ctx ra) = true -> (ra_prev ra <> None -> ra_ctx ra <> []) -> r ra <> RPanic.
Lemma np_alpha a b : calm a = true -> calm b = true -> alpha_equiv a b <> RPanic.
Proof. intros Ha Hb. destruct (peq_total cfg_alpha a b (calm_tame _ Ha) (calm_tame _ Hb)) as [r E]. unfold alpha_equiv. rewrite E. discriminate. Qed.
Lemma calm_eq2 o t x : m_op2 o t = ROk x -> calm t = true -> calm (fst x) = true /\ calm (snd x) = true.
Proof. intros H Hc. apply m_op2_ok in H. subst t. apply calm_args in Hc. cbn [forallb] in Hc. rewrite andb_true_r in Hc. apply andb_true_iff in Hc. exact Hc. Qed.
Lemma refl_calm : safe_ctx r_refl.
Proof.
  intros ra Hc Hx _. unfold r_refl, refl_pair. apply calm_fresh in Hx. set (st := fresh_stack (ra_ctx ra)) in *. set (n := List.length (ra_ctx ra)) in *. clearbody st n.
  apply np_bind; [|discriminate]. apply np_bind; [apply np_len_is|]. intros u0 Hlen0; apply len_is_ok in Hlen0. destruct (ra_concl ra) as [|c0 [|? ?]]; try discriminate.
  cbn [idx nth_error unwrap obind]. cbn [forallb] in Hc. rewrite andb_true_r in Hc. apply np_bind; [apply np_m_op2|]. intros [l r] H.
  destruct (calm_eq2 _ _ _ H Hc) as [Hl Hr]. cbn [fst snd] in *.
  apply np_bind; [apply np_alpha; auto|]. intros [|] _; [discriminate|]. apply np_bind; [apply np_rassert|]. intros _ _.
  destruct (ctx_apply_calm n st l Hx Hl) as [l' [st1 [E1 [X1 C1]]]]. rewrite E1. cbn [obind]. apply np_bind; [apply np_alpha; auto|]. intros [|] _; [discriminate|].
  destruct (ctx_apply_calm n st1 r X1 Hr) as [r' [st2 [E2 [X2 C2]]]]. rewrite E2. cbn [obind]. apply np_bind; [apply np_alpha; auto|]. intros [|] _; [discriminate|].
  apply np_bind; [apply np_alpha; auto|]. intros e3 _. apply np_bind; [apply np_rassert|discriminate].
Qed.
Lemma strict_refl_calm : safe_ctx r_strict_refl.
Proof.
  intros ra Hc Hx _. unfold r_strict_refl, strict_refl_st. apply calm_fresh in Hx. set (st := fresh_stack (ra_ctx ra)) in *. set (n := List.length (ra_ctx ra)) in *. clearbody st n.
  apply np_bind; [|discriminate]. apply np_bind; [apply np_len_is|]. intros u0 Hlen0; apply len_is_ok in Hlen0. destruct (ra_concl ra) as [|c0 [|? ?]]; try discriminate.
  cbn [idx nth_error unwrap obind]. cbn [forallb] in Hc. rewrite andb_true_r in Hc. apply np_bind; [apply np_m_op2|]. intros [l r] H.
  destruct (calm_eq2 _ _ _ H Hc) as [Hl Hr]. cbn [fst snd] in *. destruct (term_eqb l r); [discriminate|]. apply np_bind; [apply np_rassert|]. intros _ _.
  destruct (ctx_apply_calm n st l Hx Hl) as [l' [st1 [E1 [X1 C1]]]]. rewrite E1. cbn [obind]. apply np_bind; [apply np_rassert|discriminate].
Qed.
Lemma np_last_ctx cx : cx <> [] -> last_ctx cx <> RPanic.
Proof. destruct cx; [congruence|discriminate]. Qed.
Lemma np_bind_xs a : forall xs, bind_xs xs a <> RPanic.
Proof. induction a as [|[v|v t] a IH]; intros xs; cbn [bind_xs]; [discriminate| |apply IH]. destruct xs; [apply IH|discriminate]. Qed.
Lemma np_let_pairs lb : forall rb ps, bind_let_pairs lb rb ps <> RPanic.
Proof.
  induction lb as [|[x v] lb IH]; intros [|[y w] rb] ps; cbn [bind_let_pairs]; try discriminate. apply np_bind; [apply np_rassert|]. intros _ _.
  destruct (term_eqb v w); [apply IH|]. destruct (skip_to v w ps); [apply IH|discriminate].
Qed.
Ltac bstep := lazymatch goal with
  | |- (if ?b then _ else _) <> RPanic => destruct b
  | |- obind (ok_or (ra_prev _)) _ <> RPanic => let H := fresh "Hprev" in apply np_bind; [apply np_ok_or|intros ? H; apply ok_or_ok in H]
  | |- obind (last_ctx _) _ <> RPanic => apply np_bind; [apply np_last_ctx|intros ? _]
  | |- obind (idx _ 0) _ <> RPanic => idtac
  | |- (let (_, _) := ?p in _) <> RPanic => destruct p
  | |- match ?p with (_, _) => _ end <> RPanic => destruct p
  | _ => npstep
  end.
Lemma bind_calm : safe_ctx r_bind.
Proof.
  intros ra _ _ Hp. unfold r_bind. bstep. assert (Hn : ra_ctx ra <> []) by (apply Hp; congruence).
  apply np_bind; [apply np_len_is|]. intros u0 Hlen0; apply len_is_ok in Hlen0. destruct (ra_concl ra) as [|c0 [|? ?]]; try discriminate.
  cbn [idx nth_error unwrap obind]. do 6 bstep. all: repeat (bstep; try apply np_bind_xs; auto).
Qed.
Lemma let_calm : safe_ctx r_let.
Proof.
  intros ra _ _ Hp. unfold r_let. bstep. assert (Hn : ra_ctx ra <> []) by (apply Hp; congruence).
  apply np_bind; [apply np_len_is|]. intros u0 Hlen0; apply len_is_ok in Hlen0. destruct (ra_concl ra) as [|c0 [|? ?]]; try discriminate.
  cbn [idx nth_error unwrap obind]. bstep; [exact Hn|]. repeat (bstep; auto). all: unfold let_pair, justifies; repeat bstep; auto.
Qed.
Lemma bind_let_calm : safe_ctx r_bind_let.
Proof.
  intros ra _ _ Hp. unfold r_bind_let. bstep.
  apply np_bind; [apply np_len_is|]. intros u0 Hlen0; apply len_is_ok in Hlen0. destruct (ra_concl ra) as [|c0 [|? ?]]; try discriminate.
  cbn [idx nth_error unwrap obind]. repeat (bstep; try apply np_let_pairs; auto).
Qed.
Lemma points_calm t : forall pol, calm t = true -> forall p, In p (find_points pol t) -> calm (snd p) = true.
Proof.
  induction t as [c|x s|f args IHf IHa|o l IH|s|b vs inner IH|bs inner IHb IH|o oa l IHo IH] using term_ind'; intros pol Hn p Hp; cbn [find_points] in Hp; try contradiction.
  - apply calm_args in Hn. rewrite forallb_forall in Hn. rewrite Forall_forall in IH.
    assert (HF : forall pl, In p (flat_map (find_points pl) l) -> calm (snd p) = true).
    { intros pl H. apply in_flat_map in H. destruct H as [a [Ha H]]. apply (IH a Ha pl); auto. }
    destruct (op_eqb o ONot).
    + destruct l as [|x [|? ?]]; try contradiction. apply (IH x (or_introl eq_refl) (negb pol)); auto. apply Hn. left; auto.
    + destruct pol.
      * destruct (op_eqb o OEquals).
        { destruct l as [|a [|b [|? ?]]]; try contradiction. apply in_app_iff in Hp. destruct Hp as [Hp|Hp].
          - destruct a; try contradiction. destruct Hp as [<-|[]]. apply Hn. right; left; auto.
          - destruct b; try contradiction. destruct Hp as [<-|[]]. apply Hn. left; auto. }
        destruct (op_eqb o OAnd); [apply (HF _ Hp)|contradiction].
      * destruct (op_eqb o OImplies).
        { destruct l as [|a [|b [|? ?]]]; try contradiction. apply in_app_iff in Hp. destruct Hp as [Hp|Hp].
          - apply (IH a (or_introl eq_refl) true); auto. apply Hn; left; auto.
          - apply (IH b (or_intror (or_introl eq_refl)) false); auto. apply Hn; right; left; auto. }
        destruct (op_eqb o OOr); [apply (HF _ Hp)|contradiction].
  - cbn [calm] in Hn. destruct b; try contradiction; apply (IH pol); auto.
Qed.
Lemma np_apply_points l : forall n st, stack_calm n st -> (forall p, In p l -> calm (snd p) = true) -> apply_points st l <> RPanic.
Proof.
  induction l as [|[x t] l IH]; intros n st Hs Hl; cbn [apply_points]; [discriminate|].
  destruct (ctx_apply_calm n st t Hs (Hl _ (or_introl eq_refl))) as [t' [st' [E [X C]]]]. rewrite E. cbn [obind].
  apply np_bind; [apply (IH n); auto; intros p Hp; apply Hl; right; auto|discriminate].
Qed.
Lemma quant_calm t q vs u : as_quant t = Some (q, vs, u) -> calm t = true -> calm u = true.
Proof. destruct t as [| | | | |b ? ?| |]; try discriminate. destruct b; try discriminate; intros H Hc; injection H as <- <- <-; exact Hc. Qed.
Lemma onepoint_calm : safe_ctx r_onepoint.
Proof.
  intros ra Hc Hx Hp. unfold r_onepoint. bstep. assert (Hn : ra_ctx ra <> []) by (apply Hp; congruence).
  apply np_bind; [apply np_len_is|]. intros u0 Hlen0; apply len_is_ok in Hlen0. destruct (ra_concl ra) as [|c0 [|? ?]]; try discriminate.
  cbn [idx nth_error unwrap obind]. cbn [forallb] in Hc. rewrite andb_true_r in Hc. apply np_bind; [apply np_m_op2|]. intros lr H.
  destruct (calm_eq2 _ _ _ H Hc) as [Hl Hr]. apply np_bind; [apply np_ok_or|]. intros [[q lb] left_] Hq. apply ok_or_ok in Hq.
  assert (Hq' := quant_calm _ _ _ _ Hq Hl). apply np_bind; [destruct (as_quant (snd lr)) as [[[? ?] ?]|]; [apply np_bind; [apply np_rassert|discriminate]|discriminate]|].
  intros [rb right_] _. apply np_bind; [apply np_premise|intros pt _]. apply np_bind; [apply np_m_op2|intros pe _]. apply np_bind; [apply np_rassert|intros _ _].
  apply np_bind; [eapply np_apply_points; [apply calm_fresh; exact Hx|apply points_calm; auto]|]. intros pts _.
  bstep; [exact Hn|]. repeat bstep; auto.
Qed.
Lemma asg_calm l : forallb anchor_calm l = true -> forall k t, sget (asg_map l) k = Some t -> calm t = true.
Proof.
  unfold asg_map. intros H. assert (G : forall m, (forall k t, sget m k = Some t -> calm t = true) -> forall k t,
    sget (fold_left (fun m p => sins m (TVar (fst (asg_key p)) (snd (asg_key p))) (snd p)) (assigns l) m) k = Some t -> calm t = true).
  { unfold assigns. induction l as [|[v|[x s] t] l IH]; intros m Hm; cbn [flat_map app fold_left forallb] in *; [exact Hm| |].
    - apply andb_true_iff in H. apply IH; tauto.
    - apply andb_true_iff in H. destruct H as [H1 H2]. apply IH; [exact H2|]. intros k t' Hk. rewrite sget_sins in Hk. destruct (term_eqb k _); [|eauto].
      cbn [snd] in Hk. injection Hk as <-. cbn [anchor_calm] in H1. rewrite !andb_true_iff in H1. tauto. }
  apply G. intros k t Hk. discriminate.
Qed.
Lemma np_sko_chain q m bs : (forall k t, sget m k = Some t -> calm t = true) -> forall phi, calm phi = true -> sko_chain q m bs phi <> RPanic.
Proof.
  intros Hm. induction bs as [|x bs IH]; intros phi Hc; cbn [sko_chain]; [discriminate|]. apply np_bind; [apply np_ok_or|]. intros t Ht. apply ok_or_ok in Ht. apply Hm in Ht.
  assert (Hs : calm (sko_expected q x bs phi) = true).
  { unfold sko_expected. cbn [calm]. assert (X : calm (match bs with [] => phi | _ => TBind q bs phi end) = true) by (destruct bs; exact Hc).
    destruct (binder_beq q BForall); [|exact X]. unfold tNot. cbn [calm forallb]. rewrite X. reflexivity. }
  apply np_bind; [apply np_alpha; auto|]. intros e _. apply np_bind; [apply np_rassert|]. intros _ _.
  apply np_bind.
  { unfold subst_new. apply np_bind; [apply np_ofor; intros p _; apply np_bind; [apply np_rassert|intros; apply np_rassert]|discriminate]. }
  intros sg Hsg. assert (sg = [(TVar (fst x) (snd x), t)]). { unfold subst_new in Hsg. apply obind_ok in Hsg. destruct Hsg as [? [_ Hsg]]. congruence. } subst sg.
  assert (Hi : inv_p kc (sub_of [(TVar (fst x) (snd x), t)])).
  { apply inv_p_of. intros k v Hk _. unfold sget in Hk. cbn [im_get] in Hk. destruct (term_eqb k (TVar (fst x) (snd x))); [congruence|discriminate]. }
  destruct (sub_apply_calm _ phi Hi Hc) as [r [S' [ok [E [_ C]]]]]. unfold subst. rewrite E. cbn [obind fst]. apply IH. exact C.
Qed.
Lemma sko_calm q : safe_ctx (r_sko q).
Proof.
  intros ra Hc Hx Hp. unfold r_sko. bstep. assert (Hn : ra_ctx ra <> []) by (apply Hp; congruence).
  apply np_bind; [apply np_len_is|]. intros u0 Hlen0; apply len_is_ok in Hlen0. destruct (ra_concl ra) as [|c0 [|? ?]]; try discriminate.
  cbn [idx nth_error unwrap obind]. cbn [forallb] in Hc. rewrite andb_true_r in Hc. apply np_bind; [apply np_m_op2|]. intros lr H.
  destruct (calm_eq2 _ _ _ H Hc) as [Hl Hr]. apply np_bind; [apply np_ok_or|]. intros [[q' bs] phi] Hq. apply ok_or_ok in Hq.
  assert (Hq' := quant_calm _ _ _ _ Hq Hl). apply np_bind; [apply np_rassert|intros _ _]. apply np_bind; [apply np_premise|intros pt _].
  apply np_bind; [apply np_m_op2|intros pe _]. apply np_bind; [apply np_teq|intros _ _]. apply np_bind; [apply np_teq|intros _ _].
  destruct (ctx_apply_prev_calm _ _ phi (calm_fresh _ Hx) Hq') as [t' [st' [E C]]]. rewrite E. cbn [obind fst].
  apply np_bind; [apply np_last_ctx; exact Hn|]. intros a1 Ha. apply np_sko_chain; auto. apply asg_calm. destruct (ra_ctx ra) as [|a0 cx]; [congruence|]. injection Ha as <-.
  cbn [forallb] in Hx. apply andb_true_iff in Hx. tauto.
Qed.
