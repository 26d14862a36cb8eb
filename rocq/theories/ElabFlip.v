(** Elaborating eq_transitive and eq_congruent steps. *)
From Coq Require Import List String ZArith Bool Arith Lia Permutation.
From Verif Require Import Base Term Sem Rules R_Taut R_Claus R_Eq R_Resolution R_Extras R_ResExact Utils Checker R_Binder R_Simp Table Elab ElabSound ElabCong.
Import ListNotations.
Open Scope string_scope.
Local Open Scope nat_scope.
Local Open Scope list_scope.

(** ** structural rules *)
Lemma reordering_ok c p args : Permutation c p -> r_reordering c [p] args = ROk tt.
Proof.
  intros H. unfold r_reordering. cbn [len_is List.length Nat.eqb rassert obind idx nth_error unwrap]. unfold len_is.
  rewrite (Permutation_length H), Nat.eqb_refl. cbn [rassert obind]. rewrite (proj2 (ms_sym_diff_spec term_eqb term_eqb_eq c p) H). reflexivity.
Qed.
Lemma weakening_ok p r args : r_weakening (p ++ r) [p] args = ROk tt.
Proof.
  unfold r_weakening. cbn [len_is List.length Nat.eqb rassert obind idx nth_error unwrap]. unfold len_ge. rewrite app_length.
  assert (E : (List.length p <=? List.length p + List.length r) = true) by (apply Nat.leb_le; lia). rewrite E. cbn [rassert obind]. clear E.
  induction p as [|t p IH]; [destruct r; reflexivity|]. cbn [app combine ofor fst snd]. unfold teq. rewrite term_eqb_rf. exact IH.
Qed.
Lemma ofor_true {A} (f : A -> outcome unit) l : (forall a, In a l -> f a = ROk tt) -> ofor f l = ROk tt.
Proof.
  induction l as [|a l IH]; intros H; [reflexivity|]. cbn [ofor]. rewrite (H a) by (left; reflexivity). cbn [obind]. apply IH. intros b Hb. apply H. right. exact Hb.
Qed.
Lemma count_occ_ t l : count t l = occ term_eqb t l.
Proof. unfold count. induction l as [|x l IH]; [reflexivity|]. cbn [filter occ]. destruct (term_eqb t x); cbn [List.length]; rewrite IH; reflexivity. Qed.
Lemma contraction_ok p args : r_contraction (Utils.dedup term_eqb p) [p] args = ROk tt.
Proof.
  unfold r_contraction. cbn [len_is List.length Nat.eqb rassert obind idx nth_error unwrap].
  assert (H1 : forall t, In t (Utils.dedup term_eqb p) -> count t (Utils.dedup term_eqb p) = 1).
  { intros t Ht. rewrite count_occ_. pose proof (Utils.dedup_NoDup term_eqb term_eqb_eq p) as HN. revert Ht HN. generalize (Utils.dedup term_eqb p). clear.
    induction l as [|x l IH]; intros Ht HN; [destruct Ht|]. apply NoDup_cons_iff in HN. destruct HN as [Hn HN]. cbn [occ]. destruct Ht as [->|Ht].
    - rewrite term_eqb_rf. destruct (occ term_eqb t l) eqn:E; [reflexivity|]. exfalso. apply Hn. apply (occ_pos term_eqb term_eqb_eq). lia.
    - rewrite (IH Ht HN). destruct (term_eqb t x) eqn:E; [|reflexivity]. apply term_eqb_eq in E. subst. contradiction. }
  assert (H2 : forall t, In t p -> 1 <= count t p) by (intros t Ht; rewrite count_occ_; apply (occ_pos term_eqb term_eqb_eq) in Ht; lia).
  rewrite ofor_true.
  - cbn [obind]. apply ofor_true. intros t Ht. rewrite (H1 t Ht). apply (proj1 (Utils.dedup_In term_eqb term_eqb_eq p t)) in Ht. apply H2 in Ht.
    destruct (count t p); [lia|reflexivity].
  - intros t Ht. rewrite (H1 t) by (apply (Utils.dedup_In term_eqb term_eqb_eq); exact Ht). cbn [Nat.eqb negb rassert obind]. apply H2 in Ht. destruct (count t p); [lia|reflexivity].
Qed.

(** [get_weakening_clause] *)
Lemma occ_repeat t x n : occ term_eqb t (repeat x n) = if term_eqb t x then n else 0.
Proof. induction n as [|n IH]; cbn [repeat occ]; [destruct (term_eqb t x); reflexivity|]. rewrite IH. destruct (term_eqb t x); reflexivity. Qed.
Lemma ms_items_occ m t : NoDup (map fst m) -> occ term_eqb t (ms_items m) = ms_get term_eqb m t.
Proof.
  induction m as [|[x n] m IH]; intros HN; [reflexivity|]. cbn [map fst] in HN. apply NoDup_cons_iff in HN. destruct HN as [Hn HN].
  unfold ms_items. cbn [flat_map fst snd]. rewrite occ_app, occ_repeat. fold (ms_items m). rewrite (IH HN). unfold ms_get. cbn [im_get].
  destruct (term_eqb t x) eqn:E; [|reflexivity]. apply term_eqb_eq in E. subst t. destruct (im_get term_eqb m x) eqn:G; [|lia].
  apply (im_get_In term_eqb term_eqb_eq) in G; [|exact HN]. exfalso. apply Hn. apply in_map_iff. exists (x, n0). auto.
Qed.
Lemma ms_remove_spec m t : NoDup (map fst m) -> 0 < ms_get term_eqb m t ->
  NoDup (map fst (ms_remove m t)) /\ forall k, ms_get term_eqb m k = (if term_eqb k t then 1 else 0) + ms_get term_eqb (ms_remove m t) k.
Proof.
  intros HN Hp. unfold ms_remove. destruct (ms_get term_eqb m t <=? 1) eqn:E.
  - apply Nat.leb_le in E. assert (G : im_get term_eqb m t = Some 1) by (unfold ms_get in *; destruct (im_get term_eqb m t) as [n|]; [f_equal; lia|lia]).
    pose proof (im_swap_remove_perm term_eqb term_eqb_eq m t 1 G) as HP.
    assert (HN' : NoDup (map fst ((t, 1) :: im_swap_remove term_eqb m t))) by (eapply Permutation_NoDup; [apply Permutation_map, HP|exact HN]).
    pose proof HN' as HN2. cbn [map fst] in HN2. apply NoDup_cons_iff in HN2. destruct HN2 as [Hni HN2]. split; [exact HN2|].
    intros k. assert (HG : im_get term_eqb m k = im_get term_eqb ((t, 1) :: im_swap_remove term_eqb m t) k).
    { destruct (im_get term_eqb m k) as [n|] eqn:E1.
      - symmetry. apply (im_get_In term_eqb term_eqb_eq); [exact HN'|]. eapply Permutation_in; [exact HP|]. apply (im_get_In term_eqb term_eqb_eq); auto.
      - destruct (im_get term_eqb ((t, 1) :: im_swap_remove term_eqb m t) k) as [n|] eqn:E2; [|reflexivity].
        apply (im_get_In term_eqb term_eqb_eq) in E2; [|exact HN']. apply (Permutation_in _ (Permutation_sym HP)) in E2.
        apply (im_get_In term_eqb term_eqb_eq) in E2; [|exact HN]. congruence. }
    unfold ms_get. rewrite HG. cbn [im_get]. destruct (term_eqb k t) eqn:Ek; [|reflexivity]. apply term_eqb_eq in Ek. subst k.
    destruct (im_get term_eqb (im_swap_remove term_eqb m t) t) as [n|] eqn:E2; [|reflexivity].
    apply (im_get_In term_eqb term_eqb_eq) in E2; [|exact HN2]. exfalso. apply Hni. apply in_map_iff. exists (t, n). auto.
  - apply Nat.leb_gt in E. split; [apply (im_insert_NoDup term_eqb term_eqb_eq); exact HN|]. intros k. unfold ms_get at 1 2. rewrite (im_get_insert term_eqb term_eqb_eq).
    destruct (term_eqb k t) eqn:Ek; [|reflexivity]. apply term_eqb_eq in Ek. subst k. unfold ms_get in *. destruct (im_get term_eqb m t); lia.
Qed.
Lemma missing_spec cur : forall m, NoDup (map fst m) -> (forall t, occ term_eqb t cur <= ms_get term_eqb m t) ->
  exists m', missing_terms m cur = Some m' /\ NoDup (map fst m') /\ forall t, ms_get term_eqb m t = occ term_eqb t cur + ms_get term_eqb m' t.
Proof.
  induction cur as [|x cur IH]; intros m HN H; cbn [missing_terms].
  - exists m. repeat split; auto.
  - assert (Hp : 0 < ms_get term_eqb m x) by (specialize (H x); cbn [occ] in H; rewrite term_eqb_rf in H; lia).
    destruct (ms_get term_eqb m x =? 0) eqn:E; [apply Nat.eqb_eq in E; lia|]. destruct (ms_remove_spec m x HN Hp) as [HN1 HG].
    destruct (IH (ms_remove m x) HN1) as (m' & E1 & E2 & E3).
    + intros t. specialize (H t). cbn [occ] in H. rewrite HG in H. lia.
    + exists m'. repeat split; auto. intros t. rewrite HG, E3. cbn [occ]. lia.
Qed.
Lemma weakened_ok cur target : (forall t, occ term_eqb t cur <= occ term_eqb t target) ->
  exists r, weakened cur target = ROk (cur ++ r) /\ Permutation target (cur ++ r).
Proof.
  intros H. destruct (missing_spec cur (ms_of term_eqb target)) as (m & E1 & E2 & E3).
  - apply (ms_of_NoDup term_eqb term_eqb_eq).
  - intros t. rewrite (ms_of_get term_eqb term_eqb_eq). apply H.
  - exists (ms_items m). unfold weakened. rewrite E1. split; [reflexivity|]. apply (occ_perm term_eqb term_eqb_eq). intros t.
    rewrite occ_app, (ms_items_occ m t E2), <- E3, (ms_of_get term_eqb term_eqb_eq). reflexivity.
Qed.
Lemma NoDup_occ l : NoDup l -> forall t, occ term_eqb t l <= 1.
Proof.
  induction 1 as [|x l Hn HN IH]; intros t; cbn [occ]; [lia|]. destruct (term_eqb t x) eqn:E; [|apply IH]. apply term_eqb_eq in E. subst t.
  destruct (occ term_eqb x l) eqn:E; [lia|]. exfalso. apply Hn. apply (occ_pos term_eqb term_eqb_eq). lia.
Qed.
Lemma incl_occ l r : NoDup l -> incl l r -> forall t, occ term_eqb t l <= occ term_eqb t r.
Proof.
  intros HN H t. pose proof (NoDup_occ l HN t). destruct (occ term_eqb t l) eqn:E; [lia|].
  assert (Ht : In t l) by (apply (occ_pos term_eqb term_eqb_eq); lia). apply H in Ht. apply (occ_pos term_eqb term_eqb_eq) in Ht. lia.
Qed.

(** ** Replacing equalities by resolution *)
Definition eqlit (p : term * term) : lit := (0, tEq (fst p) (snd p)).
Definition nelit (p : term * term) : lit := (1, tEq (fst p) (snd p)).
Lemma lit_eq p : remove_all_negations (tEq (fst p) (snd p)) = eqlit p. Proof. reflexivity. Qed.
Lemma lit_ne p : remove_all_negations (tNot (tEq (fst p) (snd p))) = nelit p. Proof. reflexivity. Qed.
Lemma nelit_inj p q : nelit p = nelit q -> p = q.
Proof. destruct p, q. intros H. injection H as -> ->. reflexivity. Qed.
Lemma swap_swap p : swap_pair (swap_pair p) = p. Proof. destruct p; reflexivity. Qed.
Lemma nelit_dec (x y : lit) : {x = y} + {x <> y}.
Proof. destruct (lit_eqb x y) eqn:E; [left; apply lit_eqb_eq; exact E|right; intros H; apply lit_eqb_eq in H; congruence]. Qed.
Section Flips.
  Variable mk : term * term -> clause.
  Hypothesis Hmk : forall p, lits (mk p) = [eqlit p; nelit (swap_pair p)] \/ lits (mk p) = [nelit (swap_pair p); eqlit p].
  Lemma chain_flip F : forall C R, NoDup F -> (forall p q, In p F -> In q F -> p <> swap_pair q) -> (forall p, In p F -> In (nelit p) C) ->
    (forall y, In y R <-> (In y C /\ ~ In y (map nelit F)) \/ In y (map (fun p => nelit (swap_pair p)) F)) ->
    chain C (combine (map mk F) (map (fun p => (eqlit p, false)) F)) R.
  Proof.
    induction F as [|p F IH]; intros C R HN Hs HC HR.
    - constructor. intros y. rewrite HR. cbn. tauto.
    - apply NoDup_cons_iff in HN. destruct HN as [Hni HN]. cbn [map combine].
      set (C' := filter (fun y => negb (lit_eqb y (nelit p))) C ++ [nelit (swap_pair p)]).
      assert (HC' : forall y, In y C' <-> (In y C /\ y <> nelit p) \/ y = nelit (swap_pair p)).
      { intros y. unfold C'. rewrite in_app_iff, filter_In, negb_true_iff. cbn [In]. split.
        - intros [[H1 H2]|[<-|[]]]; [left|right; reflexivity]. split; [exact H1|]. intros ->. assert (E : lit_eqb (nelit p) (nelit p) = true) by (apply lit_eqb_eq; reflexivity). congruence.
        - intros [[H1 H2]| ->]; [left|right; left; reflexivity]. split; [exact H1|]. destruct (lit_eqb y (nelit p)) eqn:E; [|reflexivity]. apply lit_eqb_eq in E. contradiction. }
      apply (Chain_cons _ _ _ _ C').
      + split; [apply HC; left; reflexivity|]. cbn [neg_lit]. destruct (Hmk p) as [E|E]; rewrite E.
        * exists [], [nelit (swap_pair p)]. split; [reflexivity|]. split; [intros []|]. intros y. rewrite HC'. cbn [In]. intuition.
        * exists [nelit (swap_pair p)], []. split; [reflexivity|]. split; [intros [H|[]]; discriminate|]. intros y. rewrite HC'. cbn [In]. intuition.
      + apply IH; [exact HN|intros; apply Hs; right; auto| |].
        * intros q Hq. apply HC'. left. split; [apply HC; right; exact Hq|]. intros H. apply nelit_inj in H. subst. contradiction.
        * intros y. rewrite HR, HC'. cbn [map In].
          assert (Hx : ~ In (nelit (swap_pair p)) (map nelit F)).
          { intros H. apply in_map_iff in H. destruct H as [q [H1 H2]]. apply nelit_inj in H1. apply (Hs q p); [right; exact H2|left; reflexivity|exact H1]. }
          split.
          -- intros [[H1 H2]|[H|H]]; [left|left|right; exact H].
             ++ split; [left; split; [exact H1|]; intros ->; apply H2; left; reflexivity|]. intros H. apply H2. right. exact H.
             ++ subst y. split; [right; reflexivity|exact Hx].
          -- intros [[[[H1 H2]|H1] H3]|H]; [left|right; left; auto|right; right; exact H].
             split; [exact H1|]. intros [H|H]; [congruence|contradiction].
  Qed.
End Flips.

Section Flip.
  Variable other : bool -> string -> crule.
  Notation accepted := (accepted other).
  Lemma resolution_flips cx (n0 : enode) (mkn : term * term -> enode) F R :
    (forall p, lits (eclause (mkn p)) = [eqlit p; nelit (swap_pair p)] \/ lits (eclause (mkn p)) = [nelit (swap_pair p); eqlit p]) ->
    (forall p, accepted cx (mkn p)) -> accepted cx n0 -> F <> [] -> NoDup F -> (forall p q, In p F -> In q F -> p <> swap_pair q) ->
    (forall p, In p F -> In (nelit p) (lits (eclause n0))) ->
    (forall y, In y (lits R) <-> (In y (lits (eclause n0)) /\ ~ In y (map nelit F)) \/ In y (map (fun p => nelit (swap_pair p)) F)) ->
    accepted cx (EStep R "resolution" (n0 :: map mkn F) (flat_map (fun p => [tEq (fst p) (snd p); tFalse]) F)).
  Proof.
    intros Hmk Hacc H0 Hne HN Hs HC HR. apply accepted_step. split.
    - apply (run_plain other "resolution" r_resolution_with_args); [cbn; tauto|]. cbn [ra_concl ra_prems ra_args map]. apply resolution_with_args_exact.
      destruct F as [|p F]; [congruence|]. exists (eclause n0), (eclause (mkn p)), (map eclause (map mkn F)), (map (fun p => (eqlit p, false)) (p :: F)).
      split; [reflexivity|]. split; [|split].
      + generalize (p :: F). clear. induction l as [|p l IH]; cbn [flat_map map app]; constructor. exact IH.
      + cbn. rewrite !map_length. reflexivity.
      + change (eclause (mkn p) :: map eclause (map mkn F)) with (map eclause (map mkn (p :: F))). rewrite map_map. apply chain_flip; auto.
    - constructor; [exact H0|]. apply Forall_forall. intros n Hn. apply in_map_iff in Hn. destruct Hn as [p [<- _]]. apply Hacc.
  Qed.
  Lemma equiv2_flip_ok cx p : accepted cx (fst (fst (flip_step p))).
  Proof.
    destruct p as [a b]. cbn [flip_step fst]. apply accepted_step. split; [|constructor; [apply eq_symm_ok|constructor]].
    apply (run_plain other "equiv2" r_equiv2); [cbn; tauto|]. cbn [ra_concl ra_prems ra_args map eclause]. vm_compute r_equiv2. cbn. rewrite ?term_eqb_rf. reflexivity.
  Qed.
End Flip.
