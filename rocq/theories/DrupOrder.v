(** The outcome of drup and drat does not depend on the order in which the hash map of clauses is traversed, nor, as long as there
    are no collisions, on the hash function. *)
From Coq Require Import List String ZArith Bool Arith Lia Permutation.
From Verif Require Import Base Term Field Sem Sorting Rules Utils R_Resolution R_Drup DrupSound.
Import ListNotations.
Local Open Scope nat_scope.

Lemma rup_total cls goal : (forall c, In c cls -> NoDup c) -> exists b, rup cls goal = ROk b.
Proof. intros H. destruct (rup_exact cls goal H) as [b [Hb _]]. eauto. Qed.
Lemma perm_filter {A} (f : A -> bool) l l' : Permutation l l' -> Permutation (filter f l) (filter f l').
Proof.
  intros H. induction H as [|x l l' H IH|x y l|l1 l2 l3 H1 IH1 H2 IH2]; cbn [filter]; auto.
  - destruct (f x); auto.
  - destruct (f x), (f y); auto. apply perm_swap.
  - eapply perm_trans; eauto.
Qed.
Definition rup_b (cls : list (list dlit)) (goal : list term) : bool := match rup cls goal with ROk b => b | _ => false end.
Lemma rup_b_ok cls goal : (forall c, In c cls -> NoDup c) -> rup cls goal = ROk (rup_b cls goal).
Proof. intros H. unfold rup_b. destruct (rup_total cls goal H) as [b ->]. auto. Qed.
Lemma drat_loop_eq all np rest : (forall c, In c all -> NoDup c) -> forall cls,
  drat_loop all np rest cls = ROk (forallb (fun c => negb (memb blit_eqb np c) || rup_b all (map lit_term (set_remove blit_eqb np c) ++ rest)) cls)%list.
Proof.
  intros Hn. induction cls as [|a r IH]; cbn [drat_loop forallb]; auto. destruct (memb blit_eqb np a); cbn [negb orb andb]; auto.
  rewrite rup_b_ok by auto. cbn [obind]. destruct (rup_b all _); cbn [andb]; auto.
Qed.
Lemma forallb_perm {A} (f : A -> bool) l l' : Permutation l l' -> forallb f l = forallb f l'.
Proof.
  intros H. destruct (forallb f l') eqn:E.
  - apply forallb_forall. intros x Hx. rewrite forallb_forall in E. apply E. eapply Permutation_in; eauto.
  - rewrite <- not_true_iff_false in *. intros G. apply E. apply forallb_forall. intros x Hx. rewrite forallb_forall in G. apply G. eapply Permutation_in; [apply Permutation_sym|]; eauto.
Qed.
Lemma forallb_ext' {A} (f g : A -> bool) l : (forall x, f x = g x) -> forallb f l = forallb g l.
Proof. intros H. induction l as [|a l IH]; cbn; [|rewrite H, IH]; auto. Qed.
Lemma check_drat_order cls cls' goal : (forall c, In c cls -> NoDup c) -> Permutation cls cls' -> check_drat cls goal = check_drat cls' goal.
Proof.
  intros Hn Hp. assert (Hn' : forall c, In c cls' -> NoDup c) by (intros c Hc; apply Hn; eapply Permutation_in; [apply Permutation_sym|]; eauto).
  destruct goal as [|p rest]; auto. cbn [check_drat]. rewrite !drat_loop_eq by auto. f_equal. rewrite (forallb_perm _ _ _ Hp). apply forallb_ext'.
  intros c. f_equal. unfold rup_b. rewrite (rup_order cls cls') by auto. auto.
Qed.

Section Order.
  Context {K : Type} (keqb : K -> K -> bool) (hash : term -> K).
  Hypothesis keqb_eq : forall a b, keqb a b = true <-> a = b.
  Notation mp := (dmap (K := K)).
  (** The traversal order: before the step [i] the entries of the map are rearranged by [sh i]. *)
  Fixpoint dsteps_sh (sh : nat -> mp -> mp) (i : nat) (rat : bool) (m : mp) (args : list term) : outcome mp :=
    match args with
    | [] => ROk m
    | t :: r => do m' <- dstep keqb hash rat (sh i m) t ; dsteps_sh sh (S i) rat m' r
    end.
  Definition r_drup_sh (sh : nat -> mp -> mp) (rat : bool) : rule := fun c ps args =>
    do m <- dsteps_sh sh 0 rat (dinit keqb hash (map (TOp OCl) ps)) args ;
    rassert (match im_get keqb m (hash_term hash (TOp OCl c)) with Some _ => true | None => false end).
  Definition mok (m : mp) : Prop := NoDup (map fst m) /\ forall c, In c (map snd m) -> NoDup c.
  Lemma dins_perm (m : mp) k c : NoDup (map fst m) -> Permutation (dins keqb m k c) ((k, c) :: dremove keqb m k).
  Proof.
    unfold dins, dremove. induction m as [|[a b] r IH]; intros H; [apply Permutation_refl|]. cbn [im_insert filter fst]. inversion H as [|? ? Hn Hr]; subst. cbn in Hn, Hr. destruct (keqb k a) eqn:Ek; cbn [negb].
    - apply keqb_eq in Ek. subst. apply Permutation_refl' . f_equal. clear - Hn keqb_eq. induction r as [|[x y] r IH]; auto. cbn [filter fst]. destruct (keqb a x) eqn:Ex; cbn [negb].
      + apply keqb_eq in Ex. subst. destruct Hn. left. auto.
      + f_equal. apply IH. intros G. apply Hn. right. auto.
    - eapply perm_trans; [apply perm_skip, IH; auto|]. apply perm_swap.
  Qed.
  Lemma mok_perm m m' : Permutation m m' -> mok m -> mok m'.
  Proof.
    intros Hp [H1 H2]. split; [eapply Permutation_NoDup; [apply Permutation_map|]; eauto|]. intros c Hc. apply H2.
    eapply Permutation_in; [apply Permutation_map, Permutation_sym|]; eauto.
  Qed.
  Lemma mok_ins m k c : mok m -> NoDup c -> mok (dins keqb m k c).
  Proof.
    intros [H1 H2] Hc. split; [apply (im_insert_NoDup keqb keqb_eq); auto|]. intros x Hx. apply in_map_iff in Hx. destruct Hx as [[k' c'] [<- Hx]].
    apply im_insert_In in Hx; auto. destruct Hx as [Hx|Hx]; [injection Hx as -> ->; auto|]. apply H2. apply in_map_iff. exists (k', c'). auto.
  Qed.
  Lemma filter_fst_NoDup (f : K * list dlit -> bool) m : NoDup (map fst m) -> NoDup (map fst (filter f m)).
  Proof.
    induction m as [|[a b] r IH]; cbn [filter]; intros H; auto. cbn [map fst] in H. rewrite NoDup_cons_iff in H. destruct H as [H1 H2]. destruct (f (a, b)); auto. cbn [map fst]. constructor; auto.
    intros G. apply H1. apply in_map_iff in G. destruct G as [x [Ex G]]. apply filter_In in G. apply in_map_iff. exists x. split; auto. apply G.
  Qed.
  Lemma mok_remove m k : mok m -> mok (dremove keqb m k).
  Proof.
    intros [H1 H2]. split; [apply filter_fst_NoDup; auto|]. intros c Hc. apply in_map_iff in Hc. destruct Hc as [x [<- Hx]]. apply filter_In in Hx. apply H2, in_map, Hx.
  Qed.
  Lemma mok_init ps : mok (dinit keqb hash ps).
  Proof.
    unfold dinit. assert (G : forall m, mok m -> mok (fold_left (fun m p => dins keqb m (hash_term hash p) (dclause p)) ps m)).
    { induction ps as [|p ps IH]; intros m H; auto. cbn [fold_left]. apply IH. apply mok_ins; auto. apply lits_of_NoDup. }
    apply G. split; [constructor|intros c []].
  Qed.
  Definition same_out (x y : outcome mp) : Prop := match x, y with ROk m, ROk m' => mok m /\ Permutation m m' | RErr, RErr => True | RPanic, RPanic => True | _, _ => False end.
  Lemma dstep_order rat m m' t : mok m -> Permutation m m' -> same_out (dstep keqb hash rat m t) (dstep keqb hash rat m' t).
  Proof.
    intros Hm Hp. pose proof (mok_perm _ _ Hp Hm) as Hm'. unfold dstep. destruct (op1 ODelete t) as [d|].
    - destruct (as_op OCl d) as [[|a l]|]; cbn; auto. split; [apply mok_remove; auto|apply perm_filter; auto].
    - destruct (as_op OCl t) as [l|]; [|exact Logic.I]. pose proof (Permutation_map snd Hp) as Hps. pose proof (rup_order (map snd m) (map snd m') l (proj2 Hm) Hps) as Hr.
      rewrite <- Hr. destruct (rup (map snd m) l) as [b| |]; cbn [obind]; try exact Logic.I.
      rewrite (check_drat_order (map snd m) (map snd m') l (proj2 Hm) Hps).
      destruct (if b then ROk true else if rat && negb (List.length l =? 0) then check_drat (map snd m') l else ROk false) as [b'| |]; cbn [obind]; try exact Logic.I.
      destruct b'; cbn [rassert obind]; [|exact Logic.I]. split; [apply mok_ins; auto; apply lits_of_NoDup|].
      eapply perm_trans; [apply dins_perm, Hm|]. eapply perm_trans; [|apply Permutation_sym, dins_perm, Hm']. apply perm_skip, perm_filter, Hp.
  Qed.
  Lemma dsteps_order sh rat : (forall i m, Permutation m (sh i m)) -> forall args i m m', mok m -> Permutation m m' ->
    same_out (dsteps keqb hash rat m args) (dsteps_sh sh i rat m' args).
  Proof.
    intros Hs. induction args as [|t r IH]; intros i m m' Hm Hp; [split; auto|]. cbn [dsteps dsteps_sh].
    pose proof (dstep_order rat m (sh i m') t Hm (perm_trans Hp (Hs i m'))) as H.
    destruct (dstep keqb hash rat m t) as [x| |], (dstep keqb hash rat (sh i m') t) as [y| |]; cbn in H |- *; try contradiction; auto.
    apply IH; apply H.
  Qed.
  Lemma drup_order sh rat c ps args : (forall i m, Permutation m (sh i m)) -> r_drup_sh sh rat c ps args = r_drup keqb hash rat c ps args.
  Proof.
    intros Hs. unfold r_drup_sh, r_drup. pose proof (dsteps_order sh rat Hs args 0 _ _ (mok_init (map (TOp OCl) ps)) (Permutation_refl _)) as H.
    destruct (dsteps keqb hash rat _ args) as [x| |], (dsteps_sh sh 0 rat _ args) as [y| |]; cbn in H |- *; try contradiction; auto. destruct H as [Hm Hp].
    assert (G : forall k, im_get keqb y k = im_get keqb x k).
    { intros k. pose proof (mok_perm _ _ Hp Hm) as Hy. destruct (im_get keqb x k) as [v|] eqn:E.
      - apply (im_get_In keqb keqb_eq); [apply Hy|]. eapply Permutation_in; eauto. apply (im_get_In keqb keqb_eq); auto. apply Hm.
      - destruct (im_get keqb y k) as [v|] eqn:E'; auto. apply (im_get_In keqb keqb_eq) in E'; [|apply Hy]. apply Permutation_sym in Hp. apply (Permutation_in _ Hp) in E'. apply (im_get_In keqb keqb_eq) in E'; [congruence|apply Hm]. }
    rewrite G. reflexivity.
  Qed.

  (** ** The hash function *)
  Variable S : term -> Prop.
  Hypothesis hash_inj : forall a b, S a -> S b -> hash a = hash b -> a = b.
  Definition idh (t : term) : term := t.
  Definition hmap (m : dmap (K := term)) : mp := map (fun p => (hash (fst p), snd p)) m.
  Definition keys_in (m : dmap (K := term)) : Prop := forall k, In k (map fst m) -> S k.
  Lemma keq a b : S a -> S b -> keqb (hash a) (hash b) = term_eqb a b.
  Proof.
    intros Ha Hb. destruct (term_eqb a b) eqn:E.
    - apply term_eqb_eq in E. subst. apply keqb_eq. auto.
    - rewrite <- not_true_iff_false in *. intros G. apply E. apply term_eqb_eq. apply keqb_eq in G. auto.
  Qed.
  Lemma hmap_ins m k c : keys_in m -> S k -> hmap (dins term_eqb m k c) = dins keqb (hmap m) (hash k) c /\ keys_in (dins term_eqb m k c).
  Proof.
    intros Hm Hk. split.
    - unfold hmap, dins. induction m as [|[a b] r IH]; auto. cbn [im_insert map fst snd]. rewrite keq; auto; [|apply Hm; left; auto]. destruct (term_eqb k a); auto. cbn [map fst snd]. f_equal. apply IH. intros x Hx. apply Hm. right. auto.
    - intros x Hx. apply in_map_iff in Hx. destruct Hx as [[y z] [<- Hx]]. apply (im_insert_In term_eqb term_eqb_eq) in Hx. destruct Hx as [Hx|Hx]; [injection Hx as -> ->; auto|]. apply Hm. apply in_map_iff. exists (y, z). auto.
  Qed.
  Lemma hmap_remove m k : keys_in m -> S k -> hmap (dremove term_eqb m k) = dremove keqb (hmap m) (hash k) /\ keys_in (dremove term_eqb m k).
  Proof.
    intros Hm Hk. split.
    - unfold hmap, dremove. induction m as [|[a b] r IH]; auto. cbn [filter map fst snd]. rewrite keq; auto; [|apply Hm; left; auto].
      destruct (term_eqb k a); cbn [negb map fst snd]; [|f_equal]; apply IH; intros x Hx; apply Hm; right; auto.
    - intros x Hx. apply in_map_iff in Hx. destruct Hx as [y [<- Hx]]. apply filter_In in Hx. apply Hm, in_map, Hx.
  Qed.
  Lemma hmap_snd m : map snd (hmap m) = map snd m.
  Proof. unfold hmap. rewrite map_map. apply map_ext. auto. Qed.
  (** the clauses that are looked up, inserted or deleted *)
  Definition clause_terms (args : list term) : list term := flat_map (fun t => match op1 ODelete t with Some d => [d] | None => [t] end) args.
  Lemma hash_cl_id l : hash_term idh (TOp OCl l) = TOp OCl l.
  Proof. unfold hash_term, rm_neg_polarity, idh. destruct l as [|a [|b r]]; reflexivity. Qed.
  Lemma dstep_hash rat m t : keys_in m -> (forall d, In d (clause_terms [t]) -> S d) ->
    match dstep term_eqb idh rat m t with ROk m' => dstep keqb hash rat (hmap m) t = ROk (hmap m') /\ keys_in m' | RErr => dstep keqb hash rat (hmap m) t = RErr | RPanic => dstep keqb hash rat (hmap m) t = RPanic end.
  Proof.
    intros Hm Ht. unfold clause_terms in Ht. cbn [flat_map] in Ht. unfold dstep. destruct (op1 ODelete t) as [d|].
    - destruct (as_op OCl d) as [[|a l]|] eqn:Ed; auto. apply as_op_some in Ed. subst d. rewrite hash_cl_id, hash_cl.
      destruct (hmap_remove m (TOp OCl (a :: l)) Hm) as [H1 H2]; [apply Ht; left; auto|]. rewrite H1. auto.
    - destruct (as_op OCl t) as [l|] eqn:El; auto. apply as_op_some in El. subst t. rewrite hmap_snd. destruct (rup (map snd m) l) as [b| |]; cbn [obind]; auto.
      destruct (if b then ROk true else if rat && negb (List.length l =? 0) then check_drat (map snd m) l else ROk false) as [b'| |]; cbn [obind]; auto.
      destruct b'; cbn [rassert obind]; auto. rewrite hash_cl_id, hash_cl. destruct (hmap_ins m (TOp OCl l) (lits_of l) Hm) as [H1 H2]; [apply Ht; left; auto|]. rewrite H1. auto.
  Qed.
  Lemma dsteps_hash rat : forall args m, keys_in m -> (forall d, In d (clause_terms args) -> S d) ->
    match dsteps term_eqb idh rat m args with ROk m' => dsteps keqb hash rat (hmap m) args = ROk (hmap m') /\ keys_in m' | RErr => dsteps keqb hash rat (hmap m) args = RErr | RPanic => dsteps keqb hash rat (hmap m) args = RPanic end.
  Proof.
    induction args as [|t r IH]; intros m Hm Ht; [cbn; auto|]. cbn [dsteps]. pose proof (dstep_hash rat m t Hm) as H1.
    assert (A : forall d, In d (clause_terms [t]) -> S d) by (intros d Hd; apply Ht; unfold clause_terms in *; cbn [flat_map] in *; rewrite app_nil_r in Hd; apply in_or_app; auto).
    specialize (H1 A). destruct (dstep term_eqb idh rat m t) as [m1| |]; cbn [obind]; [destruct H1 as [-> Hm1]|rewrite H1; auto|rewrite H1; auto]. cbn [obind].
    apply IH; auto. intros d Hd. apply Ht. unfold clause_terms. cbn [flat_map]. apply in_or_app. auto.
  Qed.
  Lemma dinit_hash ps : (forall p, In p ps -> S (TOp OCl p)) -> hmap (dinit term_eqb idh (map (TOp OCl) ps)) = dinit keqb hash (map (TOp OCl) ps) /\ keys_in (dinit term_eqb idh (map (TOp OCl) ps)).
  Proof.
    unfold dinit. change (@nil (K * list dlit)) with (hmap []). assert (A : keys_in []) by intros k []. revert A. generalize (@nil (term * list dlit)).
    induction ps as [|p ps IH]; intros m Hm Hp; [split; auto|]. cbn [map fold_left]. rewrite hash_cl_id, hash_cl.
    destruct (hmap_ins m (TOp OCl p) (dclause (TOp OCl p)) Hm) as [H1 H2]; [apply Hp; left; auto|]. rewrite <- H1. apply IH; auto. intros q Hq. apply Hp. right. auto.
  Qed.
End Order.
Definition hash_inj_on {K} (hash : term -> K) (l : list term) : Prop := forall a b, In a l -> In b l -> hash a = hash b -> a = b.
(** the clauses of a step: conclusion, premises, and those of the arguments *)
Definition drup_terms (c : clause) (ps : list clause) (args : list term) : list term := (TOp OCl c :: map (TOp OCl) ps ++ clause_terms args)%list.
Lemma drup_hash {K} (keqb : K -> K -> bool) (hash : term -> K) (keqb_eq : forall a b, keqb a b = true <-> a = b) rat c ps args :
  hash_inj_on hash (drup_terms c ps args) -> r_drup keqb hash rat c ps args = r_drup term_eqb idh rat c ps args.
Proof.
  intros Hi. unfold r_drup. set (S := fun t => In t (drup_terms c ps args)).
  destruct (dinit_hash keqb hash keqb_eq S Hi ps) as [H1 H2]. { intros p Hp. right. apply in_or_app. left. apply in_map. auto. }
  rewrite <- H1. pose proof (dsteps_hash keqb hash keqb_eq S Hi rat args _ H2) as H3.
  assert (A : forall d, In d (clause_terms args) -> S d) by (intros d Hd; right; apply in_or_app; auto). specialize (H3 A).
  destruct (dsteps term_eqb idh rat (dinit term_eqb idh (map (TOp OCl) ps)) args) as [m| |]; [destruct H3 as [-> Hm]|rewrite H3; auto|rewrite H3; auto]. cbn [obind].
  f_equal. rewrite hash_cl, hash_cl_id. assert (Hc : S (TOp OCl c)) by (left; auto). clear - Hm Hc keqb_eq Hi. induction m as [|[a b] r IH]; auto. cbn [hmap map im_get fst snd].
  rewrite (keq keqb hash keqb_eq S Hi) by (auto; apply Hm; left; auto). destruct (term_eqb (TOp OCl c) a); auto. apply IH. intros k Hk. apply Hm. right. auto.
Qed.
