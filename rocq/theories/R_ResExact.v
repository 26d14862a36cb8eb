(** Exactness of resolution with pivots: an independent description of what is accepted. *)
From Coq Require Import List String ZArith Bool Arith Lia.
From Verif Require Import Base Term Sem Rules R_Resolution.
Import ListNotations.

(** A literal is a term without leading negations, with their number. *)
Notation lit := (nat * term)%type.
Definition lits (c : clause) : list lit := map remove_all_negations c.
Definition neg_lit (l : lit) : lit := (S (fst l), snd l).
Definition same {A} (a b : list A) : Prop := forall x, In x a <-> In x b.

(** [resolvent C D p b R]: the clauses [C] and [D] clash on the pivot [p]; with [b] it is [C] that has the pivot
    and [D] its negation, without [b] the other way around. All occurrences of the clashing literal are dropped from [C]
    and one from [D]. *)
Definition resolvent (C D : list lit) (p : lit) (b : bool) (R : list lit) : Prop :=
  let pc := if b then p else neg_lit p in
  let pn := if b then neg_lit p else p in
  In pc C /\ exists D1 D2, D = D1 ++ pn :: D2 /\ ~ In pn D1 /\
  forall x, In x R <-> (In x C /\ x <> pc) \/ In x D1 \/ In x D2.
(** resolving [C] with each of the clauses in turn *)
Inductive chain : list lit -> list (clause * (lit * bool)) -> list lit -> Prop :=
| Chain_nil C R : same C R -> chain C [] R
| Chain_cons C D p b C' l R : resolvent C (lits D) p b C' -> chain C' l R -> chain C ((D, (p, b)) :: l) R.
(** the arguments alternate pivots and polarities *)
Inductive pivots : list term -> list (lit * bool) -> Prop :=
| Piv_nil : pivots [] []
| Piv_true t a l : pivots a l -> pivots (t :: tTrue :: a) ((remove_all_negations t, true) :: l)
| Piv_false t a l : pivots a l -> pivots (t :: tFalse :: a) ((remove_all_negations t, false) :: l).

Lemma insert_next_true pin next : forall cur,
  insert_next (set_insert lit_eqb) true pin cur next = (true, fold_left (fun c t => set_insert lit_eqb (remove_all_negations t) c) next cur).
Proof. induction next as [|t r IH]; intros cur; [reflexivity|]. cbn [insert_next negb andb fold_left]. apply IH. Qed.
Lemma fold_insert_In next : forall cur x,
  In x (fold_left (fun c t => set_insert lit_eqb (remove_all_negations t) c) next cur) <-> In x cur \/ In x (lits next).
Proof.
  induction next as [|t r IH]; intros cur x; cbn [fold_left lits map In]; [tauto|].
  rewrite IH, (set_insert_In _ lit_eqb_eq). unfold lits. intuition.
Qed.
Lemma insert_next_false pin next : forall cur,
  (insert_next (set_insert lit_eqb) false pin cur next = (false, fold_left (fun c t => set_insert lit_eqb (remove_all_negations t) c) next cur) /\ ~ In pin (lits next)) \/
  (exists D1 D2 cur', insert_next (set_insert lit_eqb) false pin cur next = (true, cur') /\ lits next = D1 ++ pin :: D2 /\ ~ In pin D1 /\
     forall x, In x cur' <-> In x cur \/ In x D1 \/ In x D2).
Proof.
  induction next as [|t r IH]; intros cur; [left; split; [reflexivity|intros []]|].
  cbn [insert_next negb andb fold_left lits map]. destruct (lit_eqb (remove_all_negations t) pin) eqn:Et.
  - apply lit_eqb_eq in Et. right. rewrite insert_next_true. exists [], (lits r), (fold_left (fun c t => set_insert lit_eqb (remove_all_negations t) c) r cur).
    split; [reflexivity|]. split; [rewrite Et; reflexivity|]. split; [intros []|]. intros x. rewrite fold_insert_In. cbn. tauto.
  - assert (Hn : remove_all_negations t <> pin) by (intros Hx; apply lit_eqb_eq in Hx; congruence).
    destruct (IH (set_insert lit_eqb (remove_all_negations t) cur)) as [[E Hni]|(D1 & D2 & cur' & E & HD & Hni & Hx)].
    + left. split; [exact E|]. intros [Hx|Hx]; auto.
    + right. exists (remove_all_negations t :: D1), D2, cur'. split; [exact E|]. split; [cbn; unfold lits in HD; rewrite HD; reflexivity|].
      split; [intros [H|H]; auto|]. intros x. rewrite Hx, (set_insert_In _ lit_eqb_eq). cbn [In]. intuition.
Qed.

Lemma first_split {A} (x : A) : forall D1 D2 D1' D2', D1 ++ x :: D2 = D1' ++ x :: D2' -> ~ In x D1 -> ~ In x D1' -> D1 = D1' /\ D2 = D2'.
Proof.
  induction D1 as [|a D1 IH]; intros D2 [|a' D1'] D2' H H1 H2; cbn in *.
  - split; congruence.
  - exfalso. apply H2. left. congruence.
  - exfalso. apply H1. left. congruence.
  - assert (a = a') by congruence. subst a'. destruct (IH D2 D1' D2') as [-> ->]; [congruence|tauto|tauto|auto].
Qed.

Lemma binary_exact cur next p b :
  (forall cur', binary_resolution (set_insert lit_eqb) (set_remove lit_eqb) cur next p b = ROk cur' -> resolvent cur (lits next) p b cur') /\
  (forall C R, same C cur -> resolvent C (lits next) p b R ->
     exists cur', binary_resolution (set_insert lit_eqb) (set_remove lit_eqb) cur next p b = ROk cur' /\ same R cur').
Proof.
  unfold binary_resolution, resolvent, neg_lit.
  assert (Epair : (if b then (p, (S (fst p), snd p)) else ((S (fst p), snd p), p)) =
                  (if b then p else (S (fst p), snd p), if b then (S (fst p), snd p) else p)) by (destruct b; reflexivity).
  rewrite Epair. set (pc := if b then p else (S (fst p), snd p)). set (pn := if b then (S (fst p), snd p) else p). clearbody pc pn. clear Epair.
  destruct (insert_next_false pn next (set_remove lit_eqb pc cur)) as [[E Hni]|(D1 & D2 & cur1 & E & HD & Hni & Hx)]; rewrite E; split.
  - intros cur' H. apply obind_ok in H. destruct H as [u [_ H]]. discriminate.
  - intros C R _ (_ & D1 & D2 & HD & _). exfalso. apply Hni. rewrite HD. apply in_or_app. right. left. reflexivity.
  - intros cur' H. apply obind_ok in H. destruct H as [u [Hm H]]. apply rassert_ok in Hm. apply (memb_In _ lit_eqb_eq) in Hm.
    cbn [rassert obind] in H. assert (cur1 = cur') by congruence. subst cur1. split; [exact Hm|].
    exists D1, D2. split; [exact HD|]. split; [exact Hni|]. intros x. rewrite Hx, (set_remove_In _ lit_eqb_eq). tauto.
  - intros C R HC (Hpc & D1' & D2' & HD' & Hni' & HR). exists cur1. apply HC in Hpc.
    apply (memb_In _ lit_eqb_eq) in Hpc. rewrite Hpc. split; [reflexivity|]. rewrite HD in HD'.
    destruct (first_split pn D1 D2 D1' D2' HD' Hni Hni') as [-> ->].
    intros x. rewrite HR, Hx, (set_remove_In _ lit_eqb_eq), (HC x). tauto.
Qed.
Lemma chain_exact steps : forall cur,
  (forall cur', res_chain (set_insert lit_eqb) (set_remove lit_eqb) cur steps = ROk cur' -> chain cur steps cur') /\
  (forall C R, same C cur -> chain C steps R -> exists cur', res_chain (set_insert lit_eqb) (set_remove lit_eqb) cur steps = ROk cur' /\ same R cur').
Proof.
  induction steps as [|[D [p b]] l IH]; intros cur; split; cbn [res_chain].
  - intros cur' H. assert (cur = cur') by congruence. subst. constructor. intros x; tauto.
  - intros C R HC H. inversion H as [C0 R0 Hs|]; subst. exists cur. split; [reflexivity|]. intros x. rewrite <- (Hs x). apply HC.
  - intros cur' H. apply obind_ok in H. destruct H as [c1 [H1 H2]]. apply (proj1 (binary_exact _ _ _ _)) in H1.
    econstructor; [exact H1|]. apply (proj1 (IH c1)). exact H2.
  - intros C R HC H. inversion H as [|C0 D0 p0 b0 C' l0 R0 Hr Hch]; subst.
    destruct (proj2 (binary_exact cur D p b) C C' HC Hr) as (c1 & E & HS). rewrite E. cbn [obind]. exact (proj2 (IH c1) C' R HS Hch).
Qed.

Lemma pivots_parse : forall a l, pivots a l <-> (exists k, List.length a = k * 2) /\ omap parse_pivot (chunks2 a) = ROk l.
Proof.
  assert (G : forall k a l, List.length a = k * 2 -> omap parse_pivot (chunks2 a) = ROk l -> pivots a l).
  { induction k as [|k IH]; intros a l HL H.
    - destruct a; [|discriminate]. cbn in H. assert (l = []) by congruence. subst. constructor.
    - destruct a as [|t [|u a]]; [discriminate|cbn in HL; lia|]. cbn [chunks2 omap] in H. apply obind_ok in H.
      destruct H as [pv [H1 H]]. apply obind_ok in H. destruct H as [r [H2 H]]. assert (l = pv :: r) by congruence. subst l.
      cbn [List.length] in HL. assert (HL' : List.length a = k * 2) by lia. specialize (IH a r HL' H2).
      unfold parse_pivot in H1. cbn [fst snd] in H1. destruct (is_true u) eqn:Et.
      + apply term_eqb_eq in Et. subst u. assert (pv = (remove_all_negations t, true)) by congruence. subst. constructor. auto.
      + destruct (is_false u) eqn:Ef; [|discriminate]. apply term_eqb_eq in Ef. subst u.
        assert (pv = (remove_all_negations t, false)) by congruence. subst. constructor. auto. }
  intros a l. split.
  - induction 1 as [|t a l H [[k HL] IH]|t a l H [[k HL] IH]]; (split; [|try reflexivity]).
    + exists 0. reflexivity.
    + exists (S k). cbn. lia.
    + cbn [chunks2 omap]. rewrite IH. reflexivity.
    + exists (S k). cbn. lia.
    + cbn [chunks2 omap]. rewrite IH. reflexivity.
  - intros [[k HL] H]. eauto.
Qed.
Lemma pivots_len a l : pivots a l -> List.length a = List.length l * 2.
Proof. induction 1; cbn [List.length]; lia. Qed.

(** The rule accepts exactly the chains of resolvents, given by the pivots, whose last clause has the literals of the
    conclusion. *)
Theorem resolution_with_args_exact c ps args :
  r_resolution_with_args c ps args = ROk tt <->
  exists p0 p1 rest pv, ps = p0 :: p1 :: rest /\ pivots args pv /\ List.length pv = List.length (p1 :: rest) /\
    chain (lits p0) (combine (p1 :: rest) pv) (lits c).
Proof.
  unfold r_resolution_with_args, generic_resolution. destruct ps as [|p0 [|p1 rest]].
  - split; [discriminate|]. intros (? & ? & ? & ? & H & _). discriminate.
  - split; [discriminate|]. intros (? & ? & ? & ? & H & _). discriminate.
  - set (L := p1 :: rest). split.
    + intros H. apply obind_ok in H. destruct H as [res [H H']]. apply obind_ok in H. destruct H as [[] [HL H]].
      apply obind_ok in H. destruct H as [pv [Hp H]]. apply obind_ok in H'. destruct H' as [[] [H1 H2]]. apply rassert_ok in H1, H2.
      exists p0, p1, rest, pv. split; [reflexivity|]. unfold len_is in HL. apply rassert_ok in HL. apply Nat.eqb_eq in HL.
      assert (Hpv : pivots args pv) by (apply pivots_parse; eauto). split; [exact Hpv|]. apply pivots_len in Hpv.
      split; [fold L; lia|]. fold L. apply (proj1 (chain_exact _ _)) in H.
      assert (HS : same res (lits c)).
      { intros x. rewrite forallb_forall in H1, H2. split; intros Hx.
        - specialize (H2 x Hx). apply (memb_In _ lit_eqb_eq) in H2. apply (proj1 (set_of_In _ lit_eqb_eq _ _)) in H2. exact H2.
        - apply (memb_In _ lit_eqb_eq). apply H1. apply (set_of_In _ lit_eqb_eq). exact Hx. }
      assert (Hinit : same (set_of lit_eqb (map remove_all_negations p0)) (lits p0)) by (intros x; apply (set_of_In _ lit_eqb_eq)).
      revert H HS Hinit. generalize (set_of lit_eqb (map remove_all_negations p0)) (lits p0) (lits c) (combine L pv). clear.
      intros C C0 K s H. revert C0 K. induction H as [C R HCR|C D p b C' l R Hr Hc IH]; intros C0 K HS Hi.
      * constructor. intros x. rewrite <- (Hi x), (HCR x). apply HS.
      * apply (Chain_cons _ _ _ _ C'); [|apply IH; [exact HS|intros x; split; auto]]. destruct Hr as (Hpc & D1 & D2 & HD & Hni & HR). split; [apply Hi; exact Hpc|].
        exists D1, D2. split; [exact HD|]. split; [exact Hni|]. intros x. rewrite HR, (Hi x). tauto.
    + intros (p0' & p1' & rest' & pv & Eps & Hpv & HL & Hch). injection Eps as <- <- <-. fold L in HL, Hch. pose proof (pivots_len _ _ Hpv) as HL2. apply pivots_parse in Hpv. destruct Hpv as [_ Hpv].
      unfold len_is. rewrite HL2, HL, Nat.eqb_refl. cbn [rassert obind]. rewrite Hpv. cbn [obind].
      assert (Hinit : same (lits p0) (set_of lit_eqb (map remove_all_negations p0))) by (intros x; symmetry; apply (set_of_In _ lit_eqb_eq)).
      destruct (proj2 (chain_exact _ _) _ _ Hinit Hch) as (res & E & HS). rewrite E. cbn [obind].
      assert (E1 : forallb (fun l => memb lit_eqb l res) (set_of lit_eqb (map remove_all_negations c)) = true).
      { apply forallb_forall. intros x Hx. apply (memb_In _ lit_eqb_eq). apply HS. apply (proj1 (set_of_In _ lit_eqb_eq _ _)) in Hx. exact Hx. }
      assert (E2 : forallb (fun l => memb lit_eqb l (set_of lit_eqb (map remove_all_negations c))) res = true).
      { apply forallb_forall. intros x Hx. apply (memb_In _ lit_eqb_eq). apply (set_of_In _ lit_eqb_eq). apply HS. exact Hx. }
      rewrite E1, E2. reflexivity.
Qed.
