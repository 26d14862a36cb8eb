(** Elaborating accepted trans and cong steps: the new steps are accepted and conclude the same clause. *)
From Coq Require Import List String ZArith Bool Arith Lia Permutation.
From Verif Require Import Base Term Sem Rules R_Taut R_Claus R_Eq R_Resolution R_Extras R_ResExact Utils Checker R_Binder R_Simp Table Elab.
Import ListNotations.
Open Scope string_scope.
Local Open Scope nat_scope.
Local Open Scope list_scope.

Lemma m_op2_eq a b : m_op2 OEquals (tEq a b) = ROk (a, b).
Proof. reflexivity. Qed.
Lemma op2_eq a b : op2 OEquals (tEq a b) = Some (a, b).
Proof. reflexivity. Qed.
Lemma term_eqb_rf t : term_eqb t t = true.
Proof. apply term_eqb_eq. reflexivity. Qed.

(** ** the chain *)
Lemma find_eq3_spec a ps : find_eq a ps = match find_eq3 a ps with Some (i, x, _) => Some (i, x) | None => None end.
Proof.
  induction ps as [|[t u] r IH]; [reflexivity|]. cbn [find_eq find_eq3]. destruct (term_eqb t a); [reflexivity|].
  destruct (term_eqb u a); [reflexivity|]. rewrite IH. destruct (find_eq3 a r) as [[[i x] f]|]; reflexivity.
Qed.
Lemma find_eq3_nth a ps i x f : find_eq3 a ps = Some (i, x, f) ->
  if f then a <> x /\ nth_error ps i = Some (x, a) else nth_error ps i = Some (a, x).
Proof.
  revert i. induction ps as [|[t u] r IH]; [discriminate|]. intros i. cbn [find_eq3]. destruct (term_eqb t a) eqn:Et.
  - intros H. injection H as <- <- <-. apply term_eqb_eq in Et. subst. reflexivity.
  - destruct (term_eqb u a) eqn:Eu.
    + intros H. injection H as <- <- <-. apply term_eqb_eq in Eu. subst. split; [|reflexivity].
      intros ->. rewrite term_eqb_rf in Et. discriminate.
    + destruct (find_eq3 a r) as [[[j y] g]|] eqn:E; [|discriminate]. intros H. injection H as <- <- <-. apply (IH j); auto.
Qed.
Lemma map_set_nth {A B} (f : A -> B) i x l : map f (set_nth i x l) = set_nth i (f x) (map f l).
Proof. revert i. induction l as [|y l IH]; intros [|i]; try reflexivity. cbn. f_equal. apply IH. Qed.
Lemma map_swap_tail {A B} (f : A -> B) i l : map f (swap_tail i l) = swap_tail i (map f l).
Proof. destruct l as [|x l]; [reflexivity|]. destruct i; [reflexivity|]. apply map_set_nth. Qed.
Lemma set_nth_perm {A} i (x e : A) l : nth_error l i = Some e -> Permutation (x :: l) (e :: set_nth i x l).
Proof.
  revert i. induction l as [|y l IH]; intros [|i] H; try discriminate; cbn in *.
  - injection H as ->. apply perm_swap.
  - rewrite perm_swap, (IH i H). apply perm_swap.
Qed.
Lemma swap_tail_perm {A} i (e : A) l : nth_error l i = Some e -> Permutation l (e :: swap_tail i l).
Proof.
  destruct l as [|x l]; [destruct i; discriminate|]. destruct i as [|i]; cbn.
  - intros H. injection H as ->. reflexivity.
  - apply set_nth_perm.
Qed.
Section Linked.
  Context {X : Type}.
  Notation item := ((term * term) * X)%type.
  (** a chain from [a] to [b] *)
  Fixpoint linked (a b : term) (l : list (item * bool)) : Prop :=
    match l with
    | [] => a = b
    | ((t, u, _), fl) :: r => a <> b /\ if fl then u = a /\ t <> a /\ linked t b r else t = a /\ linked u b r
    end.
  Lemma trace_ok fuel : forall a b (ps : list item), find_chain fuel a b (map fst ps) = ROk tt ->
    exists used rest re, trace_chain fuel a b ps = ROk (used, rest, re) /\ Permutation ps (map fst used ++ rest) /\ linked a b used /\
      (re = false -> ps = map fst used ++ rest).
  Proof.
    induction fuel as [|fuel IH]; intros a b ps; cbn [find_chain trace_chain]; destruct (term_eqb a b) eqn:Eab.
    - apply term_eqb_eq in Eab. intros _. exists [], ps, false. repeat split; auto.
    - destruct (find_eq a (map fst ps)) as [[i x]|]; discriminate.
    - apply term_eqb_eq in Eab. intros _. exists [], ps, false. repeat split; auto.
    - assert (Hab : a <> b) by (intros ->; rewrite term_eqb_rf in Eab; discriminate).
      rewrite find_eq3_spec. destruct (find_eq3 a (map fst ps)) as [[[i x] fl]|] eqn:Ef; [|discriminate].
      intros H. rewrite <- map_swap_tail in H. destruct (IH x b (swap_tail i ps) H) as (used & rest & re & E1 & E2 & E3 & E4).
      apply find_eq3_nth in Ef. destruct (nth_error ps i) as [[[t u] y]|] eqn:En.
      + rewrite E1. cbn [obind fst snd]. exists ((t, u, y, fl) :: used), rest, (negb (Nat.eqb i 0) || re).
        split; [reflexivity|]. pose proof (swap_tail_perm _ _ _ En) as Hp. rewrite nth_error_map, En in Ef. cbn in Ef.
        split; [cbn; rewrite Hp, E2; reflexivity|]. split.
        * cbn [linked]. split; [exact Hab|]. destruct fl.
          -- destruct Ef as [Hne Ef]. injection Ef as -> ->. repeat split; auto.
          -- injection Ef as -> ->. auto.
        * intros Hr. apply orb_false_iff in Hr. destruct Hr as [Hi ->]. destruct i; [|discriminate]. destruct ps as [|z ps]; [discriminate|].
          cbn in En. injection En as ->. cbn in *. f_equal. auto.
      + exfalso. destruct fl; [destruct Ef as [_ Ef]|]; rewrite nth_error_map, En in Ef; discriminate.
  Qed.
  (** the equalities of a chain, after flipping *)
  Definition fixed_pair (e : item * bool) : term * term := if snd e then swap_pair (fst (fst e)) else fst (fst e).
  Lemma linked_chain l : forall a b fuel, linked a b l -> List.length l <= fuel -> find_chain fuel a b (map fixed_pair l) = ROk tt.
  Proof.
    induction l as [|[[[t u] x] fl] r IH]; intros a b fuel H Hf.
    - cbn in H. subst. destruct fuel; cbn; rewrite term_eqb_rf; reflexivity.
    - cbn [linked] in H. destruct H as [Hab H]. destruct fuel as [|fuel]; [cbn in Hf; lia|]. cbn [find_chain map].
      destruct (term_eqb a b) eqn:Eab; [reflexivity|]. cbn in Hf.
      destruct fl; unfold fixed_pair at 1; cbn [fst snd swap_pair find_eq].
      + destruct H as (-> & Hn & H). rewrite term_eqb_rf. cbn [swap_tail]. apply IH; [exact H|lia].
      + destruct H as (-> & H). rewrite term_eqb_rf. cbn [swap_tail]. apply IH; [exact H|lia].
  Qed.
End Linked.

Lemma omap_ok {A B} (f : A -> outcome B) l r : omap f l = ROk r <-> Forall2 (fun a b => f a = ROk b) l r.
Proof.
  revert r. induction l as [|a l IH]; intros r; cbn [omap].
  - split; [intros H; injection H as <-; constructor|intros H; inversion H; reflexivity].
  - split.
    + intros H. apply obind_ok in H. destruct H as [b [H1 H]]. apply obind_ok in H. destruct H as [bs [H2 H]]. injection H as <-.
      constructor; [exact H1|]. apply IH, H2.
    + intros H. inversion H as [|? b ? bs H1 H2]; subst. rewrite H1. cbn [obind]. apply IH in H2. rewrite H2. reflexivity.
Qed.
Lemma Forall2_map_l {A B C} (R : B -> C -> Prop) (f : A -> B) l r : Forall2 R (map f l) r <-> Forall2 (fun a c => R (f a) c) l r.
Proof.
  revert r. induction l as [|a l IH]; intros r; cbn; split; intros H; inversion H; subst; constructor; auto; apply IH; auto.
Qed.
Lemma Forall2_imp {A B} (R S : A -> B -> Prop) l r : (forall a b, R a b -> S a b) -> Forall2 R l r -> Forall2 S l r.
Proof. intros H. induction 1; constructor; auto. Qed.
Lemma Forall2_combine {A B} (R : A -> B -> Prop) l r : Forall2 R l r <-> List.length l = List.length r /\ Forall (fun e => R (fst e) (snd e)) (combine l r).
Proof.
  revert r. induction l as [|a l IH]; intros [|b r]; cbn.
  - split; auto.
  - split; [intros H; inversion H|intros [H _]; discriminate].
  - split; [intros H; inversion H|intros [H _]; discriminate].
  - split.
    + intros H. inversion H; subst. apply IH in H5. destruct H5. split; [lia|]. constructor; auto.
    + intros [H1 H2]. inversion H2; subst. constructor; [auto|]. apply IH. split; [lia|auto].
Qed.

Lemma prem_eq_clause p t u : prem_eq p = ROk (t, u) <-> p = [tEq t u].
Proof.
  split.
  - intros H. unfold prem_eq in H. apply obind_ok in H. destruct H as [x [H1 H2]]. apply premise_term_ok in H1. apply m_op2_ok in H2. subst. reflexivity.
  - intros ->. reflexivity.
Qed.

Section Trans.
  Variable other : bool -> string -> crule.
  Notation accepted := (accepted other).
  Lemma add_symm_ok cx n t u : accepted cx n -> eclause n = [tEq t u] ->
    exists m, add_symm n = ROk m /\ eclause m = [tEq u t] /\ accepted cx m.
  Proof.
    intros H1 H2. unfold add_symm. rewrite H2, op2_eq. eexists. split; [reflexivity|]. split; [reflexivity|].
    apply accepted_step. split; [|constructor; auto]. apply (run_plain other "symm" r_symm); [cbn; tauto|].
    cbn [ra_concl ra_prems ra_args map]. rewrite H2. unfold r_symm. cbn. unfold teq. rewrite !term_eqb_rf. reflexivity.
  Qed.
  (** Elaborating the premises of a chain *)
  Lemma fix_chain cx (used : list (((term * term) * enode) * bool)) :
    Forall (fun e => eclause (snd (fst e)) = [tEq (fst (fst (fst e))) (snd (fst (fst e)))] /\ accepted cx (snd (fst e))) used ->
    exists ps, omap (fun e : ((term * term) * enode) * bool => if snd e then add_symm (snd (fst e)) else ROk (snd (fst e))) used = ROk ps /\
      Forall (accepted cx) ps /\ omap prem_eq (map eclause ps) = ROk (map fixed_pair used).
  Proof.
    induction 1 as [|[[[t u] n] fl] r [H1 H2] HF (ps & E1 & E2 & E3)].
    - exists []. repeat split; auto.
    - cbn [fst snd] in H1, H2.
      assert (Hm : exists m, (if fl then add_symm n else ROk n) = ROk m /\ eclause m = [tEq (fst (fixed_pair (t, u, n, fl))) (snd (fixed_pair (t, u, n, fl)))] /\ accepted cx m).
      { destruct fl; [|exists n; repeat split; auto]. apply add_symm_ok; auto. }
      destruct Hm as (m & Em & Hm & Am). exists (m :: ps). cbn [omap fst snd]. rewrite Em. cbn [obind]. rewrite E1. split; [reflexivity|].
      split; [constructor; auto|]. cbn [map omap]. rewrite Hm. rewrite (proj2 (prem_eq_clause _ _ _) eq_refl). cbn [obind]. rewrite E3. cbn [obind].
      rewrite <- surjective_pairing. reflexivity.
  Qed.
  Theorem elab_trans_ok cx c ps args : r_trans c (map eclause ps) args = ROk tt -> Forall (accepted cx) ps ->
    exists n, elab_trans c ps args = ROk n /\ eclause n = c /\ accepted cx n.
  Proof.
    intros H Hps. unfold r_trans in H. apply obind_ok in H. destruct H as [[] [Hl H]]. apply obind_ok in H. destruct H as [x [Hx H]].
    apply obind_ok in H. destruct H as [[a b] [Hp H]]. apply obind_ok in H. destruct H as [qs [Hq H]].
    cbn [fst snd] in H. apply omap_ok in Hq. apply (proj1 (Forall2_map_l _ _ _ _)) in Hq. apply (proj1 (Forall2_combine _ _ _)) in Hq. destruct Hq as [HL HF].
    assert (Hfst : map fst (combine qs ps) = qs).
    { clear - HL. revert qs HL. induction ps as [|p ps IH]; intros [|q qs] HL; try discriminate; auto. cbn. f_equal. apply IH. cbn in HL. lia. }
    pose proof H as Hch. rewrite <- Hfst in H. rewrite map_length, combine_length, <- HL, Nat.min_id in H.
    destruct (trace_ok _ _ _ _ H) as (used & rest & re & E1 & E2 & E3 & E4).
    assert (Hall : Forall (fun e : (term * term) * enode => eclause (snd e) = [tEq (fst (fst e)) (snd (fst e))] /\ accepted cx (snd e)) (combine qs ps)).
    { clear - HL HF Hps. revert qs HL HF. induction ps as [|p ps IH]; intros [|[t u] qs] HL HF; try discriminate; constructor.
      - cbn in HF. inversion HF as [|? ? H1 H2]; subst. inversion Hps; subst. split; [|auto]. cbn in H1. apply prem_eq_clause in H1. exact H1.
      - cbn in HF. inversion HF; subst. inversion Hps; subst. apply IH; auto. }
    assert (Hused : Forall (fun e : ((term * term) * enode) * bool => eclause (snd (fst e)) = [tEq (fst (fst (fst e))) (snd (fst (fst e)))] /\ accepted cx (snd (fst e))) used).
    { rewrite Forall_forall in *. intros e He. apply Hall. eapply Permutation_in; [symmetry; exact E2|]. apply in_or_app. left. apply in_map, He. }
    destruct (fix_chain cx used Hused) as (ps' & F1 & F2 & F3).
    assert (Hqs : omap (fun n => match eclause n with [t] => m_op2 OEquals t | _ => RPanic end) ps = ROk qs).
    { apply omap_ok. apply Forall2_combine. split; [exact HL|]. revert HF. apply Forall_impl. intros [n [t u]] Hn. cbn [fst snd] in *.
      apply prem_eq_clause in Hn. rewrite Hn. reflexivity. }
    exists (EStep c "trans" ps' args). split; [|split; [reflexivity|]].
    - unfold elab_trans. apply len_is_ok in Hl. rewrite Hl. cbn [Nat.eqb passert obind]. rewrite Hx. cbn [obind]. rewrite Hp. cbn [obind fst snd].
      rewrite Hqs. cbn [obind]. rewrite E1. cbn [obind fst snd]. rewrite F1. reflexivity.
    - apply accepted_step. split; [|exact F2]. apply (run_plain other "trans" r_trans); [cbn; tauto|]. cbn [ra_concl ra_prems ra_args].
      unfold r_trans. rewrite Hl. cbn [obind]. rewrite Hx. cbn [obind]. rewrite Hp. cbn [obind]. rewrite F3. cbn [obind fst snd].
      apply linked_chain; [exact E3|]. rewrite map_length. auto.
  Qed.
End Trans.
