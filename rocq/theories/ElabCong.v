(** Elaborating accepted cong steps. *)
From Coq Require Import List String ZArith Bool Arith Lia Permutation.
From Verif Require Import Base Term Sem Rules R_Taut R_Claus R_Eq R_Resolution R_Extras R_ResExact Utils Checker R_Binder R_Simp Table Elab ElabSound.
Import ListNotations.
Open Scope string_scope.
Local Open Scope nat_scope.
Local Open Scope list_scope.

Definition fixp (e : (term * term) * bool) : term * term := if snd e then swap_pair (fst e) else fst e.
Lemma pair_is_swap p a b : pair_is (swap_pair p) a b = pair_is p a b.
Proof. unfold pair_is, swap_pair. cbn [fst snd]. apply orb_comm. Qed.
Lemma check_cong_flip ps : forall fl fa ga, List.length fl = List.length ps -> check_cong (map fixp (combine ps fl)) fa ga = check_cong ps fa ga.
Proof.
  intros fl fa. revert ps fl. induction fa as [|f fr IH]; intros ps fl ga HL.
  - destruct ps, fl; try discriminate; reflexivity.
  - destruct ga as [|g gr]; [destruct ps, fl; try discriminate; reflexivity|].
    destruct ps as [|p pr], fl as [|b fl]; try discriminate.
    + cbn [combine map check_cong]. destruct (term_eqb f g); [|reflexivity]. apply (IH [] []). reflexivity.
    + cbn [combine map check_cong]. assert (Hp : pair_is (fixp (p, b)) f g = pair_is p f g).
      { unfold fixp. cbn [fst snd]. destruct b; [apply pair_is_swap|reflexivity]. }
      rewrite Hp. cbn in HL. destruct (pair_is p f g).
      * apply IH. lia.
      * destruct (term_eqb f g); [|reflexivity]. apply (IH (p :: pr) (b :: fl)). cbn. lia.
Qed.
Lemma check_cong_f_spec fa : forall ps ga,
  match check_cong_f ps fa ga with
  | Some fl => check_cong ps fa ga = ROk tt /\ List.length fl = List.length ps
  | None => check_cong ps fa ga = RErr
  end.
Proof.
  induction fa as [|f fr IH]; intros ps ga.
  - destruct ps; cbn; auto.
  - destruct ga as [|g gr]; [destruct ps; cbn; auto|]. destruct ps as [|[t u] pr].
    + cbn [check_cong_f check_cong]. destruct (term_eqb f g); [apply IH|reflexivity].
    + cbn [check_cong_f check_cong]. unfold pair_is. cbn [fst snd]. destruct (term_eqb f t && term_eqb g u).
      * cbn [orb]. specialize (IH pr gr). destruct (check_cong_f pr fr gr); cbn [option_map]; [|exact IH]. destruct IH. cbn. auto.
      * cbn [orb]. destruct (term_eqb f u && term_eqb g t).
        -- specialize (IH pr gr). destruct (check_cong_f pr fr gr); cbn [option_map]; [|exact IH]. destruct IH. cbn. auto.
        -- destruct (term_eqb f g); [apply IH|reflexivity].
Qed.
Lemma check_cong_is ps fa ga : is_some (check_cong_f ps fa ga) = is_ok (check_cong ps fa ga).
Proof. pose proof (check_cong_f_spec fa ps ga) as H. destruct (check_cong_f ps fa ga); [destruct H as [H _]|]; rewrite H; reflexivity. Qed.
Lemma is_ok_true o : is_ok o = true <-> o = ROk tt.
Proof. destruct o as [[]| |]; cbn; split; congruence. Qed.

Section Cong.
  Variable other : bool -> string -> crule.
  Notation accepted := (accepted other).
  Lemma fix_premises cx ps : forall qs fl, omap prem_eq (map eclause ps) = ROk qs -> List.length fl = List.length qs -> Forall (accepted cx) ps ->
    exists ps', omap (fun e : enode * bool => if snd e then add_symm (fst e) else ROk (fst e)) (combine ps fl) = ROk ps' /\
      Forall (accepted cx) ps' /\ omap prem_eq (map eclause ps') = ROk (map fixp (combine qs fl)) /\ List.length ps' = List.length ps.
  Proof.
    induction ps as [|n ps IH]; intros qs fl Hq HL HF.
    - cbn in Hq. injection Hq as <-. destruct fl; [|discriminate]. exists []. repeat split; auto.
    - cbn [map omap] in Hq. apply obind_ok in Hq. destruct Hq as [[t u] [H1 H]]. apply obind_ok in H. destruct H as [qs' [H2 H]]. injection H as <-.
      destruct fl as [|b fl]; [discriminate|]. inversion HF; subst. destruct (IH qs' fl) as (ps' & E1 & E2 & E3 & E4); auto.
      apply prem_eq_clause in H1.
      assert (Hm : exists m, (if b then add_symm n else ROk n) = ROk m /\ eclause m = [tEq (fst (fixp (t, u, b))) (snd (fixp (t, u, b)))] /\ accepted cx m).
      { destruct b; [|exists n; repeat split; auto]. apply add_symm_ok; auto. }
      destruct Hm as (m & Em & Hm & Am). exists (m :: ps'). cbn [combine omap fst snd]. rewrite Em. cbn [obind]. rewrite E1. split; [reflexivity|].
      split; [constructor; auto|]. split; [|cbn; lia]. cbn [map omap]. rewrite Hm, (proj2 (prem_eq_clause _ _ _) eq_refl). cbn [obind]. rewrite E3.
      cbn [obind combine map]. rewrite <- surjective_pairing. reflexivity.
  Qed.
  Lemma prem_pair_eq ps : forall qs, omap prem_eq (map eclause ps) = ROk qs -> omap prem_pair ps = ROk qs.
  Proof.
    induction ps as [|n ps IH]; intros qs H; [exact H|]. cbn [map omap] in H. apply obind_ok in H. destruct H as [[t u] [H1 H]].
    apply obind_ok in H. destruct H as [qs' [H2 H]]. injection H as <-. apply prem_eq_clause in H1. cbn [omap]. unfold prem_pair at 1. rewrite H1.
    cbn [idx nth_error unwrap obind]. rewrite op2_eq. cbn [unwrap obind]. rewrite (IH _ H2). reflexivity.
  Qed.
  Lemma flip_needed_ok cx f g fa ga ps qs args : term_args f = ROk fa -> term_args g = ROk ga ->
    omap prem_eq (map eclause ps) = ROk qs -> check_cong qs fa ga = ROk tt -> Forall (accepted cx) ps ->
    exists ps' qs', flip_needed [tEq f g] ps args = ROk (EStep [tEq f g] "cong" ps' args) /\ Forall (accepted cx) ps' /\ List.length ps' = List.length ps /\
      omap prem_eq (map eclause ps') = ROk qs' /\ check_cong qs' fa ga = ROk tt.
  Proof.
    intros Hf Hg Hq Hc HF. unfold flip_needed. cbn [idx nth_error unwrap obind]. rewrite op2_eq. cbn [unwrap obind fst snd].
    rewrite Hf. cbn [obind]. rewrite Hg. cbn [obind]. rewrite (prem_pair_eq _ _ Hq). cbn [obind].
    pose proof (check_cong_f_spec fa qs ga) as Hs. destruct (check_cong_f qs fa ga) as [fl|]; [|congruence]. destruct Hs as [_ HL].
    destruct (existsb (fun b => b) fl).
    - destruct (fix_premises cx ps qs fl Hq HL HF) as (ps' & E1 & E2 & E3 & E4). rewrite E1. cbn [obind].
      exists ps', (map fixp (combine qs fl)). rewrite (check_cong_flip qs fl fa ga HL). auto.
    - exists ps, qs. auto.
  Qed.
  (** a cong step with matching heads is accepted *)
  Definition same_head (f g : term) : bool :=
    match f, g with
    | TApp f a, TApp g b => term_eqb f g
    | TOp f a, TOp g b => op_eqb f g
    | TPOp f fo a, TPOp g go b => pop_beq f g && list_eqb term_eqb fo go
    | _, _ => false
    end.
  Lemma cong_accepted cx f g fa ga ps qs args : same_head f g = true -> term_args f = ROk fa -> term_args g = ROk ga ->
    List.length fa = List.length ga -> omap prem_eq (map eclause ps) = ROk qs -> check_cong qs fa ga = ROk tt -> Forall (accepted cx) ps -> ps <> [] ->
    accepted cx (EStep [tEq f g] "cong" ps args).
  Proof.
    intros Hh Hf Hg HL Hq Hc HF Hne. apply accepted_step. split; [|exact HF]. apply (run_plain other "cong" r_cong); [cbn; tauto|].
    cbn [ra_concl ra_prems ra_args]. unfold r_cong. cbn [len_is List.length Nat.eqb rassert obind].
    assert (E : len_ge (map eclause ps) 1 = ROk tt) by (destruct ps; [congruence|reflexivity]). rewrite E. cbn [obind]. rewrite Hq. cbn [obind idx nth_error unwrap].
    rewrite m_op2_eq. cbn [obind fst snd]. destruct (op2 OEquals f) as [[f0 f1]|] eqn:Ef.
    - destruct (op2 OEquals g) as [[g0 g1]|] eqn:Eg.
      + apply op2_some in Ef, Eg. subst. cbn in Hf, Hg. injection Hf as <-. injection Hg as <-. rewrite (proj2 (is_ok_true _) Hc). reflexivity.
      + destruct f as [| |f fl|f fl| | | |f fo fl], g as [| |g gl|g gl| | | |g go gl]; cbn in Hh; try discriminate; cbn in Hf, Hg; injection Hf as ->; injection Hg as ->;
          rewrite Hh; cbn [rassert obind fst snd]; rewrite HL, Nat.eqb_refl; exact Hc.
    - destruct f as [| |f fl|f fl| | | |f fo fl], g as [| |g gl|g gl| | | |g go gl]; cbn in Hh; try discriminate; cbn in Hf, Hg; injection Hf as ->; injection Hg as ->;
          rewrite Hh; cbn [rassert obind fst snd]; rewrite HL, Nat.eqb_refl; exact Hc.
  Qed.
  Lemma flip_cong_ok cx f g fa ga ps qs args : same_head f g = true -> term_args f = ROk fa -> term_args g = ROk ga -> List.length fa = List.length ga ->
    omap prem_eq (map eclause ps) = ROk qs -> check_cong qs fa ga = ROk tt -> Forall (accepted cx) ps -> ps <> [] ->
    exists n, flip_needed [tEq f g] ps args = ROk n /\ eclause n = [tEq f g] /\ accepted cx n.
  Proof.
    intros Hh Hf Hg HL Hq Hc HF Hne. destruct (flip_needed_ok cx f g fa ga ps qs args) as (ps' & qs' & E1 & E2 & E3 & E4 & E5); auto.
    exists (EStep [tEq f g] "cong" ps' args). split; [exact E1|]. split; [reflexivity|]. eapply cong_accepted; eauto.
    intros ->. destruct ps; [congruence|discriminate].
  Qed.
  Lemma eq_symm_ok cx a b args : accepted cx (EStep [tEq (tEq a b) (tEq b a)] "eq_symmetric" [] args).
  Proof.
    apply accepted_step. split; [|constructor]. apply (run_plain other "eq_symmetric" r_eq_symmetric); [cbn; tauto|].
    cbn. unfold teq. rewrite !term_eqb_rf. reflexivity.
  Qed.
  Lemma trans2_ok cx n1 n2 a b c : eclause n1 = [tEq a b] -> eclause n2 = [tEq b c] -> accepted cx n1 -> accepted cx n2 -> 
    exists n, add_trans [n1; n2] = ROk n /\ eclause n = [tEq a c] /\ accepted cx n.
  Proof.
    intros H1 H2 A1 A2. exists (EStep [tEq a c] "trans" [n1; n2] []). split; [|split; [reflexivity|]].
    - unfold add_trans. cbn [idx nth_error unwrap obind List.length Nat.sub]. rewrite H1, H2. reflexivity.
    - apply accepted_step. split; [|repeat constructor; auto]. apply (run_plain other "trans" r_trans); [cbn; tauto|].
      cbn [ra_concl ra_prems ra_args map]. rewrite H1, H2. unfold r_trans. cbn [len_is List.length Nat.eqb rassert obind idx nth_error unwrap].
      rewrite m_op2_eq. cbn [obind omap fst snd]. rewrite !(proj2 (prem_eq_clause _ _ _) eq_refl). cbn [obind List.length find_chain find_eq].
      destruct (term_eqb a c); [reflexivity|]. rewrite term_eqb_rf. cbn [swap_tail find_chain find_eq]. destruct (term_eqb b c); [reflexivity|].
      rewrite term_eqb_rf. cbn [swap_tail find_chain]. rewrite term_eqb_rf. reflexivity.
  Qed.
  Lemma refl_same_ok cx a args : accepted cx (EStep [tEq a a] "refl" [] args).
  Proof.
    apply accepted_step. split; [|constructor]. apply run_refl. cbn [ra_ctx ra_concl]. unfold r_strict_refl, strict_refl_st. cbn [ra_ctx ra_concl].
    cbn [len_is List.length Nat.eqb rassert obind idx nth_error unwrap]. rewrite m_op2_eq. cbn [obind]. rewrite term_eqb_rf. reflexivity.
  Qed.
  Lemma cong_len ps f0 f1 g0 g1 : check_cong ps [f0; f1] [g0; g1] = ROk tt -> List.length ps <= 2.
  Proof.
    destruct ps as [|p [|q [|r ps]]]; cbn [List.length]; try lia. cbn [check_cong].
    destruct (pair_is p f0 g0); [|destruct (term_eqb f0 g0)]; [destruct (pair_is q f1 g1); [|destruct (term_eqb f1 g1)]|destruct (pair_is p f1 g1); [|destruct (term_eqb f1 g1)]|];
      intros H; discriminate.
  Qed.
  (** Both sides flipped: with two premises, they can be reversed; with one, the sides need not be flipped. *)
  Lemma cong_both ps f0 f1 g0 g1 : check_cong ps [f1; f0] [g1; g0] = ROk tt -> ps <> [] ->
    check_cong ps [f0; f1] [g0; g1] = ROk tt \/ (List.length ps = 2 /\ check_cong (rev ps) [f0; f1] [g0; g1] = ROk tt).
  Proof.
    intros H Hne. destruct ps as [|p [|q [|r ps]]]; [congruence| | |].
    - left. cbn [check_cong] in *. destruct (pair_is p f1 g1) eqn:E1.
      + destruct (term_eqb f0 g0) eqn:E0; [|discriminate]. destruct (pair_is p f0 g0) eqn:E2; [|reflexivity].
        unfold pair_is in E1, E2. rewrite orb_true_iff, !andb_true_iff, !term_eqb_eq in E1, E2. apply term_eqb_eq in E0. subst g0.
        assert (f1 = g1) by (destruct p; cbn in *; destruct E1 as [[]|[]], E2 as [[]|[]]; congruence). subst. rewrite term_eqb_rf. reflexivity.
      + destruct (term_eqb f1 g1) eqn:E2; [|discriminate]. destruct (pair_is p f0 g0) eqn:E3; [reflexivity|]. destruct (term_eqb f0 g0); discriminate.
    - right. split; [reflexivity|]. cbn [rev app]. cbn [check_cong] in *. destruct (pair_is p f1 g1) eqn:E1.
      + destruct (pair_is q f0 g0) eqn:E2; [reflexivity|]. destruct (term_eqb f0 g0); discriminate.
      + destruct (term_eqb f1 g1); [|discriminate]. destruct (pair_is p f0 g0); [discriminate|]. destruct (term_eqb f0 g0); discriminate.
    - apply cong_len in H. cbn in H. lia.
  Qed.
  Lemma omap_app {A B} (f : A -> outcome B) l1 l2 : omap f (l1 ++ l2) = (do a <- omap f l1 ; do b <- omap f l2 ; ROk (a ++ b)).
  Proof.
    induction l1 as [|x l1 IH]; cbn [app omap obind].
    - destruct (omap f l2); reflexivity.
    - destruct (f x); cbn [obind]; try reflexivity. rewrite IH. destruct (omap f l1); cbn [obind]; try reflexivity. destruct (omap f l2); reflexivity.
  Qed.
  Lemma omap_rev {A B} (f : A -> outcome B) l r : omap f l = ROk r -> omap f (rev l) = ROk (rev r).
  Proof.
    revert r. induction l as [|x l IH]; intros r H; cbn [omap rev] in *; [injection H as <-; reflexivity|].
    apply obind_ok in H. destruct H as [b [H1 H]]. apply obind_ok in H. destruct H as [bs [H2 H]]. injection H as <-.
    rewrite omap_app, (IH _ H2). cbn [obind omap rev]. rewrite H1. reflexivity.
  Qed.
  Theorem elab_cong_ok cx c ps args : r_cong c (map eclause ps) args = ROk tt -> Forall (accepted cx) ps ->
    exists n, elab_cong c ps args = ROk n /\ eclause n = c /\ accepted cx n.
  Proof.
    intros H HF. unfold r_cong in H. apply obind_ok in H. destruct H as [[] [Hl H]]. apply obind_ok in H. destruct H as [[] [Hlp H]].
    apply obind_ok in H. destruct H as [qs [Hq H]]. apply obind_ok in H. destruct H as [x [Hx H]]. apply obind_ok in H. destruct H as [[f g] [Hp H]].
    cbn [fst snd] in H. apply len_is_ok, len1 in Hl. destruct Hl as [y ->]. cbn in Hx. injection Hx as ->. apply m_op2_ok in Hp. cbn [fst snd] in Hp.
    change (TOp OEquals [f; g]) with (tEq f g) in Hp. subst x. apply len_ge_ok in Hlp. rewrite map_length in Hlp.
    assert (Hne : ps <> []) by (intros ->; cbn in Hlp; lia). assert (Hqne : qs <> []).
    { intros ->. apply omap_ok in Hq. inversion Hq as [E1|]. destruct ps; [congruence|discriminate]. }
    unfold elab_cong. cbn [List.length Nat.eqb passert obind]. assert (Hpa : passert (negb (List.length ps =? 0)) = ROk tt) by (destruct ps; [congruence|reflexivity]).
    rewrite Hpa. cbn [obind idx nth_error unwrap]. rewrite m_op2_eq. cbn [obind fst snd]. destruct (term_eqb f g) eqn:Efg.
    { apply term_eqb_eq in Efg. subst g. eexists. split; [reflexivity|]. split; [reflexivity|]. apply refl_same_ok. }
    destruct (op2 OEquals f) as [[f0 f1]|] eqn:Ef; [destruct (op2 OEquals g) as [[g0 g1]|] eqn:Eg|].
    - apply op2_some in Ef, Eg. subst f g. change (TOp OEquals [f0; f1]) with (tEq f0 f1) in *. change (TOp OEquals [g0; g1]) with (tEq g0 g1) in *.
      apply rassert_ok in H. rewrite !orb_true_iff, !is_ok_true in H. unfold elab_cong_eqs.
      assert (HL : List.length ps = List.length qs) by (apply omap_ok in Hq; apply Forall2_combine in Hq; destruct Hq as [Hq _]; rewrite map_length in Hq; exact Hq).
      assert (Hlen : List.length ps <= 2) by (rewrite HL; destruct H as [[[H|H]|H]|H]; apply cong_len in H; lia).
      assert (Hpa2 : passert (List.length ps <=? 2) = ROk tt) by (apply Nat.leb_le in Hlen; rewrite Hlen; reflexivity). rewrite Hpa2. cbn [obind].
      destruct (term_eqb f0 g1 && term_eqb f1 g0) eqn:Esw.
      { apply andb_true_iff in Esw. rewrite !term_eqb_eq in Esw. destruct Esw as [-> ->]. eexists. split; [reflexivity|]. split; [reflexivity|]. apply eq_symm_ok. }
      rewrite (prem_pair_eq _ _ Hq). cbn [obind]. rewrite !check_cong_is.
      destruct (is_ok (check_cong qs [f0; f1] [g0; g1])) eqn:C1.
      { apply is_ok_true in C1. apply (flip_cong_ok cx _ _ [f0; f1] [g0; g1] ps qs); auto. }
      destruct (is_ok (check_cong qs [f1; f0] [g0; g1])) eqn:C2.
      { apply is_ok_true in C2. destruct (flip_cong_ok cx (tEq f1 f0) (tEq g0 g1) [f1; f0] [g0; g1] ps qs []) as (n & E1 & E2 & E3); auto.
        rewrite E1. cbn [obind]. eapply trans2_ok; eauto; first [reflexivity|apply eq_symm_ok]. }
      destruct (is_ok (check_cong qs [f0; f1] [g1; g0])) eqn:C3.
      { apply is_ok_true in C3. destruct (flip_cong_ok cx (tEq f0 f1) (tEq g1 g0) [f0; f1] [g1; g0] ps qs []) as (n & E1 & E2 & E3); auto.
        rewrite E1. cbn [obind]. eapply trans2_ok; eauto; first [reflexivity|apply eq_symm_ok]. }
      assert (C4 : check_cong qs [f1; f0] [g1; g0] = ROk tt) by (rewrite <- !is_ok_true in H; rewrite C1, C2, C3 in H; rewrite <- is_ok_true; intuition discriminate).
      rewrite (proj2 (is_ok_true _) C4). destruct (cong_both qs f0 f1 g0 g1 C4 Hqne) as [C|[H2 C]]; [apply is_ok_true in C; congruence|].
      rewrite HL, H2. cbn [Nat.eqb passert obind]. apply (flip_cong_ok cx _ _ [f0; f1] [g0; g1] (rev ps) (rev qs)); auto.
      + rewrite map_rev. apply omap_rev, Hq.
      + apply Forall_rev, HF.
      + destruct ps; [congruence|]. intros E. apply (f_equal (@List.length _)) in E. rewrite rev_length in E. discriminate.
    - apply obind_ok in H. destruct H as [[fa ga] [Hfg H]]. apply obind_ok in H. destruct H as [[] [HL H]]. apply rassert_ok, Nat.eqb_eq in HL. cbn [fst snd] in *.
      destruct f as [| |f fl|f fl| | | |f fo fl], g as [| |g gl|g gl| | | |g go gl]; try discriminate; apply obind_ok in Hfg; destruct Hfg as [[] [Hh Hfg]]; apply rassert_ok in Hh;
        injection Hfg as <- <-; apply (flip_cong_ok cx _ _ fl gl ps qs); first [reflexivity|exact Hh|assumption].
    - apply obind_ok in H. destruct H as [[fa ga] [Hfg H]]. apply obind_ok in H. destruct H as [[] [HL H]]. apply rassert_ok, Nat.eqb_eq in HL. cbn [fst snd] in *.
      destruct f as [| |f fl|f fl| | | |f fo fl], g as [| |g gl|g gl| | | |g go gl]; try discriminate; apply obind_ok in Hfg; destruct Hfg as [[] [Hh Hfg]]; apply rassert_ok in Hh;
        injection Hfg as <- <-; apply (flip_cong_ok cx _ _ fl gl ps qs); first [reflexivity|exact Hh|assumption].
  Qed.
End Cong.
