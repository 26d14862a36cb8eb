(** Elaboration of polyequal terms gives accepted steps. *)
From Coq Require Import List String ZArith QArith Bool Arith Lia.
From Verif Require Import Base Term Sem Rules Utils Std Checker Polyeq R_Eq R_Claus R_Binder R_Resolution R_ResExact R_Extras Subst SubstSound Table Elab ElabSound ElabCong ElabFlip ElabRes ElabPolyeq.
From Verif Require Import R_Taut R_Resolution R_ResExact.
Import ListNotations.
Open Scope string_scope.
Local Open Scope nat_scope.
Local Open Scope list_scope.

(** ** The fragment: numerals all of one kind, no negated or divided literals; with [nary], the operators that can be n-ary have two arguments *)
Definition numlike (t : term) : bool := match t with TConst _ => true | TOp o _ => op_eqb o OSub || op_eqb o ORealDiv | _ => false end.
Definition frag1 (nary k : bool) (t : term) : bool :=
  match t with
  | TConst (CInt _) => k
  | TConst (CReal _) => negb k
  | TOp o args =>
      match args with
      | [] => negb (op_eqb o ORealDiv)
      | [x] => negb (op_eqb o ORealDiv) && negb (op_eqb o OSub && numlike x)
      | x :: y :: _ => negb (op_eqb o ORealDiv && numlike x && numlike y)
      end && (negb nary || negb (is_left o || is_right o || is_chain o) || (List.length args =? 2))
  | _ => true
  end.
Definition frag (nary k : bool) : term -> bool := all_sub (frag1 nary k).
Lemma frag_weaken k t : frag true k t = true -> frag false k t = true.
Proof.
  apply all_sub_impl. intros u. destruct u as [[| | |]| | |o args| | | |]; cbn [frag1]; auto. rewrite !andb_true_iff. cbn [negb orb]. tauto.
Qed.

Lemma list_eqb_sv (la lb : list (string * sort)) : list_eqb svar_eqb la lb = true -> la = lb.
Proof.
  revert lb. induction la as [|x la IH]; intros [|y lb]; cbn [list_eqb]; try discriminate; [reflexivity|]. intros H. apply andb_true_iff in H. destruct H as [H1 H2].
  apply svar_eqb_eq in H1. f_equal; auto.
Qed.
(** ** polyeq is [feq] on the fragment *)
Section Feq.
  Variables (c : pcfg) (k : bool).
  Hypothesis no_alpha : p_alpha c = false.
  Hypothesis reorder : p_reorder c = true.
  Notation frag := (frag (p_nary c) k).
  Definition st_ok (st : pst) : Prop := ps_db st = None /\ ps_cache st <> [] /\ forall m a b, In m (ps_cache st) -> In (a, b) m -> feq a b = true.
  Definition computes (x : cmp) (r : bool) : Prop := forall st, st_ok st -> exists st', x st = ROk (r, st') /\ st_ok st'.
  Lemma comp_ret b : computes (cret b) b.
  Proof. intros st H. exists st. auto. Qed.
  Lemma comp_and x y a b : computes x a -> (a = true -> computes y b) -> computes (cand x y) (a && b).
  Proof.
    intros Hx Hy st H. destruct (Hx st H) as (s1 & E1 & H1). unfold cand. rewrite E1. cbn [obind fst snd]. destruct a; [apply Hy; auto|exists s1; auto].
  Qed.
  Lemma comp_or x y a b : computes x a -> (a = false -> computes y b) -> computes (cor x y) (a || b).
  Proof.
    intros Hx Hy st H. destruct (Hx st H) as (s1 & E1 & H1). unfold cor. rewrite E1. cbn [obind fst snd]. destruct a; [exists s1; auto|apply Hy; auto].
  Qed.
  Lemma comp_eq x a b : computes x a -> a = b -> computes x b. Proof. intros H E. rewrite <- E. exact H. Qed.
  Lemma feq_refl t : feq t t = true.
  Proof. destruct t; cbn [feq]; rewrite (proj2 (term_eqb_eq _ _) eq_refl); reflexivity. Qed.
  Lemma rc_computes rec a b : (term_eqb a b = false -> computes (rec a b) (feq a b)) -> computes (eq_rc rec a b) (feq a b).
  Proof.
    intros Hr st H. unfold eq_rc. unfold renamed. rewrite (proj1 H). cbn [negb andb]. destruct (term_eqb a b) eqn:E.
    - apply term_eqb_eq in E. subst b. rewrite feq_refl. exists st. auto.
    - destruct (cache_mem st a b) eqn:Ec.
      + unfold cache_mem in Ec. apply existsb_exists in Ec. destruct Ec as (m & Hm & Em). apply existsb_exists in Em. destruct Em as ([x y] & Hx & Ex).
        unfold Polyeq.pair_eqb in Ex. cbn [fst snd] in Ex. apply andb_true_iff in Ex. destruct Ex as [E1 E2]. apply (proj1 (term_eqb_eq _ _)) in E1. apply (proj1 (term_eqb_eq _ _)) in E2. subst x y.
        destruct H as (H1 & H2 & H3). rewrite (H3 m a b Hm Hx). exists st. split; [reflexivity|split; auto].
      + destruct (Hr eq_refl st H) as (s1 & E1 & H1). rewrite E1. cbn [obind fst snd]. destruct (feq a b) eqn:Ef; [|exists s1; auto].
        destruct H1 as (G1 & G2 & G3). unfold cache_insert. destruct (ps_cache s1) as [|m l] eqn:Es; [congruence|]. cbn [obind]. eexists. split; [reflexivity|]. split; [exact G1|]. split; [discriminate|].
        cbn [ps_cache]. intros m' x y [<-|Hm]; [|apply (G3 m'); right; exact Hm]. intros [Hx|Hx]; [injection Hx as <- <-; exact Ef|apply (G3 m); [left; reflexivity|exact Hx]].
  Qed.
  Lemma sort_computes a b : computes (sort_cmp a b) (sort_eqb a b).
  Proof. intros st H. exists st. unfold sort_cmp, renamed. rewrite (proj1 H). cbn [negb orb]. rewrite andb_true_r. auto. Qed.
  Lemma zip_computes rec la : forall lb, (forall x y, In x la -> In y lb -> computes (eq_rc rec x y) (feq x y)) -> computes (eq_zip rec la lb) (all2 feq la lb).
  Proof.
    induction la as [|x la IH]; intros [|y lb] H; try apply comp_ret. cbn [eq_zip all2]. apply comp_and; [apply H; left; reflexivity|]. intros _. apply IH. intros u v Hu Hv. apply H; right; auto.
  Qed.
  Lemma list_computes rec la lb : (forall x y, In x la -> In y lb -> computes (eq_rc rec x y) (feq x y)) ->
    computes (eq_list rec la lb) ((List.length la =? List.length lb) && all2 feq la lb).
  Proof. intros H. unfold eq_list. destruct (List.length la =? List.length lb); [apply zip_computes, H|apply comp_ret]. Qed.
  Lemma sorts_computes (la : list (string * sort)) : forall lb, List.length la = List.length lb -> computes (eq_sorts la lb) (list_eqb svar_eqb la lb).
  Proof.
    induction la as [|[x s] la IH]; intros [|[y s'] lb] HL; try discriminate; [apply comp_ret|]. cbn [eq_sorts list_eqb]. unfold svar_eqb. cbn [fst snd].
    rewrite <- andb_assoc. apply (comp_eq _ ((String.eqb x y && sort_eqb s s') && list_eqb svar_eqb la lb)); [|rewrite andb_assoc; reflexivity].
    apply comp_and; [|intros _; apply IH; injection HL; auto]. intros st H. destruct (String.eqb x y); [apply sort_computes; auto|exists st; auto].
  Qed.
  Lemma binds_computes rec (la : list (string * term)) : forall lb, (forall x y, In x la -> In y lb -> computes (eq_rc rec (snd x) (snd y)) (feq (snd x) (snd y))) ->
    computes (eq_binds rec la lb) (all2 (fun p q => String.eqb (fst p) (fst q) && feq (snd p) (snd q)) la lb).
  Proof.
    induction la as [|[x v] la IH]; intros [|[y v'] lb] H; try apply comp_ret. cbn [eq_binds all2 fst snd]. apply comp_and.
    - intros st Hs. destruct (String.eqb x y); [apply (H (x, v) (y, v')); [left; reflexivity|left; reflexivity|exact Hs]|exists st; auto].
    - intros _. apply IH. intros u w Hu Hw. apply H; right; auto.
  Qed.
  Lemma size_in x l : In x l -> tsize x <= list_sum (map tsize l).
  Proof. induction l as [|y l IH]; [intros []|]. intros [->|H]; cbn; [lia|]. apply IH in H. unfold list_sum in *. lia. Qed.
  Lemma size_in_b (x : string * term) l : In x l -> tsize (snd x) <= list_sum (map (fun p => tsize (snd p)) l).
  Proof. induction l as [|y l IH]; [intros []|]. intros [->|H]; cbn; [lia|]. apply IH in H. unfold list_sum in *. lia. Qed.
  Lemma single_no rec a b : frag a = true -> computes (single c rec a b) false.
  Proof.
    intros Ha. unfold single. destruct a as [| | |o [|x [|y l]]| | | |]; try apply comp_ret. destruct (p_nary c && is_left o) eqn:E; [|apply comp_ret]. exfalso.
    apply andb_true_iff in E. destruct E as [E1 E2]. unfold ElabPolyeqSound.frag in Ha. cbn [all_sub frag1 List.length Nat.eqb] in Ha. rewrite E1, E2 in Ha. cbn in Ha.
    rewrite !andb_false_r in Ha. discriminate.
  Qed.
  Lemma int_neg_no i args : frag (TOp OSub args) = true -> computes (int_neg i args) false.
  Proof.
    intros H. unfold int_neg. destruct (Z.ltb i 0); [|apply comp_ret]. destruct args as [|x [|y l]]; try apply comp_ret; [|destruct x as [[| | |]| | | | | | |]; apply comp_ret].
    destruct x as [[| | |]| | | | | | |]; try apply comp_ret; exfalso; cbn in H; discriminate.
  Qed.
  Lemma real_neg_no r args : frag (TOp OSub args) = true -> computes (real_neg r args) false.
  Proof.
    intros H. unfold real_neg. destruct (qneg r); [|apply comp_ret]. destruct args as [|x [|y l]]; try apply comp_ret; [|destruct x as [[| | |]| | |[] | | | |]; apply comp_ret].
    destruct x as [[| | |]| | |o l| | | |]; try apply comp_ret; try (exfalso; cbn in H; discriminate).
    destruct o; try apply comp_ret. exfalso. cbn in H. discriminate.
  Qed.
  Lemma real_div_no r args : frag (TOp ORealDiv args) = true -> computes (real_div r args) false.
  Proof.
    intros H. unfold real_div. destruct args as [|x [|y l]]; try (exfalso; cbn in H; discriminate). cbn [idx2].
    destruct x as [[| | |]| | | | | | |]; try apply comp_ret. destruct y as [[| | |]| | | | | | |]; try apply comp_ret. exfalso. cbn in H. discriminate.
  Qed.
  Lemma div_real_no r args : frag (TOp ORealDiv args) = true -> computes (div_real args r) false.
  Proof.
    intros H. unfold div_real. destruct args as [|x [|y l]]; try (exfalso; cbn in H; discriminate). cbn [idx2].
    assert (Hn : numlike x && numlike y = false). { unfold ElabPolyeqSound.frag in H. cbn [all_sub frag1] in H. destruct (numlike x && numlike y) eqn:E; [|reflexivity]. apply andb_true_iff in E. destruct E as [E1 E2]. rewrite E1, E2 in H. cbn in H. discriminate. }
    destruct x as [[| | |]| | |ox lx| | | |]; try apply comp_ret.
    - destruct y as [[| | |]| | |oy ly| | | |]; try apply comp_ret; try (cbn in Hn; discriminate).
      destruct oy; try apply comp_ret. cbn in Hn. discriminate.
    - destruct y as [[| | |]| | |oy ly| | | |]; try apply comp_ret; try (cbn in Hn; discriminate).
    - destruct ox; try apply comp_ret. destruct lx as [|x [|]]; try apply comp_ret. destruct y as [[| | |]| | |oy ly| | | |]; try apply comp_ret. cbn in Hn. discriminate.
  Qed.
  Lemma frag_args o args x : frag (TOp o args) = true -> In x args -> frag x = true.
  Proof. unfold ElabPolyeqSound.frag. cbn [all_sub]. intros H Hx. apply andb_true_iff in H. destruct H as [_ H]. rewrite forallb_forall in H. auto. Qed.
  Lemma op_computes rec n oa la ob lb : frag (TOp oa la) = true -> frag (TOp ob lb) = true ->
    (forall x y, In x la -> In y lb -> computes (eq_rc rec x y) (feq x y)) ->
    computes (cmp_op c rec n oa la ob lb) (feq (TOp oa la) (TOp ob lb)).
  Proof.
    intros Fa Fb H.
    assert (E0 : forall o l, frag (TOp o l) = true -> p_nary c = true -> is_left o || is_right o || is_chain o = true -> List.length l = 2).
    { intros o l Ho Hn Hc. unfold ElabPolyeqSound.frag in Ho. cbn [all_sub frag1] in Ho. rewrite Hn, Hc in Ho. cbn [negb orb] in Ho. rewrite !andb_true_iff in Ho. destruct Ho as [[_ Ho] _]. apply Nat.eqb_eq, Ho. }
    assert (Gen : computes (if op_eqb oa ob then eq_list rec la lb else cret false) (op_eqb oa ob && (List.length la =? List.length lb) && all2 feq la lb)).
    { destruct (op_eqb oa ob); [apply list_computes, H|apply comp_ret]. }
    assert (Nary : computes (if p_nary c then
        if negb (op_eqb oa ob) then
          if is_chain oa then (if op_eqb ob OAnd then cmp_chainable rec oa la lb else cret false)
          else if is_chain ob then (if op_eqb oa OAnd then cmp_chainable rec ob lb la else cret false)
          else cret false
        else if negb (Nat.eqb (List.length la) (List.length lb)) then
          (if is_left oa || is_right oa then cmp_assoc rec n oa la lb else cret false)
        else (if op_eqb oa ob then eq_list rec la lb else cret false)
      else (if op_eqb oa ob then eq_list rec la lb else cret false)) (op_eqb oa ob && (List.length la =? List.length lb) && all2 feq la lb)).
    { destruct (p_nary c) eqn:En; [|exact Gen]. destruct (op_eqb oa ob) eqn:Eo; cbn [negb].
      - destruct (Nat.eqb_spec (List.length la) (List.length lb)) as [EL|EL]; cbn [negb]; [exact Gen|]. cbn [andb]. destruct (is_left oa || is_right oa) eqn:Ec; [|apply comp_ret]. exfalso.
        apply op_eqb_eq in Eo. subst ob. apply EL. assert (Ec' : is_left oa || is_right oa || is_chain oa = true) by (rewrite Ec; reflexivity). rewrite (E0 oa la), (E0 oa lb); auto.
      - cbn [andb]. assert (Hc : forall o o' l l', ElabPolyeqSound.frag true k (TOp o l) = true -> ElabPolyeqSound.frag true k (TOp o' l') = true -> is_chain o = true -> op_eqb o' OAnd = true -> computes (cmp_chainable rec o l l') false).
        { intros o o' l l' Fo Fo' Ho Ho'. apply op_eqb_eq in Ho'. subst o'. unfold cmp_chainable. rewrite (E0 o l Fo eq_refl), (E0 OAnd l' Fo' eq_refl); [apply comp_ret|reflexivity|rewrite Ho; destruct (is_left o), (is_right o); reflexivity]. }
        destruct (is_chain oa) eqn:Ca; [destruct (op_eqb ob OAnd) eqn:Eb; [eapply Hc; eauto|apply comp_ret]|].
        destruct (is_chain ob) eqn:Cb; [destruct (op_eqb oa OAnd) eqn:Eb; [eapply Hc; eauto|apply comp_ret]|apply comp_ret]. }
    unfold cmp_op. destruct (term_eqb (TOp oa la) (TOp ob lb)) eqn:Et.
    { apply term_eqb_eq in Et. injection Et as <- <-. assert (Hr : all2 feq la la = true). { clear. induction la as [|x l IH]; [reflexivity|]. cbn [all2]. rewrite feq_refl. exact IH. }
      assert (Eo : op_eqb oa oa = true) by (apply op_eqb_eq; reflexivity). rewrite Eo, Nat.eqb_refl, Hr in Nary, Gen. cbn [andb] in Nary, Gen. rewrite feq_refl. rewrite Eo, Nat.eqb_refl.
      destruct la as [|a1 [|a2 [|a3 la]]]; try exact Nary. rewrite reorder. cbn [andb]. destruct (op_eqb oa OEquals); cbn [andb]; [|exact Nary].
      apply (comp_eq _ ((feq a1 a1 && feq a2 a2) || (feq a1 a2 && feq a2 a1))); [|rewrite !feq_refl; reflexivity].
      apply comp_or; [apply comp_and; [|intros _]; apply H; cbn; auto|intros _; apply comp_and; [|intros _]; apply H; cbn; auto]. }
    cbn [feq]. rewrite Et. cbn [orb].
    destruct la as [|a1 [|a2 [|a3 la]]]; try (rewrite orb_false_r; exact Nary). destruct lb as [|b1 [|b2 [|b3 lb]]]; try (rewrite orb_false_r; exact Nary).
    rewrite reorder. cbn [andb]. destruct (op_eqb oa OEquals) eqn:E1; cbn [andb]; [|rewrite orb_false_r; exact Nary]. destruct (op_eqb ob OEquals) eqn:E2; cbn [andb]; [|rewrite orb_false_r; exact Nary].
    assert (Eo : op_eqb oa ob = true) by (apply op_eqb_eq in E1, E2; apply op_eqb_eq; congruence). rewrite Eo. cbn [List.length Nat.eqb all2 andb].
    apply (comp_eq _ ((feq a1 b1 && feq a2 b2) || (feq a1 b2 && feq a2 b1))); [|rewrite andb_true_r; reflexivity].
    apply comp_or; [apply comp_and; [|intros _]; apply H; cbn; auto|intros _; apply comp_and; [|intros _]; apply H; cbn; auto].
  Qed.
  Lemma const_no a b : frag (TConst a) = true -> frag (TConst b) = true -> const_cmp a b = true -> a = b.
  Proof.
    unfold ElabPolyeqSound.frag. cbn [all_sub frag1]. destruct a, b; cbn [const_cmp]; intros Ha Hb H; try (apply const_eqb_eq in H; exact H); destruct k; discriminate.
  Qed.
  Lemma fuel_computes n : forall a b, tsize a + tsize b < n -> frag a = true -> frag b = true -> computes (eq_rc (eq_term_fuel c n) a b) (feq a b).
  Proof.
    induction n as [|n IH]; intros a b HL Fa Fb; [lia|]. apply rc_computes. intros Et. cbn [eq_term_fuel]. set (rec := eq_term_fuel c n) in *.
    assert (IHa : forall x y, tsize x < tsize a -> tsize y < tsize b -> frag x = true -> frag y = true -> computes (eq_rc rec x y) (feq x y)) by (intros x y Hx Hy Fx Fy; apply IH; auto; lia).
    assert (Mixed : forall x r, r = false -> computes x r -> computes (cor (single c rec a b) (cor (single c rec b a) x)) r).
    { intros x r Hr Hx. subst r. change false with (false || (false || false)). apply comp_or; [apply single_no, Fa|]. intros _. apply comp_or; [apply single_no, Fb|]. auto. }
    assert (Sub : forall t u l, frag t = true -> (t = TApp u l -> frag u = true /\ forallb frag l = true)). { intros t u l Ft ->. unfold ElabPolyeqSound.frag in *. cbn [all_sub] in Ft. rewrite !andb_true_iff in Ft. tauto. }
    destruct a as [ca|xa sa|fa la|oa la|sa|qa va ta|la ta|oa pa la], b as [cb|xb sb|fb lb|ob lb|sb|qb vb tb|lb tb|ob pb lb]; unfold eq_term; cbn [feq]; rewrite Et; cbn [orb];
      try (apply Mixed; [reflexivity|apply comp_ret]); try (apply Mixed; [reflexivity|destruct ca; apply comp_ret]); try (apply Mixed; [reflexivity|destruct cb; apply comp_ret]).
    - apply (comp_eq _ (const_cmp ca cb)); [apply comp_ret|]. destruct (const_cmp ca cb) eqn:E; [|reflexivity]. apply const_no in E; auto. subst cb.
      rewrite (proj2 (term_eqb_eq (TConst ca) (TConst ca)) eq_refl) in Et. discriminate.
    - apply Mixed; [reflexivity|]. destruct ca as [i|r| |]; try apply comp_ret.
      + destruct (op_eqb ob OSub) eqn:E; [|apply comp_ret]. apply op_eqb_eq in E. subst ob. apply int_neg_no, Fb.
      + destruct (op_eqb ob ORealDiv) eqn:E; [apply op_eqb_eq in E; subst ob; apply real_div_no, Fb|]. destruct (op_eqb ob OSub) eqn:E'; [|apply comp_ret]. apply op_eqb_eq in E'. subst ob. apply real_neg_no, Fb.
    - intros st Hs. rewrite (proj1 Hs). exists st. auto.
    - destruct (Sub _ _ _ Fa eq_refl) as [Ga1 Ga2]. destruct (Sub _ _ _ Fb eq_refl) as [Gb1 Gb2]. rewrite forallb_forall in Ga2, Gb2. rewrite <- andb_assoc. apply comp_and; [apply IHa; auto; cbn [tsize]; lia|].
      intros _. apply list_computes. intros x y Hx Hy. apply IHa; auto; cbn [tsize]; apply size_in in Hx, Hy; lia.
    - apply Mixed; [reflexivity|]. destruct cb as [i|r| |]; try apply comp_ret.
      + destruct (op_eqb oa OSub) eqn:E; [|apply comp_ret]. apply op_eqb_eq in E. subst oa. apply int_neg_no, Fa.
      + destruct (op_eqb oa ORealDiv) eqn:E; [apply op_eqb_eq in E; subst oa; apply div_real_no, Fa|]. destruct (op_eqb oa OSub) eqn:E'; [|apply comp_ret]. apply op_eqb_eq in E'. subst oa. apply real_neg_no, Fa.
    - apply (comp_eq _ (false || (false || feq (TOp oa la) (TOp ob lb)))); [|cbn [feq orb]; rewrite Et; reflexivity].
      apply comp_or; [apply single_no, Fa|]. intros _. apply comp_or; [apply single_no, Fb|]. intros _. apply op_computes; auto.
      intros x y Hx Hy. apply IHa; [| |exact (frag_args oa la x Fa Hx)|exact (frag_args ob lb y Fb Hy)]; cbn [tsize]; apply size_in in Hx, Hy; lia.
    - apply (comp_eq _ (sort_eqb sa sb)); [apply sort_computes|]. destruct (sort_eqb sa sb) eqn:E; [|reflexivity]. apply sort_eqb_eq in E. subst sb.
      rewrite (proj2 (term_eqb_eq (TSort sa) (TSort sa)) eq_refl) in Et. discriminate.
    - unfold ElabPolyeqSound.frag in Fa, Fb. cbn [all_sub frag1 andb] in Fa, Fb. rewrite <- andb_assoc. destruct (binder_beq qa qb); [|apply comp_ret]. cbn [andb]. intros st Hs. unfold cmp_binder. rewrite (proj1 Hs).
      assert (Hc : computes (cand (fun st => if Nat.eqb (List.length va) (List.length vb) then eq_sorts va vb st else ROk (false, st)) (eq_rc rec ta tb)) (list_eqb svar_eqb va vb && feq ta tb)).
      { apply comp_and; [|intros _; apply IHa; auto; cbn [tsize]; lia]. destruct (Nat.eqb_spec (List.length va) (List.length vb)) as [E|E]; [intros st' Hs'; apply sorts_computes; auto|].
        destruct (list_eqb svar_eqb va vb) eqn:E2; [|intros st' Hs'; exists st'; auto]. exfalso. apply E. apply list_eqb_sv in E2. congruence. }
      apply Hc, Hs.
    - unfold ElabPolyeqSound.frag in Fa, Fb. cbn [all_sub frag1 andb] in Fa, Fb. apply andb_true_iff in Fa, Fb. destruct Fa as [Fa1 Fa2], Fb as [Fb1 Fb2]. rewrite forallb_forall in Fa1, Fb1.
      intros st Hs. unfold cmp_let. rewrite (proj1 Hs).
      assert (Hc : computes (cand (fun st => if Nat.eqb (List.length la) (List.length lb) then eq_binds rec la lb st else ROk (false, st)) (eq_rc rec ta tb))
        ((List.length la =? List.length lb) && all2 (fun p q => String.eqb (fst p) (fst q) && feq (snd p) (snd q)) la lb && feq ta tb)).
      { apply comp_and; [|intros _; apply IHa; auto; cbn [tsize]; lia]. destruct (List.length la =? List.length lb); [|intros st' Hs'; exists st'; auto]. cbn [andb]. intros st' Hs'.
        apply binds_computes; auto. intros x y Hx Hy. apply IHa; [..|apply Fa1, Hx|apply Fb1, Hy]; cbn [tsize]; apply size_in_b in Hx, Hy; lia. }
      apply Hc, Hs.
    - unfold ElabPolyeqSound.frag in Fa, Fb. cbn [all_sub frag1 andb] in Fa, Fb. rewrite forallb_forall in Fa, Fb. rewrite <- andb_assoc. destruct (pop_beq oa ob && list_eqb term_eqb pa pb); [|apply comp_ret].
      cbn [andb]. apply list_computes. intros x y Hx Hy. apply IHa; [..|apply Fa, Hx|apply Fb, Hy]; cbn [tsize]; apply size_in in Hx, Hy; lia.
  Qed.
  Theorem peq_feq a b : frag a = true -> frag b = true -> peq c a b = ROk (feq a b).
  Proof.
    intros Fa Fb. unfold peq, peq_fuel. destruct (fuel_computes (S (tsize a + tsize b)) a b) with (st := st_new c) as (st' & E & _); auto.
    - unfold st_new. rewrite no_alpha. split; [reflexivity|]. split; [discriminate|]. cbn. intros m x y [<-|[]] [].
    - rewrite E. reflexivity.
  Qed.
End Feq.

(** ** The steps are accepted *)
(** the premises at the leaves of a derivation *)
Fixpoint eprems (n : enode) : list clause :=
  match n with
  | EPrem c => [c]
  | EStep _ _ ps _ => flat_map eprems ps
  | ESub _ _ _ ps _ prev => flat_map eprems ps ++ eprems prev
  end.
Definition efrag1 (k : bool) (t : term) : bool :=
  frag1 false k t && match t with TPOp _ _ _ => false | TBind q _ _ => is_quant q | TApp (TVar _ _) _ => true | TApp _ _ => false | _ => true end.
Definition efrag (k : bool) : term -> bool := all_sub (efrag1 k).
Lemma efrag_frag k t : efrag k t = true -> frag false k t = true.
Proof. apply all_sub_impl. intros u H. apply andb_true_iff in H. apply H. Qed.
Lemma polyeq_feq k a b : efrag k a = true -> efrag k b = true -> polyeq a b = ROk (feq a b).
Proof. intros Ha Hb. apply (peq_feq cfg_polyeq k); auto; apply efrag_frag; auto. Qed.
Definition differ (p : term * term) : bool := negb (term_eqb (fst p) (snd p)).
Lemma cong_filter la : forall lb, List.length la = List.length lb -> check_cong (filter differ (combine la lb)) la lb = ROk tt.
Proof.
  induction la as [|x la IH]; intros [|y lb] HL; try discriminate; [reflexivity|]. injection HL as HL. cbn [combine filter]. unfold differ at 1. cbn [fst snd].
  destruct (term_eqb x y) eqn:E; cbn [negb].
  - cbn [check_cong]. rewrite E. apply term_eqb_eq in E. subst y. specialize (IH lb HL). destruct (filter differ (combine la lb)) as [|[u v] qs] eqn:Eq; [exact IH|].
    assert (Hd : differ (u, v) = true). { assert (Hin : In (u, v) (filter differ (combine la lb))) by (rewrite Eq; left; reflexivity). apply filter_In in Hin. apply Hin. }
    assert (Hp : pair_is (u, v) x x = false).
    { unfold pair_is. cbn [fst snd]. unfold differ in Hd. cbn [fst snd] in Hd. apply negb_true_iff in Hd.
      destruct (term_eqb x u) eqn:E1, (term_eqb x v) eqn:E2; try reflexivity. apply term_eqb_eq in E1, E2. subst. rewrite term_eqb_rf in Hd. discriminate. }
    rewrite Hp. exact IH.
  - cbn [check_cong]. assert (Hp : pair_is (x, y) x y = true) by (unfold pair_is; cbn [fst snd]; rewrite !term_eqb_rf; reflexivity). rewrite Hp. apply IH, HL.
Qed.
Lemma filter_none (la lb : list term) : List.length la = List.length lb -> filter differ (combine la lb) = [] -> la = lb.
Proof.
  revert lb. induction la as [|x la IH]; intros [|y lb] HL H; try discriminate; [reflexivity|]. injection HL as HL. cbn [combine filter] in H. unfold differ at 1 in H. cbn [fst snd] in H.
  destruct (term_eqb x y) eqn:E; [|discriminate]. apply term_eqb_eq in E. subst y. f_equal. apply IH; auto.
Qed.
Lemma omap_prem_eq (l : list (term * term)) : omap prem_eq (map (fun p => [tEq (fst p) (snd p)]) l) = ROk l.
Proof. induction l as [|[x y] l IH]; [reflexivity|]. cbn [map omap fst snd]. rewrite (proj2 (prem_eq_clause _ x y) eq_refl), IH. reflexivity. Qed.
Lemma all2_combine {A B} (f : A -> B -> bool) la : forall lb, all2 f la lb = true -> forall x y, In (x, y) (combine la lb) -> f x y = true.
Proof.
  induction la as [|a la IH]; intros [|b lb] H x y Hin; cbn [combine] in Hin; try contradiction. cbn [all2] in H. apply andb_true_iff in H. destruct H as [H1 H2].
  destruct Hin as [E|Hin]; [injection E as <- <-; exact H1|eapply IH; eauto].
Qed.

Section Accepted.
  Variable other : bool -> string -> crule.
  Variable seen : nat -> term -> term -> bool.
  Variable k : bool.
  Notation accepted := (accepted other).
  Notation efrag := (efrag k).
  Definition good_for (a b : term) (r : outcome enode) : Prop := exists t, r = ROk t /\ eclause t = [tEq a b] /\ eprems t = [] /\ forall cx, accepted cx t.
  Lemma diff_ok rec d l : (forall x y, In (x, y) l -> x <> y -> good_for x y (rec d x y)) ->
    exists ns, diff_premises rec d l = ROk ns /\ map eclause ns = map (fun p => [tEq (fst p) (snd p)]) (filter differ l) /\ flat_map eprems ns = [] /\ forall cx, Forall (accepted cx) ns.
  Proof.
    induction l as [|[x y] l IH]; intros H; [exists []; repeat split; constructor|]. destruct IH as (ns & E1 & E2 & E0 & E3); [intros u v Hu; apply H; right; exact Hu|].
    cbn [diff_premises filter]. unfold differ at 1. cbn [fst snd]. destruct (term_eqb x y) eqn:E; cbn [negb]; [exists ns; auto|].
    destruct (H x y) as (t & T1 & T2 & T0 & T3); [left; reflexivity|intros ->; rewrite term_eqb_rf in E; discriminate|]. rewrite T1. cbn [obind]. rewrite E1. cbn [obind].
    exists (t :: ns). split; [reflexivity|]. cbn [map fst snd]. rewrite T2, E2. split; [reflexivity|]. split; [cbn [flat_map]; rewrite T0, E0; reflexivity|]. intros cx. constructor; auto.
  Qed.
  Lemma cong_ok rec d a b la lb : same_head a b = true -> term_args a = ROk la -> term_args b = ROk lb -> List.length la = List.length lb -> la <> lb ->
    (forall x y, In (x, y) (combine la lb) -> x <> y -> good_for x y (rec d x y)) -> good_for a b (build_cong rec d a b la lb).
  Proof.
    intros Hh Ha Hb HL Hne H. destruct (diff_ok rec d (combine la lb) H) as (ns & E1 & E2 & E0 & E3). unfold build_cong. rewrite E1. cbn [obind]. eexists. split; [reflexivity|]. split; [reflexivity|]. split; [exact E0|].
    intros cx. apply (cong_accepted other cx a b la lb ns (filter differ (combine la lb))); auto.
    - rewrite E2. apply omap_prem_eq.
    - apply cong_filter, HL.
    - intros ->. cbn in E2. apply Hne. apply filter_none; auto. destruct (filter differ (combine la lb)); [reflexivity|discriminate].
  Qed.
  (** [bind] *)
  Lemma bind_xs_vars vs l : bind_xs [] (map AVar vs ++ l) = bind_xs [] l.
  Proof. induction vs as [|v vs IH]; [reflexivity|]. cbn [map app bind_xs]. exact IH. Qed.
  Lemma bind_xs_assigns vs : forall xs, bind_xs xs (map (fun v => AAssign v (TVar (fst v) (snd v))) vs) = ROk (xs ++ vs).
  Proof. induction vs as [|v vs IH]; intros xs; cbn [map bind_xs]; [rewrite app_nil_r; reflexivity|]. rewrite IH, <- app_assoc. reflexivity. Qed.
  Lemma bind_ok cx q vs ta tb prev : eclause prev = [tEq ta tb] -> accepted (hd_sort vs :: cx) prev ->
    accepted cx (ESub (hd_sort vs) [tEq (TBind q vs ta) (TBind q vs tb)] "bind" [] [] prev).
  Proof.
    intros E Hp. apply accepted_sub. split; [|split; [constructor|exact Hp]]. exists r_bind. split; [reflexivity|]. rewrite E. unfold r_bind. cbn [ra_prev ra_concl ra_ctx ok_or obind map].
    cbn [len_is List.length Nat.eqb rassert obind]. cbn [premise_term]. cbn [obind]. rewrite m_op2_eq. cbn [obind idx nth_error unwrap]. rewrite m_op2_eq. cbn [obind fst snd as_binder ok_or].
    assert (Eq : binder_beq q q = true) by (destruct q; reflexivity). rewrite Eq. cbn [rassert obind]. unfold teq. rewrite !term_eqb_rf. cbn [rassert obind].
    assert (Ee : existsb (fun y => svmem y (fvars ta) && negb (svmem y vs)) vs = false).
    { destruct (existsb (fun y => svmem y (fvars ta) && negb (svmem y vs)) vs) eqn:E1; [|reflexivity]. apply existsb_exists in E1. destruct E1 as (y & Hy & E1). apply andb_true_iff in E1. destruct E1 as [_ E1].
      apply negb_true_iff in E1. exfalso. assert (E2 : svmem y vs = true); [|congruence]. unfold svmem. apply existsb_exists. exists y. split; [exact Hy|apply svar_eqb_eq; reflexivity]. }
    rewrite Ee. cbn [negb rassert obind last_ctx]. change (last_ctx (hd_sort vs :: cx)) with (ROk (hd_sort vs)). cbn [obind]. unfold hd_sort. rewrite bind_xs_vars, bind_xs_assigns. cbn [obind app]. rewrite Nat.eqb_refl. cbn [rassert obind].
    assert (Ef : forallb (fun x => svmem x vs || svmem x vs) vs = true).
    { apply forallb_forall. intros y Hy. assert (E2 : svmem y vs = true); [|rewrite E2; reflexivity]. unfold svmem. apply existsb_exists. exists y. split; [exact Hy|apply svar_eqb_eq; reflexivity]. }
    rewrite Ef. reflexivity.
  Qed.
  (** [bind_let] *)
  Lemma skip_first v w qs : skip_to v w ((v, w) :: qs) = Some qs.
  Proof. cbn [skip_to fst snd]. rewrite !term_eqb_rf. reflexivity. Qed.
  Lemma bind_let_ok cx la lb ta tb ps prev : List.length la = List.length lb -> all2 (fun p q : string * term => String.eqb (fst p) (fst q)) la lb = true ->
    map eclause ps = map (fun p => [tEq (fst p) (snd p)]) (filter differ (map (fun e => (snd (fst e), snd (snd e))) (combine la lb))) -> Forall (accepted cx) ps ->
    eclause prev = [tEq ta tb] -> (forall cx, accepted cx prev) ->
    accepted cx (ESub (map (fun p => AVar (fst p, sort_of (snd p))) la) [tEq (TLet la ta) (TLet lb tb)] "bind_let" ps [] prev).
  Proof.
    intros HL Hn Hps HF E Hp. apply accepted_sub. split; [|split; [exact HF|apply Hp]]. exists r_bind_let. split; [reflexivity|]. rewrite E. unfold r_bind_let. cbn [ra_prev ra_concl ra_prems ok_or obind].
    cbn [len_is List.length Nat.eqb rassert obind]. cbn [premise_term]. cbn [obind]. rewrite m_op2_eq. cbn [obind idx nth_error unwrap]. rewrite m_op2_eq. cbn [obind fst snd as_let ok_or].
    unfold len_is. rewrite HL, Nat.eqb_refl. cbn [rassert obind]. rewrite Hps.
    assert (Eo : forall l : list (term * term), omap (fun p => do t <- premise_term p ; m_op2 OEquals t) (map (fun p => [tEq (fst p) (snd p)]) l) = ROk l).
    { induction l as [|[x y] l IH]; [reflexivity|]. cbn [map omap premise_term obind fst snd]. rewrite m_op2_eq. cbn [obind fst snd]. rewrite IH. reflexivity. }
    rewrite Eo. cbn [obind].
    assert (Eb : bind_let_pairs la lb (filter differ (map (fun e => (snd (fst e), snd (snd e))) (combine la lb))) = ROk tt).
    { clear - HL Hn. revert lb HL Hn. induction la as [|[x v] la IH]; intros [|[y w] lb] HL Hn; try discriminate; [reflexivity|]. injection HL as HL. cbn [all2 fst snd] in Hn. apply andb_true_iff in Hn. destruct Hn as [Hn1 Hn2].
      cbn [combine map filter bind_let_pairs fst snd]. rewrite Hn1. cbn [rassert obind]. assert (Ed : differ (v, w) = negb (term_eqb v w)) by reflexivity. rewrite Ed.
      destruct (term_eqb v w) eqn:Ev; cbn [negb]; [apply IH; auto|]. rewrite skip_first. apply IH; auto. }
    rewrite Eb. cbn [obind]. unfold teq. rewrite !term_eqb_rf. reflexivity.
  Qed.
  Lemma body_ok rec d a b : good_for a b (rec d a b) -> good_for a b (bind_body seen rec d a b).
  Proof.
    intros (t & E1 & E2 & E0 & E3). unfold bind_body. rewrite E1. cbn [obind]. destruct (match t with EStep _ _ _ _ => negb (seen d a b) | _ => false end); [exists t; auto|].
    eexists. split; [reflexivity|]. split; [reflexivity|]. split; [cbn [eprems flat_map]; rewrite E0; reflexivity|]. intros cx. apply accepted_step. split; [|constructor; auto]. apply (run_plain other "reordering" r_reordering); [cbn; tauto|].
    cbn [ra_concl ra_prems ra_args map]. rewrite E2. apply reordering_ok. reflexivity.
  Qed.
  Lemma efrag_op o args x : efrag (TOp o args) = true -> In x args -> efrag x = true.
  Proof. unfold ElabPolyeqSound.efrag. cbn [all_sub]. intros H Hx. apply andb_true_iff in H. destruct H as [_ H]. rewrite forallb_forall in H. auto. Qed.
  Theorem pelab_fuel_ok n : forall d a b, tsize a + tsize b < n -> efrag a = true -> efrag b = true -> feq a b = true -> good_for a b (pelab_fuel seen n d a b).
  Proof.
    induction n as [|n IH]; intros d a b HL Fa Fb H; [lia|]. cbn [pelab_fuel]. set (rec := pelab_fuel seen n) in *. unfold pelab1. destruct (term_eqb a b) eqn:Et.
    { apply term_eqb_eq in Et. subst b. eexists. split; [reflexivity|]. split; [reflexivity|]. split; [reflexivity|]. intros cx. apply refl_same_ok. }
    assert (Hne : a <> b) by (intros ->; rewrite term_eqb_rf in Et; discriminate).
    destruct (flip_case a b) as [[[[[al ar] bl] br]|]| |] eqn:Efl.
    - (* flipped *)
      cbn [obind]. unfold flip_case in Efl. destruct (op2 OEquals a) as [[al' ar']|] eqn:Ea; [|discriminate]. destruct (op2 OEquals b) as [[bl' br']|] eqn:Eb; [|discriminate].
      apply op2_some in Ea, Eb. subst a b. assert (Gl : efrag al' = true) by (eapply efrag_op; [exact Fa|left; reflexivity]). assert (Gr : efrag ar' = true) by (eapply efrag_op; [exact Fa|right; left; reflexivity]).
      assert (Gl' : efrag bl' = true) by (eapply efrag_op; [exact Fb|left; reflexivity]). assert (Gr' : efrag br' = true) by (eapply efrag_op; [exact Fb|right; left; reflexivity]).
      rewrite (polyeq_feq k al' br') in Efl by auto. cbn [obind] in Efl. destruct (feq al' br') eqn:F1; [|discriminate]. rewrite (polyeq_feq k ar' bl') in Efl by auto. cbn [obind] in Efl.
      destruct (feq ar' bl') eqn:F2; [|discriminate]. injection Efl as -> -> -> ->. unfold flip_equality. change (TOp OEquals [al; ar]) with (tEq al ar) in *. change (TOp OEquals [bl; br]) with (tEq bl br) in *.
      cbn [tsize tEq map list_sum fold_right] in HL. destruct (term_eqb al br && term_eqb ar bl) eqn:Es.
      + apply andb_true_iff in Es. destruct Es as [Es1 Es2]. apply term_eqb_eq in Es1, Es2. subst br bl. eexists. split; [reflexivity|]. split; [reflexivity|]. split; [reflexivity|]. intros cx. apply eq_symm_ok.
      + assert (Hc : good_for (tEq al ar) (tEq br bl) (build_cong rec d (tEq al ar) (tEq br bl) [al; ar] [br; bl])).
        { apply cong_ok; try reflexivity.
          - intros E. injection E as -> ->. rewrite !term_eqb_rf in Es. discriminate.
          - intros x y [E|[E|[]]] Hxy; injection E as <- <-; apply IH; auto; lia. }
        destruct Hc as (t & T1 & T2 & T0 & T3). rewrite T1. cbn [obind].
        destruct (trans2_ok other [] t (EStep [tEq (tEq br bl) (tEq bl br)] "eq_symmetric" [] []) (tEq al ar) (tEq br bl) (tEq bl br)) as (r & R1 & R2 & _); auto; [apply eq_symm_ok|].
        exists r. split; [exact R1|]. split; [exact R2|]. split.
        { unfold add_trans in R1. cbn [idx nth_error unwrap obind List.length Nat.sub] in R1. rewrite T2 in R1. cbn in R1. injection R1 as <-. cbn [eprems flat_map]. rewrite T0. reflexivity. }
        intros cx.
        destruct (trans2_ok other cx t (EStep [tEq (tEq br bl) (tEq bl br)] "eq_symmetric" [] []) (tEq al ar) (tEq br bl) (tEq bl br)) as (r' & R1' & _ & R3'); auto; [apply eq_symm_ok|].
        rewrite R1 in R1'. injection R1' as <-. exact R3'.
    - (* not flipped *)
      cbn [obind]. destruct a as [ca|xa sa|fa la|oa la|sa|qa va ta|la ta|oa pa la], b as [cb|xb sb|fb lb|ob lb|sb|qb vb tb|lb tb|ob pb lb]; cbn [feq] in H; rewrite Et in H; cbn [orb] in H; try discriminate.
      + rewrite !andb_true_iff in H. destruct H as [[H1 H2] H3]. unfold ElabPolyeqSound.efrag in Fa, Fb. cbn [all_sub] in Fa, Fb. rewrite !andb_true_iff in Fa, Fb. destruct Fa as (Fa1 & Fa2 & Fa3), Fb as (Fb1 & Fb2 & Fb3).
        apply andb_true_iff in Fa1, Fb1. destruct Fa1 as [_ Fa1], Fb1 as [_ Fb1]. assert (Ef : fa = fb).
        { destruct fa; try discriminate. destruct fb; try discriminate. cbn [feq] in H1. rewrite orb_false_r in H1. apply term_eqb_eq in H1. exact H1. }
        subst fb. rewrite term_eqb_rf, H2. cbn [passert obind]. apply Nat.eqb_eq in H2. rewrite forallb_forall in Fa3, Fb3. apply cong_ok; try reflexivity; auto.
        * cbn [same_head]. apply term_eqb_rf.
        * congruence.
        * intros x y Hxy _. apply IH; [|apply Fa3|apply Fb3|exact (all2_combine feq la lb H3 x y Hxy)].
          -- pose proof (in_combine_l _ _ _ _ Hxy) as Hx. pose proof (in_combine_r _ _ _ _ Hxy) as Hy. apply size_in in Hx, Hy. cbn [tsize] in HL. lia.
          -- eapply in_combine_l; eauto.
          -- eapply in_combine_r; eauto.
      + assert (Hg : op_eqb oa ob && (List.length la =? List.length lb) && all2 feq la lb = true).
        { apply orb_true_iff in H. destruct H as [H|H]; [exact H|]. exfalso. destruct la as [|a1 [|a2 [|a3 la]]]; try discriminate. destruct lb as [|b1 [|b2 [|b3 lb]]]; try discriminate.
          rewrite !andb_true_iff in H. destruct H as [[[H1 H2] H3] H4]. apply op_eqb_eq in H1, H2. subst oa ob. unfold flip_case in Efl.
          change (op2 OEquals (TOp OEquals [a1; a2])) with (Some (a1, a2)) in Efl. change (op2 OEquals (TOp OEquals [b1; b2])) with (Some (b1, b2)) in Efl. cbn iota beta in Efl.
          rewrite (polyeq_feq k a1 b2), H3 in Efl; [|eapply efrag_op; [exact Fa|cbn; auto]|eapply efrag_op; [exact Fb|cbn; auto]]. cbn [obind] in Efl.
          rewrite (polyeq_feq k a2 b1), H4 in Efl; [|eapply efrag_op; [exact Fa|cbn; auto]|eapply efrag_op; [exact Fb|cbn; auto]]. discriminate. }
        rewrite !andb_true_iff in Hg. destruct Hg as [[H1 H2] H3]. rewrite H1, H2. cbn [negb]. apply op_eqb_eq in H1. subst ob. apply Nat.eqb_eq in H2. apply cong_ok; try reflexivity; auto.
        * cbn [same_head]. apply op_eqb_eq. reflexivity.
        * congruence.
        * intros x y Hxy _. pose proof (in_combine_l _ _ _ _ Hxy) as Hx. pose proof (in_combine_r _ _ _ _ Hxy) as Hy. apply IH; [|exact (efrag_op _ _ _ Fa Hx)|exact (efrag_op _ _ _ Fb Hy)|exact (all2_combine feq la lb H3 x y Hxy)].
          apply size_in in Hx, Hy. cbn [tsize] in HL. lia.
      + rewrite !andb_true_iff in H. destruct H as [[H1 H2] H3]. unfold ElabPolyeqSound.efrag in Fa, Fb. cbn [all_sub] in Fa, Fb. rewrite !andb_true_iff in Fa, Fb. destruct Fa as (Fa1 & Fa2), Fb as (Fb1 & Fb2).
        apply andb_true_iff in Fa1, Fb1. destruct Fa1 as [_ Fa1], Fb1 as [_ Fb1]. rewrite Fa1, Fb1, H1, H2. cbn [negb orb passert obind]. apply list_eqb_sv in H2. subst vb.
        assert (qa = qb) by (destruct qa, qb; try discriminate; reflexivity). subst qb.
        destruct (body_ok rec (S d) ta tb) as (t & T1 & T2 & T0 & T3); [apply IH; auto; cbn [tsize] in HL; lia|]. rewrite T1. cbn [obind]. eexists. split; [reflexivity|]. split; [reflexivity|]. split; [exact T0|].
        intros cx. apply bind_ok; auto.
      + rewrite !andb_true_iff in H. destruct H as [[H1 H2] H3]. unfold ElabPolyeqSound.efrag in Fa, Fb. cbn [all_sub] in Fa, Fb. rewrite !andb_true_iff in Fa, Fb. destruct Fa as (_ & Fa1 & Fa2), Fb as (_ & Fb1 & Fb2).
        rewrite forallb_forall in Fa1, Fb1. rewrite H1. cbn [passert obind]. apply Nat.eqb_eq in H1.
        assert (En : forallb (fun e : (string * term) * (string * term) => String.eqb (fst (fst e)) (fst (snd e))) (combine la lb) = true).
        { apply forallb_forall. intros [x y] Hxy. apply (all2_combine _ la lb H2) in Hxy. apply andb_true_iff in Hxy. apply Hxy. }
        rewrite En. cbn [passert obind].
        assert (Hd : forall x y, In (x, y) (map (fun e : (string * term) * (string * term) => (snd (fst e), snd (snd e))) (combine la lb)) -> x <> y -> good_for x y (rec d x y)).
        { intros x y Hxy _. apply in_map_iff in Hxy. destruct Hxy as ([u v] & E & Hxy). cbn [fst snd] in E. injection E as <- <-. pose proof (all2_combine _ la lb H2 _ _ Hxy) as Hf. apply andb_true_iff in Hf.
          pose proof (in_combine_l _ _ _ _ Hxy) as Hx. pose proof (in_combine_r _ _ _ _ Hxy) as Hy. apply IH; [|apply Fa1, Hx|apply Fb1, Hy|apply Hf]. apply size_in_b in Hx, Hy. cbn [tsize] in HL. lia. }
        destruct (diff_ok rec d _ Hd) as (ns & E1 & E2 & E0 & E3). rewrite E1. cbn [obind].
        destruct (body_ok rec (S d) ta tb) as (t & T1 & T2 & T0 & T3); [apply IH; auto; cbn [tsize] in HL; lia|]. rewrite T1. cbn [obind]. eexists. split; [reflexivity|]. split; [reflexivity|]. split; [cbn [eprems]; rewrite E0, T0; reflexivity|].
        intros cx. apply bind_let_ok; auto. clear -H2. revert lb H2. induction la as [|x la IH]; intros [|y lb] H; try reflexivity. cbn [all2] in *. rewrite !andb_true_iff in H. destruct H as [[H1 _] H2].
        rewrite H1. apply IH, H2.
    - exfalso. unfold flip_case in Efl. destruct (op2 OEquals a) as [[al ar]|] eqn:Ea; [|discriminate]. destruct (op2 OEquals b) as [[bl br]|] eqn:Eb; [|discriminate]. apply op2_some in Ea, Eb. subst a b.
      rewrite (polyeq_feq k al br) in Efl; [|eapply efrag_op; [exact Fa|cbn; auto]|eapply efrag_op; [exact Fb|cbn; auto]]. cbn [obind] in Efl. destruct (feq al br); [|discriminate].
      rewrite (polyeq_feq k ar bl) in Efl; [|eapply efrag_op; [exact Fa|cbn; auto]|eapply efrag_op; [exact Fb|cbn; auto]]. discriminate.
    - exfalso. unfold flip_case in Efl. destruct (op2 OEquals a) as [[al ar]|] eqn:Ea; [|discriminate]. destruct (op2 OEquals b) as [[bl br]|] eqn:Eb; [|discriminate]. apply op2_some in Ea, Eb. subst a b.
      rewrite (polyeq_feq k al br) in Efl; [|eapply efrag_op; [exact Fa|cbn; auto]|eapply efrag_op; [exact Fb|cbn; auto]]. cbn [obind] in Efl. destruct (feq al br); [|discriminate].
      rewrite (polyeq_feq k ar bl) in Efl; [|eapply efrag_op; [exact Fa|cbn; auto]|eapply efrag_op; [exact Fb|cbn; auto]]. discriminate.
  Qed.
End Accepted.
(** ** Symmetry *)
Lemma term_eqb_sym a b : term_eqb a b = term_eqb b a.
Proof. destruct (term_eqb a b) eqn:E, (term_eqb b a) eqn:E'; try reflexivity; [apply term_eqb_eq in E|apply term_eqb_eq in E']; subst; rewrite term_eqb_rf in *; discriminate. Qed.
Lemma all2_sym {A} (f : A -> A -> bool) la : Forall (fun a => forall b, f a b = true -> f b a = true) la -> forall lb, List.length la = List.length lb -> all2 f la lb = true -> all2 f lb la = true.
Proof.
  induction 1 as [|a la Ha _ IH]; intros [|b lb] HL H; try discriminate; [reflexivity|]. injection HL as HL. cbn [all2] in *. apply andb_true_iff in H. destruct H as [H1 H2].
  rewrite (Ha b H1), (IH lb HL H2). reflexivity.
Qed.
Lemma feq_sym a : forall b, feq a b = true -> feq b a = true.
Proof.
  induction a using term_ind'; intros rhs Hab.
  all: match goal with H : feq ?a ?b = true |- feq ?b ?a = true => destruct (term_eqb a b) eqn:Et; [apply term_eqb_eq in Et; rewrite <- Et; apply feq_refl|] end.
  all: destruct rhs; cbn [feq] in Hab; rewrite Et in Hab; cbn [orb] in Hab; try discriminate.
  all: cbn [feq]; apply orb_true_iff; right.
  - rewrite !andb_true_iff in *. destruct Hab as [[H1 H2] H3]. apply Nat.eqb_eq in H2. repeat split; [auto|apply Nat.eqb_eq; auto|]. apply all2_sym; auto.
  - apply orb_true_iff in Hab. destruct Hab as [Hab|Hab].
    + apply orb_true_iff. left. rewrite !andb_true_iff in *. destruct Hab as [[H1 H2] H3]. apply Nat.eqb_eq in H2. apply op_eqb_eq in H1. repeat split; [apply op_eqb_eq; auto|apply Nat.eqb_eq; auto|]. apply all2_sym; auto.
    + apply orb_true_iff. right. destruct args as [|a1 [|a2 [|a3 la]]]; try discriminate. match goal with |- match ?l with _ => _ end = true => destruct l as [|b1 [|b2 [|b3 lb]]] end; try discriminate.
      rewrite !andb_true_iff in *. destruct Hab as [[[H1 H2] H3] H4]. apply Forall_cons_iff in H. destruct H as [F1 H]. apply Forall_cons_iff in H. destruct H as [F2 _]. auto.
  - rewrite !andb_true_iff in *. destruct Hab as [[H1 H2] H3]. repeat split; auto; [destruct b, b0; auto|]. apply list_eqb_sv in H2. subst. rewrite list_eqb_eq by apply svar_eqb_eq. reflexivity.
  - rewrite !andb_true_iff in *. destruct Hab as [[H1 H2] H3]. apply Nat.eqb_eq in H1. repeat split; [apply Nat.eqb_eq; auto| |auto]. apply all2_sym; auto.
    apply Forall_forall. intros x Hx y Hxy. rewrite Forall_forall in H. rewrite andb_true_iff in *. destruct Hxy as [X1 X2]. split; [apply String.eqb_eq in X1; apply String.eqb_eq; auto|]. apply H; auto.
  - rewrite !andb_true_iff in *. destruct Hab as [[[H1 H2] H3] H4]. apply Nat.eqb_eq in H3. repeat split; [| |apply Nat.eqb_eq; auto|apply all2_sym; auto].
    + match goal with H : pop_beq ?x ?y = true |- _ => destruct x, y; try discriminate; reflexivity end.
    + rewrite list_eqb_eq in * by apply term_eqb_eq. auto.
Qed.

(** ** Assumptions *)
Section Assume.
  Variable other : bool -> string -> crule.
  Variable seen : nat -> term -> term -> bool.
  Variable k : bool.
  Notation accepted := (accepted other).
  Theorem pelab_ok d a b : efrag k a = true -> efrag k b = true -> polyeq a b = ROk true ->
    exists n, pelab seen d a b = ROk n /\ eclause n = [tEq a b] /\ eprems n = [] /\ forall cx, accepted cx n.
  Proof.
    intros Ha Hb H. rewrite (polyeq_feq k) in H by auto. injection H as H. apply (pelab_fuel_ok other seen k); auto.
  Qed.
  Lemma equiv1_ok cx p t n : eclause n = [tEq p t] -> accepted cx n -> accepted cx (EStep [tNot p; t] "equiv1" [n] []).
  Proof.
    intros E H. apply accepted_step. split; [|constructor; [exact H|constructor]]. apply (run_plain other "equiv1" r_equiv1); [cbn; tauto|]. cbn [ra_concl ra_prems ra_args map]. rewrite E.
    vm_compute r_equiv1. cbn. rewrite ?term_eqb_rf. reflexivity.
  Qed.
  Lemma cut_ok cx p t n m : eclause n = [p] -> eclause m = [tNot p; t] -> accepted cx n -> accepted cx m -> accepted cx (EStep [t] "resolution" [n; m] [p; tTrue]).
  Proof.
    intros En Em Hn Hm. apply accepted_step. split; [|repeat constructor; auto]. apply (run_plain other "resolution" r_resolution_with_args); [cbn; tauto|]. cbn [ra_concl ra_prems ra_args map]. rewrite En, Em.
    apply resolution_with_args_exact. exists [p], [tNot p; t], [], [(remove_all_negations p, true)]. split; [reflexivity|]. split; [repeat constructor|]. split; [reflexivity|]. cbn [combine].
    apply (Chain_cons _ _ _ _ (lits [t])); [|constructor; intros x; tauto].
    split; [left; reflexivity|]. exists [], (lits [t]). split; [|split; [intros []|]].
    - cbn [lits map app]. f_equal. change (remove_all_negations (tNot p)) with (let (n, u) := remove_all_negations p in (S n, u)). unfold neg_lit. destruct (remove_all_negations p); reflexivity.
    - intros x. cbn [In lits map]. split; [tauto|]. intros [[[H|[]] Hx]|[[]|H]]; [congruence|exact H].
  Qed.
  (** assumptions are also compared with [mod_nary]; the fragment has no n-ary applications of the operators this concerns *)
  Definition afrag (t : term) : bool := efrag k t && frag true k t.
  Lemma assume_feq a b : afrag a = true -> afrag b = true -> assume_eq a b = ROk (feq a b).
  Proof. intros Ha Hb. apply andb_true_iff in Ha, Hb. apply (peq_feq cfg_assume k); [reflexivity|reflexivity|apply Ha|apply Hb]. Qed.
  Theorem elab_assume_ok prems d t : forallb afrag prems = true -> afrag t = true -> (exists p, In p prems /\ assume_eq t p = ROk true) ->
    exists n p, elab_assume seen prems d t = ROk n /\ eclause n = [t] /\ In p prems /\ eprems n = [[p]] /\ forall cx, accepted cx n.
  Proof.
    intros Hp Ht Hex. rewrite forallb_forall in Hp.
    assert (Hf : exists p, find_premise t prems = ROk p /\ In p prems /\ feq t p = true).
    { induction prems as [|q r IH]; [destruct Hex as (p & [] & _)|]. cbn [find_premise]. rewrite (assume_feq t q) by (auto; apply Hp; left; reflexivity). cbn [obind]. destruct (feq t q) eqn:E.
      - exists q. split; [reflexivity|]. split; [left; reflexivity|exact E].
      - destruct IH as (p & P1 & P2 & P3).
        + intros x Hx. apply Hp. right. exact Hx.
        + destruct Hex as (p & [<-|Hin] & Hx); [|exists p; auto]. rewrite (assume_feq t q) in Hx by (auto; apply Hp; left; reflexivity). congruence.
        + exists p. split; [exact P1|]. split; [right; exact P2|exact P3]. }
    destruct Hf as (p & Hf & Hin & E). apply feq_sym in E. pose proof (Hp p Hin) as Fp. apply andb_true_iff in Fp, Ht. unfold elab_assume. rewrite Hf. cbn [obind].
    destruct (pelab_fuel_ok other seen k (S (tsize p + tsize t)) d p t) as (n & N1 & N2 & N0 & N3); [lia|apply Fp|apply Ht|exact E|]. unfold pelab. rewrite N1. cbn [obind]. eexists. exists p. split; [reflexivity|]. split; [reflexivity|].
    split; [exact Hin|]. split; [cbn [eprems flat_map]; rewrite N0; reflexivity|]. intros cx. apply cut_ok; auto; [constructor|]. apply equiv1_ok; auto.
  Qed.
End Assume.
