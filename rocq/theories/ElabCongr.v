(** Elaborating accepted eq_congruent steps. *)
From Coq Require Import List String ZArith Bool Arith Lia Permutation.
From Verif Require Import Base Term Sem Rules R_Taut R_Claus R_Eq R_Resolution R_Extras R_ResExact Utils Checker R_Binder R_Simp Table DrupSound Elab ElabSound ElabCong ElabFlip ElabTrans.
Import ListNotations.
Open Scope string_scope.
Local Open Scope nat_scope.
Local Open Scope list_scope.

Lemma pair_eqb_eq p q : pair_eqb p q = true <-> p = q.
Proof.
  destruct p as [a b], q as [c d]. unfold pair_eqb. cbn [fst snd]. rewrite andb_true_iff, !term_eqb_eq. split; [intros [-> ->]; reflexivity|intros H; injection H; auto].
Qed.
(** the pairs of the arguments of two terms with the same head *)
Definition same_args (f g : term) : option (list (term * term)) :=
  match f, g with
  | TApp f a, TApp g b => if term_eqb f g && (List.length a =? List.length b) then Some (combine a b) else None
  | TOp f a, TOp g b => if op_eqb f g && (List.length a =? List.length b) then Some (combine a b) else None
  | _, _ => None
  end.
Lemma ofor_pairs ps ab : ofor (fun x => rassert (pair_is (fst x) (fst (snd x)) (snd (snd x)))) (combine ps ab) = ROk tt <->
  forall e, In e (combine ps ab) -> pair_is (fst e) (fst (snd e)) (snd (snd e)) = true.
Proof.
  revert ab. induction ps as [|p ps IH]; intros [|e ab]; try (cbn; split; [intros _ ? []|reflexivity]).
  cbn [combine ofor]. split.
  - intros H. apply obind_ok in H. destruct H as [[] [H1 H2]]. apply rassert_ok in H1. intros x [<-|Hx]; [exact H1|]. apply (IH ab); auto.
  - intros H. rewrite (H (p, e)) by (left; reflexivity). cbn [rassert obind]. apply IH. intros x Hx. apply H. right. exact Hx.
Qed.
Lemma generic_iff ps f g : generic_congruent ps f g = ROk tt <->
  exists ab, same_args f g = Some ab /\ List.length ps = List.length ab /\ forall e, In e (combine ps ab) -> pair_is (fst e) (fst (snd e)) (snd (snd e)) = true.
Proof.
  unfold generic_congruent, same_args.
  assert (G : forall (h : bool) a b, (do fg <- (rassert h ;; ROk (a, b)) ; rassert (Nat.eqb (List.length (fst fg)) (List.length (snd fg))) ;;
    rassert (Nat.leb (List.length ps) (List.length (fst fg))) ;; rassert (Nat.eqb (List.length ps) (List.length (fst fg))) ;;
    ofor (fun x => rassert (pair_is (fst x) (fst (snd x)) (snd (snd x)))) (combine ps (combine (fst fg) (snd fg)))) = ROk tt <->
    exists ab, (if h && (List.length a =? List.length b) then Some (combine a b) else None) = Some ab /\ List.length ps = List.length ab /\
      forall e, In e (combine ps ab) -> pair_is (fst e) (fst (snd e)) (snd (snd e)) = true).
  { intros h a b. destruct h; cbn [rassert obind fst snd andb]; [|split; [discriminate|intros (ab & H & _); discriminate]].
    destruct (List.length a =? List.length b) eqn:E1; cbn [rassert obind]; [|split; [discriminate|intros (ab & H & _); discriminate]].
    apply Nat.eqb_eq in E1. assert (E2 : List.length (combine a b) = List.length a) by (rewrite combine_length; lia).
    destruct (List.length ps <=? List.length a) eqn:E3; cbn [rassert obind]; [|split; [discriminate|intros (ab & H & HL & _); injection H as <-; apply Nat.leb_gt in E3; lia]].
    destruct (List.length ps =? List.length a) eqn:E4; cbn [rassert obind]; [|split; [discriminate|intros (ab & H & HL & _); injection H as <-; apply Nat.eqb_neq in E4; lia]].
    apply Nat.eqb_eq in E4. rewrite ofor_pairs. split; [intros H; exists (combine a b); rewrite E2; auto|intros (ab & H & _ & H2); injection H as <-; exact H2]. }
  destruct f as [| |f fl|f fl| | | |f fo fl], g as [| |g gl|g gl| | | |g go gl];
    try (split; [discriminate|intros (ab & H & _); discriminate]); apply G.
Qed.
Lemma same_args_term f g ab : same_args f g = Some ab -> exists a b, term_args f = ROk a /\ term_args g = ROk b /\ ab = combine a b /\ List.length a = List.length b.
Proof.
  intros H. destruct f as [| |f fl|f fl| | | |f fo fl], g as [| |g gl|g gl| | | |g go gl]; try discriminate; cbn [same_args] in H.
  - destruct (term_eqb f g && (List.length fl =? List.length gl)) eqn:E; [|discriminate]. injection H as <-. apply andb_true_iff in E. destruct E as [_ E]. apply Nat.eqb_eq in E. exists fl, gl. auto.
  - destruct (op_eqb f g && (List.length fl =? List.length gl)) eqn:E; [|discriminate]. injection H as <-. apply andb_true_iff in E. destruct E as [_ E]. apply Nat.eqb_eq in E. exists fl, gl. auto.
Qed.
Lemma cong_f_total qs : forall a b, List.length qs = List.length a -> List.length a = List.length b ->
  (forall e, In e (combine qs (combine a b)) -> pair_is (fst e) (fst (snd e)) (snd (snd e)) = true) ->
  exists fl, check_cong_f qs a b = Some fl /\ List.length fl = List.length qs /\ (forall p, In (p, true) (combine qs fl) -> fst p <> snd p).
Proof.
  induction qs as [|[t u] qs IH]; intros [|x a] [|y b] HL1 HL2 H; try discriminate.
  - exists []. repeat split. intros p [].
  - destruct (IH a b) as (fl & E1 & E2 & E3); [cbn in *; lia|cbn in *; lia|intros e He; apply H; right; exact He|].
    specialize (H ((t, u), (x, y)) (or_introl eq_refl)). unfold pair_is in H. cbn [fst snd] in H. cbn [check_cong_f]. rewrite E1. cbn [option_map].
    destruct (term_eqb x t && term_eqb y u) eqn:Es.
    + exists (false :: fl). cbn [List.length combine]. repeat split; [lia|]. intros p [Hp|Hp]; [discriminate|auto].
    + cbn [orb] in H. rewrite H. exists (true :: fl). cbn [List.length combine]. repeat split; [lia|]. intros p [Hp|Hp]; [|auto]. injection Hp as <-. cbn [fst snd].
      intros ->. congruence.
Qed.
Lemma combine_in_l {A B} (l : list A) (r : list B) x : List.length r = List.length l -> In x l -> exists y, In (x, y) (combine l r).
Proof.
  revert r. induction l as [|a l IH]; intros [|b r] HL H; try discriminate; [destruct H|]. destruct H as [->|H]; [exists b; left; reflexivity|].
  destruct (IH r) as [y Hy]; [cbn in HL; lia|exact H|]. exists y. right. exact Hy.
Qed.
Lemma combine_app_ {A B} (l1 l2 : list A) (r1 r2 : list B) : List.length l1 = List.length r1 -> combine (l1 ++ l2) (r1 ++ r2) = combine l1 r1 ++ combine l2 r2.
Proof. revert r1. induction l1 as [|a l1 IH]; intros [|b r1] H; try discriminate; [reflexivity|]. cbn. f_equal. apply IH. cbn in H. lia. Qed.

Section EqCong.
  Variable other : bool -> string -> crule.
  Notation accepted := (accepted other).
  Lemma eq_congruent_iff qs x y ps args : r_eq_congruent (map nl qs ++ [tEq x y]) ps args = ROk tt <-> 1 <= List.length qs /\ generic_congruent qs x y = ROk tt.
  Proof.
    unfold r_eq_congruent. rewrite firstn_last, nth_last, omap_nl. cbn [unwrap obind]. rewrite m_op2_eq. cbn [obind fst snd]. unfold len_ge. rewrite app_length, map_length. cbn [List.length].
    destruct (2 <=? List.length qs + 1) eqn:E.
    - apply Nat.leb_le in E. cbn [rassert obind]. split; [intros H; split; [lia|exact H]|tauto].
    - apply Nat.leb_gt in E. cbn [rassert obind]. split; [discriminate|lia].
  Qed.
  Lemma sym_step_ok cx p : accepted cx (fst (sym_step p)).
  Proof.
    destruct p as [a b]. cbn [sym_step fst]. apply accepted_step. split; [|constructor; [apply eq_symm_ok|constructor]].
    apply (run_plain other "equiv1" r_equiv1); [cbn; tauto|]. cbn [ra_concl ra_prems ra_args map eclause]. vm_compute r_equiv1. cbn. rewrite ?term_eqb_rf. reflexivity.
  Qed.
  Theorem elab_eq_congruent_ok cx qs x y ps args : let c := map nl qs ++ [tEq x y] in
    r_eq_congruent c ps args = ROk tt -> (forall p, In p qs -> In (swap_pair p) qs -> fst p = snd p) ->
    exists n, elab_eq_congruent c args = ROk n /\ eclause n = c /\ accepted cx n.
  Proof.
    intros c Hr Htw. pose proof Hr as Hr0. apply eq_congruent_iff in Hr. destruct Hr as [Hlen Hg]. apply generic_iff in Hg. destruct Hg as (ab & Hab & HL & Hpair).
    destruct (same_args_term _ _ _ Hab) as (fa & ga & Hf & Hga & -> & HLab).
    assert (Hcl : List.length (combine fa ga) = List.length fa) by (rewrite combine_length; lia).
    destruct (cong_f_total qs fa ga) as (fl & E1 & E2 & E3); [lia|exact HLab|exact Hpair|].
    unfold elab_eq_congruent. unfold c. rewrite firstn_last, nth_last.
    assert (E0 : (2 <=? List.length (map nl qs ++ [tEq x y])) = true) by (apply Nat.leb_le; rewrite app_length, map_length; cbn; lia).
    rewrite E0. cbn [passert obind].
    assert (Eo : omap (fun t => unwrap match remove_negation t with Some z => op2 OEquals z | None => None end) (map nl qs) = ROk qs).
    { clear. induction qs as [|[t u] qs IH]; [reflexivity|]. cbn [map omap]. rewrite IH. reflexivity. }
    rewrite Eo. cbn [obind unwrap]. rewrite m_op2_eq. cbn [obind fst snd]. rewrite Hf. cbn [obind]. rewrite Hga. cbn [obind]. rewrite E1.
    destruct (existsb (fun b => b) fl) eqn:Eb; cbn [negb].
    2:{ eexists. split; [reflexivity|]. split; [reflexivity|]. apply accepted_step. split; [|constructor]. apply (run_plain other "eq_congruent" r_eq_congruent); [cbn; tauto|].
        cbn [ra_concl ra_prems ra_args map]. apply eq_congruent_iff. apply eq_congruent_iff in Hr0. exact Hr0. }
    fold c. set (fx := map fixp (combine qs fl)).
    assert (Efx : map (fun e : (term * term) * bool => tNot (tEq (fst (if snd e then swap_pair (fst e) else fst e)) (snd (if snd e then swap_pair (fst e) else fst e)))) (combine qs fl) ++ [tEq x y] = map nl fx ++ [tEq x y]).
    { f_equal. unfold fx. rewrite map_map. reflexivity. }
    rewrite Efx. set (fixed := map nl fx ++ [tEq x y]). set (contracted := Utils.dedup term_eqb fixed).
    set (s1 := EStep fixed "eq_congruent" [] []).
    set (s2 := if List.length contracted =? List.length fixed then s1 else EStep contracted "contraction" [s1] []).
    set (flips := set_of pair_eqb (map fst (filter snd (combine qs fl)))). set (syms := map sym_step flips).
    set (rc := Utils.dedup term_eqb (map fst (filter (fun e : term * bool => negb (snd e)) (combine c (fl ++ [false]))) ++ map fst (filter snd (combine c (fl ++ [false]))))).
    set (s3 := EStep rc "resolution" (s2 :: map fst syms) (flat_map (fun s : enode * term => [snd s; tFalse]) syms)).
    assert (Hs1 : accepted cx s1).
    { apply accepted_step. split; [|constructor]. apply (run_plain other "eq_congruent" r_eq_congruent); [cbn; tauto|]. cbn [ra_concl ra_prems ra_args map]. apply eq_congruent_iff.
      assert (HLf : List.length fx = List.length qs) by (unfold fx; rewrite map_length, combine_length; lia). split; [lia|]. apply generic_iff. exists (combine fa ga). split; [exact Hab|]. split; [lia|].
      unfold fx. clear - E2 HL Hpair. revert fl E2 HL Hpair. generalize (combine fa ga). induction qs as [|p qs IH]; intros [|e l] [|b fl] E2 HL Hp; try discriminate; [intros ? []|].
      cbn [combine map]. intros z [<-|Hz].
      - cbn [fst snd]. specialize (Hp (p, e) (or_introl eq_refl)). cbn [fst snd] in Hp. unfold fixp. cbn [fst snd]. destruct b; [rewrite pair_is_swap|]; exact Hp.
      - apply (IH l fl); [cbn in E2; lia|cbn in HL; lia| |exact Hz]. intros w Hw. apply Hp. right. exact Hw. }
    assert (Hs2 : accepted cx s2 /\ forall z, In z (lits (eclause s2)) <-> In z (lits fixed)).
    { unfold s2. destruct (List.length contracted =? List.length fixed); [split; [exact Hs1|reflexivity]|]. split.
      - apply accepted_step. split; [|constructor; [exact Hs1|constructor]]. apply (run_plain other "contraction" r_contraction); [cbn; tauto|]. apply contraction_ok.
      - intros z. cbn [eclause]. unfold lits. rewrite !in_map_iff. split; intros [w [Ew Hw]]; exists w; split; auto; apply (Utils.dedup_In term_eqb term_eqb_eq); exact Hw. }
    destruct Hs2 as [Hs2 Hs2l].
    assert (Hfl : forall p, In p flips <-> In (p, true) (combine qs fl)).
    { intros p. unfold flips. rewrite (set_of_In pair_eqb pair_eqb_eq), in_map_iff. split.
      - intros [[q b] [<- H]]. apply filter_In in H. destruct H as [H Hb]. cbn in Hb. subst b. exact H.
      - intros H. exists (p, true). split; [reflexivity|]. apply filter_In. auto. }
    assert (Hflq : forall p, In p flips -> In p qs) by (intros p Hp; apply Hfl in Hp; apply in_combine_l in Hp; exact Hp).
    assert (Hfln : forall p, In p flips -> fst p <> snd p) by (intros p Hp; apply Hfl in Hp; auto).
    set (F := map swap_pair flips).
    assert (HF : forall p, In p F <-> In (swap_pair p) flips).
    { intros p. unfold F. rewrite in_map_iff. split; [intros [q [<- Hq]]; rewrite swap_swap; exact Hq|intros H; exists (swap_pair p); rewrite swap_swap; auto]. }
    assert (Hrc : forall t, In t rc <-> In t c).
    { intros t. unfold rc. rewrite (Utils.dedup_In term_eqb term_eqb_eq), in_app_iff, !in_map_iff.
      assert (HLc : List.length (fl ++ [false]) = List.length c) by (unfold c; rewrite !app_length, map_length; cbn; lia). split.
      - intros [[[z b] [<- H]]|[[z b] [<- H]]]; apply filter_In in H; destruct H as [H _]; apply in_combine_l in H; exact H.
      - intros H. destruct (combine_in_l c (fl ++ [false]) t HLc H) as [b Hb]. destruct b; [right|left]; eexists; (split; [|apply filter_In; split; [exact Hb|reflexivity]]); reflexivity. }
    assert (Hs3 : accepted cx s3).
    { assert (Ea : s3 = EStep rc "resolution" (s2 :: map (fun p => fst (sym_step (swap_pair p))) F) (flat_map (fun p => [tEq (fst p) (snd p); tFalse]) F)).
      { unfold s3, syms, F. rewrite !map_map. f_equal.
        - f_equal. apply map_ext. intros p. rewrite swap_swap. reflexivity.
        - clear. induction flips as [|[t u] l IH]; [reflexivity|]. cbn [map flat_map]. rewrite IH. reflexivity. }
      rewrite Ea. apply resolution_flips; [| |exact Hs2| | | | |].
      - intros [t u]. right. reflexivity.
      - intros p. apply sym_step_ok.
      - intros E. apply existsb_exists in Eb. destruct Eb as [b [Hb ->]]. assert (exists p, In (p, true) (combine qs fl)) as [p Hp].
        { clear - E2 Hb. revert qs E2. induction fl as [|b fl IH]; intros [|q qs] E2; try discriminate; [destruct Hb|]. destruct Hb as [->|Hb]; [exists q; left; reflexivity|].
          destruct (IH Hb qs) as [p Hp]; [cbn in E2; lia|]. exists p. right. exact Hp. }
        apply Hfl in Hp. unfold F in E. apply map_eq_nil in E. rewrite E in Hp. destruct Hp.
      - assert (HN : NoDup flips) by apply (set_of_NoDup pair_eqb pair_eqb_eq). unfold F. clear - HN. induction HN as [|p l H1 H2 IH]; cbn; constructor; [|exact IH]. intros H.
        apply in_map_iff in H. destruct H as [q [E Hq]]. apply (f_equal swap_pair) in E. rewrite !swap_swap in E. subst. contradiction.
      - intros p q Hp Hq E. apply HF in Hp. apply HF in Hq. apply (Hfln _ Hp). apply Htw; [apply Hflq, Hp|]. rewrite swap_swap, E. apply Hflq, Hq.
      - intros p Hp. apply HF in Hp. apply Hs2l. unfold fixed. rewrite lits_app, lits_nl. apply in_or_app. left. apply in_map. unfold fx. apply in_map_iff. exists (swap_pair p, true).
        split; [apply swap_swap|]. apply Hfl, Hp.
      - intros z. rewrite Hs2l. assert (Hz : In z (lits rc) <-> In z (lits c)).
        { unfold lits. rewrite !in_map_iff. split; intros [w [Ew Hw]]; exists w; split; auto; apply Hrc; exact Hw. }
        rewrite Hz. unfold c, fixed. rewrite !lits_app, !lits_nl, !in_app_iff. cbn [lits map In]. change (remove_all_negations (tEq x y)) with (eqlit (x, y)).
        assert (EF : map (fun p => nelit (swap_pair p)) F = map nelit flips) by (unfold F; rewrite map_map; apply map_ext; intros p; rewrite swap_swap; reflexivity).
        rewrite EF. split.
        + intros [H|[<-|[]]].
          * apply in_map_iff in H. destruct H as [p [<- Hp]]. destruct (combine_in_l qs fl p E2 Hp) as [b Hb]. destruct b; [right; apply in_map, Hfl, Hb|].
            left. split; [left; apply in_map; unfold fx; apply in_map_iff; exists (p, false); auto|]. intros H. apply in_map_iff in H. destruct H as [q [E Hq]]. apply nelit_inj in E. subst q.
            apply HF in Hq. apply (Hfln _ Hq). assert (Ep : fst p = snd p) by (apply Htw; [exact Hp|apply Hflq, Hq]). destruct p. cbn in *. congruence.
          * left. split; [right; left; reflexivity|]. intros H. apply in_map_iff in H. destruct H as [q [E _]]. discriminate.
        + intros [[[H|[H|[]]] H2]|H]; [left|right; left; exact H|left].
          * apply in_map_iff in H. destruct H as [p [<- Hp]]. unfold fx in Hp. apply in_map_iff in Hp. destruct Hp as [[q b] [<- Hq]]. unfold fixp in *. cbn [fst snd] in *. destruct b.
            -- exfalso. apply H2. apply in_map. apply HF. rewrite swap_swap. apply Hfl, Hq.
            -- apply in_map. apply in_combine_l in Hq. exact Hq.
          * apply in_map_iff in H. destruct H as [p [<- Hp]]. apply in_map, Hflq, Hp. }
    assert (HrcN : NoDup rc) by apply (Utils.dedup_NoDup term_eqb term_eqb_eq).
    assert (Hfin : forall n4, accepted cx n4 -> Permutation c (eclause n4) -> accepted cx (EStep c "reordering" [n4] [])).
    { intros n4 H4 HP. apply accepted_step. split; [|constructor; [exact H4|constructor]]. apply (run_plain other "reordering" r_reordering); [cbn; tauto|]. apply reordering_ok. exact HP. }
    destruct (List.length c =? List.length rc) eqn:El.
    - apply Nat.eqb_eq in El. cbn [obind]. eexists. split; [reflexivity|]. split; [reflexivity|]. apply Hfin; [exact Hs3|]. cbn [s3 eclause]. symmetry. apply NoDup_Permutation_bis; [exact HrcN|lia|].
      intros t Ht. apply Hrc, Ht.
    - destruct (weakened_ok rc c) as (w & Ew & HPw); [apply incl_occ; [exact HrcN|intros t Ht; apply Hrc, Ht]|]. rewrite Ew. cbn [obind]. eexists. split; [reflexivity|]. split; [reflexivity|].
      apply Hfin; [|exact HPw]. apply accepted_step. split; [|constructor; [exact Hs3|constructor]]. apply (run_plain other "weakening" r_weakening); [cbn; tauto|]. apply weakening_ok.
  Qed.
End EqCong.
