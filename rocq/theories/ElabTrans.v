(** Elaborating accepted eq_transitive steps. *)
From Coq Require Import List String ZArith Bool Arith Lia Permutation.
From Verif Require Import Base Term Sem Rules R_Taut R_Claus R_Eq R_Resolution R_Extras R_ResExact Utils Checker R_Binder R_Simp Table Elab ElabSound ElabCong ElabFlip.
Import ListNotations.
Open Scope string_scope.
Local Open Scope nat_scope.
Local Open Scope list_scope.

(** [(not (= t u))] *)
Definition nl (p : term * term) : term := tNot (tEq (fst p) (snd p)).
Lemma lits_nl qs : lits (map nl qs) = map nelit qs.
Proof. unfold lits. rewrite map_map. apply map_ext. intros p. apply lit_ne. Qed.
Lemma lits_app a b : lits (a ++ b) = lits a ++ lits b.
Proof. apply map_app. Qed.
Lemma not_eq_nl p : not_eq (nl p) = ROk p.
Proof. destruct p. reflexivity. Qed.
Lemma not_eq_ok t p : not_eq t = ROk p -> t = nl p.
Proof. intros H. unfold not_eq in H. apply obind_ok in H. destruct H as [x [H1 H2]]. apply rm_neg_ok in H1. apply m_op2_ok in H2. subst. reflexivity. Qed.
Lemma omap_nl qs : omap not_eq (map nl qs) = ROk qs.
Proof. induction qs as [|p qs IH]; [reflexivity|]. cbn [map omap]. rewrite not_eq_nl. cbn [obind]. rewrite IH. reflexivity. Qed.
Lemma omap_nl_inv l qs : omap not_eq l = ROk qs -> l = map nl qs.
Proof.
  intros H. apply omap_ok in H. induction H as [|t p l qs Hp H IH]; [reflexivity|]. cbn [map]. f_equal; [|exact IH]. apply not_eq_ok, Hp.
Qed.
Lemma firstn_last {A} (l : list A) x : firstn (List.length (l ++ [x]) - 1) (l ++ [x]) = l.
Proof. rewrite app_length. cbn. replace (List.length l + 1 - 1) with (List.length l) by lia. rewrite firstn_app, Nat.sub_diag, firstn_all. cbn. apply app_nil_r. Qed.
Lemma nth_last {A} (l : list A) x : nth_error (l ++ [x]) (List.length (l ++ [x]) - 1) = Some x.
Proof. rewrite app_length. cbn. replace (List.length l + 1 - 1) with (List.length l) by lia. rewrite nth_error_app2, Nat.sub_diag by lia. reflexivity. Qed.
Lemma eq_transitive_iff qs a b ps args : r_eq_transitive (map nl qs ++ [tEq a b]) ps args = ROk tt <-> 2 <= List.length qs /\ find_chain (List.length qs) a b qs = ROk tt.
Proof.
  unfold r_eq_transitive. rewrite firstn_last, nth_last, omap_nl. cbn [unwrap obind]. rewrite m_op2_eq. cbn [obind fst snd]. unfold len_ge. rewrite app_length, map_length. cbn [List.length].
  destruct (3 <=? List.length qs + 1) eqn:E.
  - apply Nat.leb_le in E. cbn [rassert obind]. split; [intros H; split; [lia|exact H]|tauto].
  - apply Nat.leb_gt in E. cbn [rassert obind]. split; [discriminate|lia].
Qed.
Lemma linked_neq {X} (l : list (((term * term) * X) * bool)) : forall a b p x, linked a b l -> In (p, x, true) l -> fst p <> snd p.
Proof.
  induction l as [|[[[t u] y] fl] l IH]; intros a b p x H Hin; [destruct Hin|]. cbn [linked] in H. destruct H as [_ H]. destruct Hin as [E|Hin].
  - injection E as <- <- ->. destruct H as (-> & H & _). exact H.
  - destruct fl; [destruct H as (_ & _ & H)|destruct H as (_ & H)]; eapply IH; eauto.
Qed.
Lemma filter_split {A} (f : A -> bool) l : Permutation l (filter (fun x => negb (f x)) l ++ filter f l).
Proof.
  induction l as [|x l IH]; [constructor|]. cbn [filter]. destruct (f x); cbn [negb].
  - apply Permutation_cons_app. exact IH.
  - cbn. constructor. exact IH.
Qed.
Lemma map_fst_combine {A B} (f : A -> B) l : combine l (map f l) = map (fun x => (x, f x)) l.
Proof. induction l as [|x l IH]; [reflexivity|]. cbn. rewrite IH. reflexivity. Qed.

Section EqTrans.
  Variable other : bool -> string -> crule.
  Notation accepted := (accepted other).
  Notation item := (((term * term) * term) * bool)%type.
  Definition orig_pair (e : item) : term * term := fst (fst e).
  Lemma flip_premises_ok cx (ch : list item) qs rest a b n0 :
    (forall e, In e ch -> snd (fst e) = nl (orig_pair e)) -> NoDup qs -> (forall p, In p qs -> In (swap_pair p) qs -> fst p = snd p) ->
    Permutation qs (map orig_pair ch ++ rest) -> (forall e, In e ch -> snd e = true -> fst (orig_pair e) <> snd (orig_pair e)) ->
    eclause n0 = map nl (map fixed_pair ch) ++ [tEq a b] -> accepted cx n0 -> forallb (fun e => negb (snd e)) ch = false ->
    let n := flip_premises (map (fun e => (fixed_pair e, snd e)) ch) (tEq a b) n0 in
    accepted cx n /\ Permutation (eclause n) (map nl (map orig_pair ch) ++ [tEq a b]).
  Proof.
    intros Hform HN Htw HP Hneq Hcl Hacc Hsome n.
    set (NF := filter (fun e : item => negb (snd e)) ch). set (FL := filter (fun e : item => snd e) ch).
    set (F := map fixed_pair FL).
    assert (HNF : map fst (filter (fun e => negb (snd e)) (map (fun e : item => (fixed_pair e, snd e)) ch)) = map orig_pair NF).
    { unfold NF. clear. induction ch as [|[[p x] fl] ch IH]; [reflexivity|]. cbn [map filter snd]. destruct fl; cbn [negb map fst]; [exact IH|]. f_equal. exact IH. }
    assert (HFL : map fst (filter snd (map (fun e : item => (fixed_pair e, snd e)) ch)) = F).
    { unfold F, FL. clear. induction ch as [|[[p x] fl] ch IH]; [reflexivity|]. cbn [map filter snd]. destruct fl; cbn [map fst]; [f_equal|]; exact IH. }
    assert (Hn : n = EStep ((map nl (map orig_pair NF) ++ [tEq a b]) ++ map (fun p => nl (swap_pair p)) F) "resolution"
                   (n0 :: map (fun p => fst (fst (flip_step p))) F) (flat_map (fun p => [tEq (fst p) (snd p); tFalse]) F)).
    { unfold n, flip_premises. rewrite <- HNF, <- HFL. f_equal.
      - f_equal; [rewrite map_map; reflexivity|]. rewrite !map_map. apply map_ext. intros [[x y] fl]. reflexivity.
      - f_equal. rewrite !map_map. reflexivity.
      - clear. generalize (filter snd (map (fun e : item => (fixed_pair e, snd e)) ch)). induction l as [|[[x y] fl] l IH]; [reflexivity|]. cbn [map flat_map]. rewrite IH. reflexivity. }
    assert (HFo : F = map (fun e => swap_pair (orig_pair e)) FL).
    { unfold F. apply map_ext_in. intros e He. unfold FL in He. apply filter_In in He. destruct He as [_ He]. unfold fixed_pair. rewrite He. reflexivity. }
    assert (Hsplit : Permutation ch (NF ++ FL)) by apply filter_split.
    assert (Hqs : forall e, In e ch -> In (orig_pair e) qs).
    { intros e He. eapply Permutation_in; [symmetry; exact HP|]. apply in_or_app. left. apply in_map, He. }
    assert (HNo : NoDup (map orig_pair ch)).
    { pose proof (Permutation_NoDup HP HN) as H. clear - H. induction (map orig_pair ch) as [|x l IH]; [constructor|]. cbn in H. apply NoDup_cons_iff in H. destruct H as [H1 H2].
      constructor; [|auto]. intros Hx. apply H1. apply in_or_app. auto. }
    assert (HFin : forall p, In p F -> exists e, In e ch /\ snd e = true /\ p = swap_pair (orig_pair e)).
    { intros p Hp. rewrite HFo in Hp. apply in_map_iff in Hp. destruct Hp as [e [<- He]]. unfold FL in He. apply filter_In in He. exists e. tauto. }
    rewrite Hn. split.
    - apply resolution_flips; auto.
      + intros [x y]. left. reflexivity.
      + intros p. apply equiv2_flip_ok.
      + rewrite HFo. intros E. apply map_eq_nil in E. assert (Hf : forallb (fun e : item => negb (snd e)) ch = true).
        { apply forallb_forall. intros e He. destruct (snd e) eqn:Es; [|reflexivity]. exfalso. assert (In e FL) by (apply filter_In; auto). rewrite E in H. destruct H. }
        congruence.
      + rewrite HFo. apply (Permutation_map orig_pair) in Hsplit. apply (Permutation_NoDup Hsplit) in HNo. rewrite map_app in HNo.
        assert (HNFL : NoDup (map orig_pair FL)) by (clear - HNo; induction (map orig_pair NF) as [|x l IH]; [exact HNo|]; cbn in HNo; apply NoDup_cons_iff in HNo; tauto).
        rewrite <- map_map. clear - HNFL. induction HNFL as [|x l H1 H2 IH]; cbn; constructor; [|exact IH]. intros H. apply in_map_iff in H. destruct H as [y [E Hy]].
        apply (f_equal swap_pair) in E. rewrite !swap_swap in E. subst. contradiction.
      + intros p q Hp Hq E. destruct (HFin p Hp) as (e1 & He1 & Hs1 & ->). destruct (HFin q Hq) as (e2 & He2 & Hs2 & ->). rewrite swap_swap in E.
        apply (Hneq e1 He1 Hs1). apply Htw; [apply Hqs, He1|]. rewrite E. apply Hqs, He2.
      + intros p Hp. rewrite Hcl, lits_app, lits_nl. apply in_or_app. left. unfold F in Hp. apply in_map_iff in Hp. destruct Hp as [e [<- He]].
        apply filter_In in He. apply in_map, in_map. tauto.
      + assert (HdisjN : forall p, In p (map orig_pair NF) -> ~ In p F).
        { intros p Hp HpF. apply in_map_iff in Hp. destruct Hp as [e [<- He]]. unfold NF in He. apply filter_In in He. destruct He as [He _].
          destruct (HFin _ HpF) as (e2 & He2 & Hs2 & E). apply (Hneq e2 He2 Hs2). apply Htw; [apply Hqs, He2|]. rewrite <- E. apply Hqs, He. }
        assert (Hfx : forall y, In y (map nelit (map fixed_pair ch)) <-> In y (map nelit (map orig_pair NF)) \/ In y (map nelit F)).
        { intros y. assert (E : Permutation (map fixed_pair ch) (map orig_pair NF ++ F)).
          { rewrite Hsplit, map_app. apply Permutation_app; [|reflexivity]. replace (map orig_pair NF) with (map fixed_pair NF); [reflexivity|].
            apply map_ext_in. intros e He. unfold NF in He. apply filter_In in He. destruct He as [_ He]. unfold fixed_pair. destruct (snd e); [discriminate|reflexivity]. }
          rewrite <- in_app_iff, <- map_app. split; intros H; (eapply Permutation_in; [|exact H]); apply Permutation_map; [exact E|symmetry; exact E]. }
        intros y. rewrite Hcl, !lits_app, !lits_nl. rewrite <- (map_map swap_pair nl), <- (map_map swap_pair nelit), lits_nl. cbn [lits map]. rewrite !in_app_iff. cbn [In]. change (remove_all_negations (tEq a b)) with (eqlit (a, b)).
        rewrite Hfx. split.
        * intros [[H|[H|[]]]|H]; [left|left|right; exact H].
          -- split; [left; left; exact H|]. intros H2. apply in_map_iff in H. destruct H as [p [<- Hp]]. apply in_map_iff in H2. destruct H2 as [q [E Hq]].
             apply nelit_inj in E. subst. apply (HdisjN p); auto.
          -- split; [right; left; exact H|]. subst y. intros H2. apply in_map_iff in H2. destruct H2 as [q [E Hq]]. discriminate.
        * intros [[[[H|H]|[H|[]]] H2]|H]; [left; left; exact H|contradiction|left; right; left; exact H|right; exact H].
    - cbn [eclause]. rewrite <- map_map with (f := swap_pair) (g := nl).
      assert (E : map swap_pair F = map orig_pair FL).
      { rewrite HFo, map_map. apply map_ext. intros e. apply swap_swap. }
      rewrite E, (Permutation_app_comm (map nl (map orig_pair NF)) [tEq a b]), <- app_assoc, <- map_app, <- map_app, <- Hsplit. apply Permutation_app_comm.
  Qed.
  Theorem elab_eq_transitive_ok cx qs a b ps args : let c := map nl qs ++ [tEq a b] in
    r_eq_transitive c ps args = ROk tt -> NoDup qs -> (forall p, In p qs -> In (swap_pair p) qs -> fst p = snd p) ->
    a <> b -> ~ In (a, b) qs -> ~ In (b, a) qs ->
    exists n, elab_eq_transitive c args = ROk n /\ eclause n = c /\ accepted cx n.
  Proof.
    intros c Hr HN Htw Hab Hn1 Hn2. pose proof Hr as Hr0. apply eq_transitive_iff in Hr. destruct Hr as [Hlen Hch].
    assert (Hit : map fst (combine qs (map nl qs)) = qs) by (rewrite map_fst_combine, map_map, map_id; reflexivity).
    rewrite <- Hit in Hch. rewrite map_length, combine_length, map_length, Nat.min_id in Hch.
    destruct (trace_ok _ _ _ _ Hch) as (ch & rest & re & E1 & E2 & E3 & E4).
    unfold elab_eq_transitive. unfold c. rewrite nth_last, firstn_last, omap_nl.
    assert (E0 : (2 <? List.length (map nl qs ++ [tEq a b])) = true) by (apply Nat.ltb_lt; rewrite app_length, map_length; cbn; lia).
    rewrite E0. cbn [passert obind unwrap]. rewrite m_op2_eq. cbn [obind fst snd]. rewrite E1. cbn [obind fst snd].
    destruct (negb re && (List.length rest =? 0) && forallb (fun e : item => negb (snd e)) ch).
    - eexists. split; [reflexivity|]. split; [reflexivity|]. apply accepted_step. split; [|constructor]. apply (run_plain other "eq_transitive" r_eq_transitive); [cbn; tauto|].
      cbn [ra_concl ra_prems ra_args map]. apply eq_transitive_iff. apply eq_transitive_iff in Hr0. exact Hr0.
    - assert (Hform : forall e, In e (map fst ch ++ rest) -> snd e = nl (fst e)).
      { intros e He. apply (Permutation_in _ (Permutation_sym E2)) in He. rewrite map_fst_combine in He. apply in_map_iff in He. destruct He as [p [<- _]]. reflexivity. }
      assert (HP : Permutation qs (map orig_pair ch ++ map fst rest)).
      { rewrite <- Hit, E2, map_app, map_map. reflexivity. }
      set (n0 := EStep (map nl (map fixed_pair ch) ++ [tEq a b]) "eq_transitive" [] []).
      assert (Hn0 : accepted cx n0).
      { apply accepted_step. split; [|constructor]. apply (run_plain other "eq_transitive" r_eq_transitive); [cbn; tauto|].
        cbn [ra_concl ra_prems ra_args map]. apply eq_transitive_iff. split; [|apply linked_chain; [exact E3|rewrite map_length; auto]].
        rewrite map_length. assert (Hin : forall e, In e ch -> In (orig_pair e) qs).
        { intros e He. eapply Permutation_in; [symmetry; exact HP|]. apply in_or_app. left. apply in_map, He. }
        destruct ch as [|[[[t u] x] fl] [|e2 ch]]; [cbn in E3; contradiction| |cbn; lia]. exfalso. specialize (Hin _ (or_introl eq_refl)). cbn [orig_pair fst] in Hin.
        cbn [linked] in E3. destruct E3 as [_ E3]. destruct fl; [destruct E3 as (-> & _ & ->)|destruct E3 as (-> & ->)]; contradiction. }
      set (used := map (fun e : item => (if snd e then swap_pair (fst (fst e)) else fst (fst e), snd e)) ch).
      assert (Hused : used = map (fun e => (fixed_pair e, snd e)) ch) by reflexivity.
      replace (map (fun e : (term * term) * bool => tNot (tEq (fst (fst e)) (snd (fst e)))) used) with (map nl (map fixed_pair ch))
        by (rewrite Hused, !map_map; reflexivity). fold n0.
      assert (Hall : forallb (fun e : (term * term) * bool => negb (snd e)) used = forallb (fun e : item => negb (snd e)) ch).
      { rewrite Hused. clear. induction ch as [|e ch IH]; [reflexivity|]. cbn. rewrite IH. reflexivity. }
      set (latest := if forallb (fun e : (term * term) * bool => negb (snd e)) used then n0 else flip_premises used (tEq a b) n0).
      assert (HL : accepted cx latest /\ Permutation (eclause latest) (map nl (map orig_pair ch) ++ [tEq a b])).
      { unfold latest. rewrite Hall. destruct (forallb (fun e : item => negb (snd e)) ch) eqn:Ef.
        - split; [exact Hn0|]. cbn [n0 eclause]. replace (map fixed_pair ch) with (map orig_pair ch); [reflexivity|]. apply map_ext_in. intros e He.
          rewrite forallb_forall in Ef. apply Ef in He. unfold fixed_pair. destruct (snd e); [discriminate|reflexivity].
        - rewrite Hused. apply (flip_premises_ok cx ch qs (map fst rest) a b n0); auto.
          + intros e He. apply Hform. apply in_or_app. left. apply in_map, He.
          + intros [[p x] fl] He Hs. cbn in Hs. subst fl. eapply linked_neq; eauto. }
      destruct HL as [HLa HLp].
      set (latest2 := match rest with [] => latest | _ => EStep (eclause latest ++ map snd rest) "weakening" [latest] [] end).
      assert (H2 : accepted cx latest2 /\ Permutation c (eclause latest2)).
      { assert (Hc : Permutation c ((map nl (map orig_pair ch) ++ [tEq a b]) ++ map snd rest)).
        { unfold c. rewrite HP, map_app. replace (map nl (map fst rest)) with (map snd rest); [rewrite <- !app_assoc; apply Permutation_app_head, Permutation_app_comm|].
          rewrite map_map. apply map_ext_in. intros e He. apply Hform. apply in_or_app. right. exact He. }
        unfold latest2. destruct rest as [|r rest].
        - split; [exact HLa|]. rewrite Hc, HLp. cbn [map]. rewrite app_nil_r. reflexivity.
        - split; [|cbn [eclause]; rewrite Hc, HLp; reflexivity]. apply accepted_step. split; [|constructor; [exact HLa|constructor]].
          apply (run_plain other "weakening" r_weakening); [cbn; tauto|]. cbn [ra_concl ra_prems ra_args map]. apply weakening_ok. }
      destruct H2 as [H2a H2p]. eexists. split; [reflexivity|]. split; [reflexivity|]. apply accepted_step. split; [|constructor; [exact H2a|constructor]].
      apply (run_plain other "reordering" r_reordering); [cbn; tauto|]. cbn [ra_concl ra_prems ra_args map]. apply reordering_ok. exact H2p.
  Qed.
End EqTrans.
