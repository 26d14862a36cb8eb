(** The loop of slice.rs that copies the commands to keep. *)
From Coq Require Import List String ZArith Bool Arith Lia.
From Verif Require Import Base Term Rules Utils Checker CheckerSound Parser ParserSound Nodes Slice SliceSound.
Import ListNotations.

Section Copy.
  Variables (keep : kmap) (edges : emap) (target : string).
  Hypothesis Ht : kget keep target = Some true.
  Definition kept (i : string) : Prop := kget keep i <> None.
  (** a step to keep with its premises: these are in the map and kept *)
  Definition stepH (x : place) : Prop :=
    let '(s, (e, sc)) := x in kget keep (s_id s) = Some true ->
      exists es ps, sget edges (s_id s) = Some es /\ mapo (ref_name sc) (s_prems s) = Some ps /\ map fst (filter is_premise es) = ps /\ Forall kept ps.
  (** of a subproof to keep the assumptions are kept, of another one nothing inside *)
  Definition subH (cs : list command) : Prop := forall i, subid cs = Some i ->
    (kget keep i = Some true -> Forall kept (lead_ids cs)) /\ (kget keep i <> Some true -> forall j, In j (inner cs) -> kget keep j = None).
  Definition J (scs oscs : list (list command)) (idx : list (string * (nat * nat))) : Prop :=
    forall i, In i (vis scs) -> kept i -> exists p, sget idx i = Some p /\ ref_name oscs p = Some i.
  Definition C (oscs : list (list command)) (st : cst) : Prop :=
    c_seen st = true -> exists ch nm, c_child st = Some ch /\ ref_name oscs ch = Some nm.
  Lemma ref_grow osc cur out p i : ref_name (osc ++ [cur]) p = Some i -> ref_name (osc ++ [cur ++ out]) p = Some i.
  Proof.
    apply ref_ext. apply Forall2_app; [|constructor; [eauto|constructor]].
    assert (H : forall l : list (list command), Forall2 (fun a b => exists r, b = a ++ r) l l).
    { induction l as [|a l IH]; constructor; auto. exists []. symmetry. apply app_nil_r. }
    apply H.
  Qed.
  Lemma ref_here osc (cur : list command) x r : ref_name (osc ++ [cur ++ x :: r]) (List.length osc, List.length cur) = cmd_id x.
  Proof. unfold ref_name, lookup. cbn [fst snd]. rewrite nth_error_app2, Nat.sub_diag by lia. cbn [nth_error]. rewrite nth_error_app2, Nat.sub_diag by lia. reflexivity. Qed.
  Lemma C_grow osc cur out st : C (osc ++ [cur]) st -> C (osc ++ [cur ++ out]) st.
  Proof. intros H Hs. destruct (H Hs) as [ch [nm [H1 H2]]]. exists ch, nm. split; [exact H1|apply ref_grow; exact H2]. Qed.
  Lemma J_push sc pre osc cur idx c i out idx' : J (sc ++ [pre]) (osc ++ [cur]) idx -> (forall j, In j (all_ids c) -> sget idx j = None) ->
    (forall j, ~ In j (all_ids c) -> sget idx' j = sget idx j) -> cmd_id c = Some i ->
    (kept i -> exists p, sget idx' i = Some p /\ ref_name (osc ++ [cur ++ out]) p = Some i) -> J (sc ++ [pre ++ [c]]) (osc ++ [cur ++ out]) idx'.
  Proof.
    intros HJ Hf Ha Hc Hi j Hj Hk. apply vis_snoc in Hj. unfold names in Hj. rewrite flat_map_app, in_app_iff in Hj. cbn [flat_map] in Hj. rewrite Hc, app_nil_r in Hj.
    assert (Hold : In j (vis (sc ++ [pre])) -> exists p, sget idx' j = Some p /\ ref_name (osc ++ [cur ++ out]) p = Some j).
    { intros Hv. destruct (HJ j Hv Hk) as [p [H1 H2]]. exists p. split; [|apply ref_grow; exact H2]. rewrite Ha; [exact H1|]. intros Hin. rewrite (Hf j Hin) in H1. discriminate. }
    destruct Hj as [Hj|[Hj|Hj]].
    - apply Hold. apply vis_snoc. auto.
    - apply Hold. apply vis_snoc. auto.
    - destruct Hj as [<-|[]]. auto.
  Qed.
  Definition good (osc : list (list command)) (cur : list command) (st : cst) (ids : list string) (olines : list raw) (scs' : list (list command))
      (out : list command) (st' : cst) : Prop :=
    exists lines, print_list osc out cur = Some lines /\ cut olines lines /\
      (forall r i, In r olines -> raw_id r = Some i -> (kget keep i = Some true -> In r lines) /\ (kept i -> present r lines)) /\
      (forall i, ~ In i ids -> sget (c_idx st') i = sget (c_idx st) i) /\
      J scs' (osc ++ [cur ++ out]) (c_idx st') /\ C (osc ++ [cur ++ out]) st' /\ (c_seen st = true -> c_seen st' = true).

  (** ** Premises *)
  Lemma premises_found scs oscs idx : J scs oscs idx -> forall (l : list (string * ptype)), Forall kept (map fst l) -> (forall i, In i (map fst l) -> In i (vis scs)) ->
    exists qs, omap (fun e => unwrap (sget idx (fst e))) l = ROk qs /\ mapo (ref_name oscs) qs = Some (map fst l).
  Proof.
    intros HJ. induction l as [|[i t] l IH]; intros Hk Hv; cbn [map fst] in *; [exists []; auto|].
    inversion Hk as [|? ? Hk1 Hk2]; subst. destruct (IH Hk2) as [qs [H1 H2]]; [intros j Hj; apply Hv; right; exact Hj|].
    destruct (HJ i (Hv i (or_introl eq_refl)) Hk1) as [p [Hp1 Hp2]]. exists (p :: qs). cbn [omap fst]. rewrite Hp1. cbn [unwrap obind]. rewrite H1. cbn [obind mapo].
    rewrite Hp2, H2. auto.
  Qed.
  Lemma mapo_vis sc ps ns : mapo (ref_name sc) ps = Some ns -> forall i, In i ns -> In i (vis sc).
  Proof. intros H i Hi. rewrite <- (mapo_names _ _ _ H) in Hi. eapply refs_vis; eauto. Qed.
  Lemma full_ok s e scs oscs st : stepH (s, (e, scs)) -> kget keep (s_id s) = Some true -> J scs oscs (c_idx st) ->
    exists qs ps, full_step edges st s = ROk (mkStep (s_id s) (s_clause s) (s_rule s) qs (s_args s) (s_disch s)) /\
      mapo (ref_name scs) (s_prems s) = Some ps /\ mapo (ref_name oscs) qs = Some ps.
  Proof.
    intros Hs Hn HJ. destruct (Hs Hn) as [es [ps [H1 [H2 [H3 H4]]]]]. unfold full_step. rewrite H1. subst ps.
    destruct (premises_found scs oscs (c_idx st) HJ (filter is_premise es) H4) as [qs [H5 H6]].
    - exact (mapo_vis _ _ _ H2).
    - exists qs, (map fst (filter is_premise es)). rewrite H5. auto.
  Qed.
  Lemma hole_ok s oscs st pen : C oscs st -> exists qs ns, hole_step st pen s = ROk (mkStep (s_id s) (s_clause s) "hole" qs [trust] []) /\ mapo (ref_name oscs) qs = Some ns.
  Proof.
    intros HC. unfold hole_step. destruct (c_seen st && pen) eqn:E.
    - apply andb_true_iff in E. destruct (HC (proj1 E)) as [ch [nm [H1 H2]]]. rewrite H1. cbn [unwrap obind]. exists [ch], [nm]. cbn [mapo]. rewrite H2. auto.
    - exists [], []. auto.
  Qed.

  (** ** Commands of which nothing is kept *)
  Lemma noop_list (l : list command) sub d cur st :
    Forall (fun c => forall sub d cur st, shape_ok c = true -> (forall i, In i (all_ids c) -> kget keep i = None) -> copy_cmd keep edges target c sub d cur st = ROk (cur, st)) l ->
    forallb shape_ok l = true -> (forall i, In i (flat_map all_ids l) -> kget keep i = None) -> copy_list keep edges target l sub d cur st = ROk (cur, st).
  Proof.
    intros Hf Hs Hk. induction Hf as [|c l Hc Hl IH]; [reflexivity|]. cbn [forallb flat_map copy_list] in *. apply andb_true_iff in Hs. destruct Hs as [Hsc Hsl].
    rewrite Hc; [|exact Hsc|]. { cbn [obind fst snd]. apply IH; [exact Hsl|]. intros i Hi. apply Hk. apply in_app_iff. auto. }
    intros i Hi. apply Hk. apply in_app_iff. auto.
  Qed.
  Lemma noop_cmd c : forall sub d cur st, shape_ok c = true -> (forall i, In i (all_ids c) -> kget keep i = None) -> copy_cmd keep edges target c sub d cur st = ROk (cur, st).
  Proof.
    induction c as [j t|s|cs a k IH] using command_ind'; intros sub d cur st Hs Hk.
    - cbn [copy_cmd]. rewrite (Hk j) by (cbn; auto). reflexivity.
    - cbn [copy_cmd]. unfold copy_step. rewrite (Hk (s_id s)) by (cbn; auto). reflexivity.
    - destruct (shape_id _ Hs) as [i [Hi Hin]]. rewrite copy_sub, Hi. cbn [unwrap obind]. rewrite (Hk i Hin).
      cbn [shape_ok] in Hs. apply andb_true_iff in Hs. apply noop_list; [exact IH|apply Hs|exact Hk].
  Qed.
  Lemma noop_all l sub d cur st : forallb shape_ok l = true -> (forall i, In i (flat_map all_ids l) -> kget keep i = None) -> copy_list keep edges target l sub d cur st = ROk (cur, st).
  Proof. intros. apply noop_list; auto. apply Forall_forall. intros c _. apply noop_cmd. Qed.
  Lemma copy_list_app l1 : forall l2 sub d cur st, copy_list keep edges target (l1 ++ l2) sub d cur st =
    (do p <- copy_list keep edges target l1 sub d cur st ; copy_list keep edges target l2 sub d (fst p) (snd p)).
  Proof.
    induction l1 as [|c l IH]; intros l2 sub d cur st; [reflexivity|]. cbn [app copy_list].
    destruct (copy_cmd keep edges target c sub d cur st) as [p| |]; cbn [obind]; auto.
  Qed.

  (** ** Assumptions stay in place *)
  Lemma copy_extends_list (l : list command) : Forall (fun c => forall sub d cur st p, copy_cmd keep edges target c sub d cur st = ROk p -> exists o, fst p = cur ++ o) l ->
    forall sub d cur st p, copy_list keep edges target l sub d cur st = ROk p -> exists o, fst p = cur ++ o.
  Proof.
    induction 1 as [|c l Hc Hl IH]; intros sub d cur st p H; cbn [copy_list] in H.
    - injection H as <-. exists []. rewrite app_nil_r. reflexivity.
    - apply obind_ok in H. destruct H as [q [H1 H2]]. destruct (Hc _ _ _ _ _ H1) as [o1 Ho1]. destruct (IH _ _ _ _ _ H2) as [o2 Ho2].
      exists (o1 ++ o2). rewrite Ho2, Ho1, app_assoc. reflexivity.
  Qed.
  Lemma copy_extends c : forall sub d cur st p, copy_cmd keep edges target c sub d cur st = ROk p -> exists o, fst p = cur ++ o.
  Proof.
    induction c as [j t|s|cs a k IH] using command_ind'; intros sub d cur st p H.
    - cbn [copy_cmd] in H. destruct (kget keep j); injection H as <-; cbn [fst]; eauto. exists []. rewrite app_nil_r. reflexivity.
    - cbn [copy_cmd] in H. unfold copy_step in H. destruct (kget keep (s_id s)) as [need|]; [|injection H as <-; exists []; rewrite app_nil_r; reflexivity].
      apply obind_ok in H. destruct H as [b [_ H]]. apply obind_ok in H. destruct H as [s' [_ H]]. injection H as <-. cbn [fst]. eauto.
    - rewrite copy_sub in H. apply obind_ok in H. destruct H as [i [_ H]].
      assert (G : copy_list keep edges target cs (Some cs) d cur st = ROk p -> exists o, fst p = cur ++ o) by (apply copy_extends_list; exact IH).
      destruct (kget keep i) as [[|]|]; auto. apply obind_ok in H. destruct H as [q [_ H]]. injection H as <-. cbn [fst]. eauto.
  Qed.
  Lemma copy_lead l : forall sub d cur st p, Forall kept (lead_ids l) -> copy_list keep edges target l sub d cur st = ROk p ->
    exists o, fst p = cur ++ firstn (lead l) l ++ o.
  Proof.
    induction l as [|c l IH]; intros sub d cur st p Hk H.
    - injection H as <-. exists []. cbn. rewrite app_nil_r. reflexivity.
    - assert (G : exists o, fst p = cur ++ o) by (apply (copy_extends_list (c :: l)) in H; [exact H|apply Forall_forall; intros x _; apply copy_extends]).
      destruct c as [j t|s|cs a k]; [|exact G|exact G]. cbn [lead_ids lead firstn] in *. inversion Hk as [|? ? Hk1 Hk2]; subst.
      cbn [copy_list copy_cmd] in H. unfold kept in Hk1. destruct (kget keep j); [|contradiction]. cbn [obind fst snd] in H.
      destruct (IH _ _ _ _ _ Hk2 H) as [o Ho]. exists o. rewrite Ho, <- app_assoc. reflexivity.
  Qed.

  (** ** Lines *)
  Lemma print_ids c : forall sc olines r i, print_cmd c sc = Some olines -> shape_ok c = true -> In r olines -> raw_id r = Some i -> In i (all_ids c).
  Proof.
    induction c as [j t|s|cs a k IH] using command_ind'; intros sc olines r i Hp Hs Hr Hi.
    - injection Hp as <-. destruct Hr as [<-|[]]. injection Hi as <-. left. reflexivity.
    - cbn [print_cmd] in Hp. unfold print_step in Hp. destruct (mapo _ (s_prems s)); [|discriminate]. destruct (mapo _ (s_disch s)); [|discriminate].
      injection Hp as <-. destruct Hr as [<-|[]]. injection Hi as <-. left. reflexivity.
    - destruct (shape_id _ Hs) as [q [Hq Hqin]]. rewrite print_sub, Hq in Hp. destruct (print_list sc cs []) as [rs|] eqn:E; [|discriminate]. injection Hp as <-.
      destruct Hr as [<-|Hr]; [injection Hi as <-; exact Hqin|]. cbn [shape_ok] in Hs. apply andb_true_iff in Hs. destruct Hs as [_ Hs]. cbn [all_ids].
      clear Hq Hqin. revert rs E Hr Hs. generalize (@nil command) as pre. induction IH as [|c l Hc Hl IHl]; intros pre rs E Hr Hs; cbn [print_list] in E.
      { injection E as <-. destruct Hr. }
      destruct (print_cmd c (sc ++ [pre])) as [o1|] eqn:E1; [|discriminate]. destruct (print_list sc l (pre ++ [c])) as [o2|] eqn:E2; [|discriminate].
      injection E as <-. cbn [forallb flat_map] in *. apply andb_true_iff in Hs. apply in_app_iff in Hr. apply in_app_iff. destruct Hr as [Hr|Hr]; [left; eapply Hc; eauto; apply Hs|right; eapply IHl; eauto; apply Hs].
  Qed.
  Lemma print_ids_list l : forall sc pre olines r i, print_list sc l pre = Some olines -> forallb shape_ok l = true -> In r olines -> raw_id r = Some i -> In i (flat_map all_ids l).
  Proof.
    induction l as [|c l IH]; intros sc pre olines r i E Hs Hr Hi; cbn [print_list] in E.
    { injection E as <-. destruct Hr. }
    destruct (print_cmd c (sc ++ [pre])) as [o1|] eqn:E1; [|discriminate]. destruct (print_list sc l (pre ++ [c])) as [o2|] eqn:E2; [|discriminate].
    injection E as <-. cbn [forallb flat_map] in *. apply andb_true_iff in Hs. apply in_app_iff in Hr. apply in_app_iff.
    destruct Hr as [Hr|Hr]; [left; eapply print_ids; eauto; apply Hs|right; eapply IH; eauto; apply Hs].
  Qed.
  Lemma tidy_sub d b x a k : tidy d (CSub (b ++ [x]) a k) =
    forallb (fun x => negb (is_assume x)) (skipn (lead (b ++ [x])) (b ++ [x])) && (forallb (tidy (S d)) b && closes (S d) (lead (b ++ [x])) x).
  Proof.
    cbn [tidy]. f_equal. generalize (lead (b ++ [x])) as n. intros n. induction b as [|y r IH]; [reflexivity|]. cbn [app forallb].
    destruct (r ++ [x]) eqn:E; [destruct r; discriminate|]. rewrite <- andb_assoc, IH. reflexivity.
  Qed.
  Lemma lead_snoc b s : lead (b ++ [CStep s]) = lead b /\ lead_ids (b ++ [CStep s]) = lead_ids b.
  Proof. induction b as [|[j t|s'|cs a k] b [IH1 IH2]]; cbn; auto. rewrite IH1, IH2. auto. Qed.
  Lemma lead_le l : lead l <= List.length l.
  Proof. induction l as [|[j t|s'|cs a k] l IH]; cbn; lia. Qed.
  Lemma firstn_nth_error {A} (l : list A) : forall n i, i < n -> nth_error (firstn n l) i = nth_error l i.
  Proof. induction l as [|x l IH]; intros [|n] [|i] H; cbn; auto; try lia. apply IH. lia. Qed.
  Lemma mapo_ext_in {A B} (f g : A -> option B) l : (forall x, In x l -> f x = g x) -> mapo f l = mapo g l.
  Proof. induction l as [|x l IH]; intros H; [reflexivity|]. cbn [mapo]. rewrite (H x (or_introl eq_refl)), IH; [reflexivity|]. intros y Hy. apply H. right. exact Hy. Qed.
  Lemma flat_snoc sc b s : flat_list true sc (b ++ [CStep s]) [] = flat_list false sc b [] ++ [(s, (true, sc ++ [b]))].
  Proof. rewrite flat_list_app by discriminate. reflexivity. Qed.

  (** ** One command *)
  Definition sub_ok (sub : option (list command)) : Prop := forall cs, sub = Some cs -> exists p, penult cs = ROk p.
  Lemma pen_ok sub i : sub_ok sub -> exists b, (match sub with Some cs => do p <- penult cs ; ROk (String.eqb i p) | None => ROk false end) = ROk b.
  Proof. intros H. destruct sub as [cs|]; [|eauto]. destruct (H cs eq_refl) as [p ->]. cbn. eauto. Qed.
  Definition main (c : command) : Prop := forall sub sc pre osc cur st olines, List.length sc = List.length osc -> sub_ok sub ->
    shape_ok c = true -> NoDup (all_ids c) -> tidy (List.length osc) c = true -> print_cmd c (sc ++ [pre]) = Some olines ->
    (forall x, In x (flat_cmd c false (sc ++ [pre])) -> stepH x) -> (forall S, In S (subs_cmd c) -> subH S) ->
    (forall i, In i (all_ids c) -> sget (c_idx st) i = None) -> J (sc ++ [pre]) (osc ++ [cur]) (c_idx st) -> C (osc ++ [cur]) st ->
    exists out st', copy_cmd keep edges target c sub (List.length osc) cur st = ROk (cur ++ out, st') /\
      good osc cur st (all_ids c) olines (sc ++ [pre ++ [c]]) out st' /\
      (has_target target c = true -> c_seen st' = true /\ c_child st' = Some (List.length osc, List.length cur) /\
         ref_name (osc ++ [cur ++ out]) (List.length osc, List.length cur) = cmd_id c).
  Lemma main_list l : Forall main l -> forall sub sc pre osc cur st olines, List.length sc = List.length osc -> sub_ok sub ->
    forallb shape_ok l = true -> NoDup (flat_map all_ids l) -> forallb (tidy (List.length osc)) l = true -> print_list sc l pre = Some olines ->
    (forall x, In x (flat_list false sc l pre) -> stepH x) -> (forall S, In S (flat_map subs_cmd l) -> subH S) ->
    (forall i, In i (flat_map all_ids l) -> sget (c_idx st) i = None) -> J (sc ++ [pre]) (osc ++ [cur]) (c_idx st) -> C (osc ++ [cur]) st ->
    exists out st', copy_list keep edges target l sub (List.length osc) cur st = ROk (cur ++ out, st') /\
      good osc cur st (flat_map all_ids l) olines (sc ++ [pre ++ l]) out st' /\
      (existsb (has_target target) l = true -> c_seen st' = true).
  Proof.
    induction 1 as [|c l Hc Hl IH]; intros sub sc pre osc cur st olines Hlen Hsub Hs Hn Htd Hp Hx HS Hf HJ HC.
    - injection Hp as <-. exists [], st. cbn [copy_list]. rewrite !app_nil_r. split; [reflexivity|]. split; [|discriminate].
      exists []. cbn [print_list]. rewrite app_nil_r. split; [reflexivity|]. split; [constructor|]. split; [intros r i []|]. repeat split; auto.
    - cbn [forallb flat_map print_list flat_list existsb] in *. apply andb_true_iff in Hs. destruct Hs as [Hs1 Hs2]. apply andb_true_iff in Htd. destruct Htd as [Ht1 Ht2].
      apply NoDup_app_iff' in Hn. destruct Hn as [Hn1 [Hn2 Hn3]].
      destruct (print_cmd c (sc ++ [pre])) as [o1|] eqn:E1; [|discriminate]. destruct (print_list sc l (pre ++ [c])) as [o2|] eqn:E2; [|discriminate]. injection Hp as <-.
      destruct (Hc sub sc pre osc cur st o1 Hlen Hsub Hs1 Hn1 Ht1 E1) as [out1 [st1 [A1 [[lines1 [A2 [A3 [A4 [A5 [A6 [A7 A8]]]]]]] A9]]]]; auto.
      { intros x Hin. apply Hx. apply in_app_iff. auto. }
      { intros S HS'. apply HS. apply in_app_iff. auto. }
      { intros i Hi. apply Hf. apply in_app_iff. auto. }
      destruct (IH sub sc (pre ++ [c]) osc (cur ++ out1) st1 o2 Hlen Hsub Hs2 Hn2 Ht2 E2) as [out2 [st2 [B1 [[lines2 [B2 [B3 [B4 [B5 [B6 [B7 B8]]]]]]] B9]]]]; auto.
      { intros x Hin. apply Hx. apply in_app_iff. auto. }
      { intros S HS'. apply HS. apply in_app_iff. auto. }
      { intros i Hi. rewrite A5; [apply Hf; apply in_app_iff; auto|]. intros Hi'. exact (Hn3 i Hi' Hi). }
      exists (out1 ++ out2), st2. cbn [copy_list]. rewrite A1. cbn [obind fst snd]. rewrite B1, <- app_assoc. split; [reflexivity|]. split.
      + exists (lines1 ++ lines2). rewrite print_list_app, A2. rewrite B2. cbn [appo]. split; [reflexivity|]. split; [apply cut_app; auto|]. split; [|repeat split].
        * intros r i Hr Hi. apply in_app_iff in Hr. destruct Hr as [Hr|Hr].
          -- destruct (A4 r i Hr Hi) as [G1 G2]. split; [intros Hk; apply in_app_iff; auto|]. intros Hk. specialize (G2 Hk). destruct r; cbn [present] in *; auto; [apply in_app_iff; auto|].
             destruct G2 as [ru [ps [ar [ds G2]]]]. exists ru, ps, ar, ds. apply in_app_iff. auto.
          -- destruct (B4 r i Hr Hi) as [G1 G2]. split; [intros Hk; apply in_app_iff; auto|]. intros Hk. specialize (G2 Hk). destruct r; cbn [present] in *; auto; [apply in_app_iff; auto|].
             destruct G2 as [ru [ps [ar [ds G2]]]]. exists ru, ps, ar, ds. apply in_app_iff. auto.
        * intros i Hi. rewrite in_app_iff in Hi. rewrite B5 by tauto. apply A5. tauto.
        * rewrite <- !app_assoc in B6. exact B6.
        * rewrite <- !app_assoc in B7. exact B7.
        * auto.
      + intros Ho. apply orb_true_iff in Ho. destruct Ho as [Ho|Ho]; [apply B8; apply A9; exact Ho|auto].
  Qed.
  (** a step that is not the last one of a kept subproof *)
  Lemma main_step s sub sc pre osc cur st e ps ds : List.length sc = List.length osc -> sub_ok sub ->
    mapo (ref_name (sc ++ [pre])) (s_prems s) = Some ps -> mapo (ref_name (sc ++ [pre])) (s_disch s) = Some ds -> (kget keep (s_id s) = Some true -> s_disch s = []) ->
    stepH (s, (e, sc ++ [pre])) -> sget (c_idx st) (s_id s) = None -> J (sc ++ [pre]) (osc ++ [cur]) (c_idx st) -> C (osc ++ [cur]) st ->
    exists out st', copy_step keep edges target s sub (List.length osc) cur st = ROk (cur ++ out, st') /\
      good osc cur st [s_id s] [RwStep (s_id s) (s_clause s) (s_rule s) ps (s_args s) ds] (sc ++ [pre ++ [CStep s]]) out st' /\
      (String.eqb (s_id s) target = true -> c_seen st' = true /\ c_child st' = Some (List.length osc, List.length cur) /\
         ref_name (osc ++ [cur ++ out]) (List.length osc, List.length cur) = Some (s_id s)).
  Proof.
    intros Hlen Hsub Hps Hds Hd HsH Hfr HJ HC. unfold copy_step. destruct (kget keep (s_id s)) as [need|] eqn:Ek.
    2:{ exists [], st. rewrite app_nil_r. split; [reflexivity|]. split.
      - exists []. cbn [print_list]. rewrite app_nil_r. split; [reflexivity|]. split; [apply cut_none|]. split; [|repeat split; auto].
        + intros r i [<-|[]] Hi. injection Hi as <-. unfold kept. rewrite Ek. split; [discriminate|tauto].
        + rewrite <- (app_nil_r cur). apply (J_push sc pre osc cur (c_idx st) (CStep s) (s_id s)); auto.
          * intros j [<-|[]]. exact Hfr.
          * unfold kept. rewrite Ek. tauto.
      - intros E. apply String.eqb_eq in E. rewrite <- E in Ht. congruence. }
    destruct (pen_ok sub (s_id s) Hsub) as [pen Hpen]. rewrite Hpen. cbn [obind c_idx c_seen c_child]. rewrite Hfr.
    set (st1 := mkC (c_idx st) (c_seen st || String.eqb (s_id s) target) (c_child st)).
    assert (HR : exists s' ps' rl, (if need then full_step edges st1 s else hole_step st1 pen s) = ROk s' /\ s_id s' = s_id s /\
       print_step (osc ++ [cur]) s' = Some rl /\ rl = RwStep (s_id s) (s_clause s) (s_rule s') ps' (s_args s') (if need then ds else []) /\
       cut [RwStep (s_id s) (s_clause s) (s_rule s) ps (s_args s) ds] [rl] /\ (need = true -> rl = RwStep (s_id s) (s_clause s) (s_rule s) ps (s_args s) ds)).
    { destruct need.
      - destruct (full_ok s e (sc ++ [pre]) (osc ++ [cur]) st1 HsH Ek HJ) as [qs [ps1 [F1 [F2 F3]]]]. rewrite F2 in Hps. injection Hps as ->.
        rewrite (Hd eq_refl) in *. cbn [mapo] in Hds. injection Hds as <-. eexists. exists ps. eexists. split; [exact F1|]. split; [reflexivity|].
        unfold print_step. cbn [s_prems s_disch s_id s_clause s_rule s_args]. rewrite F3. cbn [mapo]. split; [reflexivity|]. split; [reflexivity|]. split; [constructor 3; constructor|auto].
      - assert (Hnt : String.eqb (s_id s) target = false).
        { destruct (String.eqb_spec (s_id s) target) as [E|]; [|reflexivity]. rewrite <- E in Ht. congruence. }
        destruct (hole_ok s (osc ++ [cur]) st1 pen) as [qs [ns [F1 F2]]].
        { unfold C, st1. cbn [c_seen c_child]. rewrite Hnt, orb_false_r. exact HC. }
        eexists. exists ns. eexists. split; [exact F1|]. split; [reflexivity|]. unfold print_step. cbn [s_prems s_disch s_id s_clause s_rule s_args]. rewrite F2. cbn [mapo].
        split; [reflexivity|]. split; [reflexivity|]. split; [constructor 4; constructor|discriminate]. }
    destruct HR as [s' [ps' [rl [R1 [R2 [R3 [R4 [R5 R6]]]]]]]]. rewrite R1. cbn [obind].
    eexists [CStep s'], _. split; [reflexivity|]. split.
    - exists [rl]. cbn [print_list print_cmd]. rewrite R3. split; [reflexivity|]. split; [exact R5|]. split; [|split; [|split; [|split]]].
      + intros r i [<-|[]] Hi. injection Hi as <-. rewrite Ek. split.
        * intros H. injection H as ->. left. auto.
        * intros _. cbn [present]. rewrite R4. eexists _, _, _, _. left. reflexivity.
      + cbn [c_idx]. intros i Hi. rewrite sget_insert. destruct (String.eqb_spec i (s_id s)) as [->|]; [|reflexivity]. destruct Hi. left. reflexivity.
      + cbn [c_idx]. apply (J_push sc pre osc cur (c_idx st) (CStep s) (s_id s)); auto.
        * intros j [<-|[]]. exact Hfr.
        * intros i Hi. rewrite sget_insert. destruct (String.eqb_spec i (s_id s)) as [->|]; [|reflexivity]. destruct Hi. left. reflexivity.
        * intros _. exists (List.length osc, List.length cur). rewrite sget_insert, String.eqb_refl. split; [reflexivity|]. rewrite ref_here. cbn [cmd_id]. rewrite R2. reflexivity.
      + intros Hsn. cbn [c_seen c_child] in *. destruct (String.eqb (s_id s) target).
        * exists (List.length osc, List.length cur), (s_id s). split; [reflexivity|]. rewrite ref_here. cbn [cmd_id]. rewrite R2. reflexivity.
        * rewrite orb_false_r in Hsn. apply (C_grow osc cur [CStep s'] st HC Hsn).
      + cbn [c_seen]. intros ->. reflexivity.
    - intros E. cbn [c_seen c_child]. rewrite E, orb_true_r. split; [reflexivity|]. split; [reflexivity|]. rewrite ref_here. cbn [cmd_id]. rewrite R2. reflexivity.
  Qed.
  Lemma subs_pen b s : b <> [] -> forallb shape_ok b = true -> exists p, penult (b ++ [CStep s]) = ROk p.
  Proof.
    intros Hb Hs. destruct (exists_last Hb) as [b' [y ->]]. unfold penult. rewrite !app_length. cbn [List.length].
    replace (Nat.ltb (List.length b' + 1 + 1) 2) with false by (symmetry; apply Nat.ltb_ge; lia).
    replace (List.length b' + 1 + 1 - 2) with (List.length b') by lia.
    rewrite <- app_assoc, nth_error_app2, Nat.sub_diag by lia. cbn [nth_error app].
    rewrite forallb_app in Hs. apply andb_true_iff in Hs. destruct Hs as [_ Hs]. cbn [forallb] in Hs. rewrite andb_true_r in Hs.
    destruct (shape_id y Hs) as [i [Hi _]]. cbn [unwrap obind]. rewrite Hi. cbn. eauto.
  Qed.
  Lemma disch_kept sc pre b osc cur bout s n : List.length sc = List.length osc -> closes (S (List.length osc)) n (CStep s) = true -> n <= List.length b ->
    (exists o, bout = firstn n b ++ o) ->
    mapo (ref_name ((osc ++ [cur]) ++ [bout])) (s_disch s) = mapo (ref_name ((sc ++ [pre]) ++ [b])) (s_disch s).
  Proof.
    intros Hlen Hc Hn [o ->]. cbn [closes] in Hc. rewrite !andb_true_iff in Hc. destruct Hc as [[_ Hc] _]. rewrite forallb_forall in Hc.
    apply mapo_ext_in. intros [d i] Hp. specialize (Hc _ Hp). cbn [fst snd] in Hc. apply andb_true_iff in Hc. destruct Hc as [H1 H2]. apply Nat.eqb_eq in H1. apply Nat.ltb_lt in H2.
    unfold ref_name, lookup. cbn [fst snd]. subst d.
    rewrite (nth_error_app2 (osc ++ [cur])) by (rewrite app_length; cbn; lia). rewrite (nth_error_app2 (sc ++ [pre])) by (rewrite app_length; cbn; lia).
    rewrite !app_length, Hlen. cbn [List.length]. replace (S (List.length osc) - (List.length osc + 1)) with 0 by lia. cbn [nth_error].
    rewrite nth_error_app1 by (rewrite firstn_length; lia). rewrite firstn_nth_error by lia. reflexivity.
  Qed.
  Lemma has_target_sub b s a k : has_target target (CSub (b ++ [CStep s]) a k) = existsb (has_target target) b || String.eqb (s_id s) target.
  Proof. cbn [has_target]. rewrite existsb_app. cbn [existsb has_target]. rewrite orb_false_r. reflexivity. Qed.
  Lemma main_all c : main c.
  Proof.
    induction c as [j t|s|cs a k IH] using command_ind'; intros sub sc pre osc cur st olines Hlen Hsub Hs Hn Htd Hp Hx HS Hf HJ HC.
    - (* an assumption *)
      injection Hp as <-. cbn [copy_cmd]. assert (Hfj : sget (c_idx st) j = None) by (apply Hf; left; reflexivity). destruct (kget keep j) as [v|] eqn:Ek.
      + eexists [CAssume j t], _. split; [reflexivity|]. split; [|discriminate]. exists [RwAssume j t]. cbn [print_list print_cmd]. split; [reflexivity|]. split; [constructor 3; constructor|].
        split; [intros r i [<-|[]] _; split; intros _; left; reflexivity|]. cbn [c_idx c_seen c_child].
        assert (Ho : forall i, ~ In i (all_ids (CAssume j t)) -> sget (im_insert String.eqb (c_idx st) j (List.length osc, List.length cur)) i = sget (c_idx st) i).
        { intros i Hi. rewrite sget_insert. destruct (String.eqb_spec i j) as [->|]; [|reflexivity]. destruct Hi. left. reflexivity. }
        split; [exact Ho|]. split; [|split].
        * apply (J_push sc pre osc cur (c_idx st) (CAssume j t) j); auto. intros _. exists (List.length osc, List.length cur). rewrite sget_insert, String.eqb_refl. split; [reflexivity|].
          rewrite ref_here. reflexivity.
        * apply C_grow with (out := [CAssume j t]) in HC. exact HC.
        * auto.
      + exists [], st. rewrite app_nil_r. split; [reflexivity|]. split; [|discriminate]. exists []. cbn [print_list]. rewrite app_nil_r. split; [reflexivity|]. split; [apply cut_none|].
        split; [intros r i [<-|[]] Hi; injection Hi as <-; unfold kept; rewrite Ek; split; [discriminate|tauto]|]. repeat split; auto.
        rewrite <- (app_nil_r cur). apply (J_push sc pre osc cur (c_idx st) (CAssume j t) j); auto. unfold kept. rewrite Ek. tauto.
    - (* a step *)
      cbn [print_cmd] in Hp. unfold print_step in Hp. destruct (mapo (ref_name (sc ++ [pre])) (s_prems s)) as [ps|] eqn:E1; [|discriminate].
      destruct (mapo (ref_name (sc ++ [pre])) (s_disch s)) as [ds|] eqn:E2; [|discriminate]. injection Hp as <-. cbn [copy_cmd has_target all_ids cmd_id].
      apply (main_step s sub sc pre osc cur st false ps ds); auto.
      + cbn [tidy] in Htd. destruct (s_disch s); [auto|discriminate].
      + apply Hx. left. reflexivity.
      + apply Hf. left. reflexivity.
    - (* a subproof *)
      destruct (shape_list _ _ _ Hs) as [b [s [-> [Hb Hsb]]]].
      rewrite tidy_sub in Htd. rewrite !andb_true_iff in Htd. destruct Htd as [_ [Ht1 Hcl]]. destruct (lead_snoc b s) as [Hld1 Hld2]. rewrite Hld1 in Hcl.
      pose proof (subs_pen b s Hb Hsb) as Hpen. assert (Hsub' : sub_ok (Some (b ++ [CStep s]))) by (intros cs Hcs; injection Hcs as <-; exact Hpen).
      rewrite flat_sub, flat_snoc in Hx. assert (Hend : stepH (s, (true, (sc ++ [pre]) ++ [b]))) by (apply Hx; apply in_app_iff; right; left; reflexivity).
      cbn [all_ids] in Hn, Hf. rewrite flat_map_app in Hn, Hf. cbn [flat_map all_ids] in Hn, Hf. rewrite app_nil_r in Hn, Hf. apply NoDup_app_iff' in Hn. destruct Hn as [Hn1 [_ Hn3]].
      assert (Hsn : ~ In (s_id s) (flat_map all_ids b)) by (intros Hin; exact (Hn3 _ Hin (or_introl eq_refl))).
      assert (Hfs : sget (c_idx st) (s_id s) = None) by (apply Hf; apply in_app_iff; right; left; reflexivity).
      rewrite print_sub, sub_id in Hp. rewrite print_list_app in Hp. cbn [print_list print_cmd app] in Hp.
      destruct (print_list (sc ++ [pre]) b []) as [lb|] eqn:Elb; [|discriminate]. unfold print_step in Hp.
      destruct (mapo (ref_name ((sc ++ [pre]) ++ [b])) (s_prems s)) as [ps|] eqn:E1; [|discriminate].
      destruct (mapo (ref_name ((sc ++ [pre]) ++ [b])) (s_disch s)) as [ds|] eqn:E2; [|discriminate]. cbn [appo] in Hp. injection Hp as <-.
      assert (HSs : subH (b ++ [CStep s])) by (apply HS; left; reflexivity).
      assert (Hsid : subid (b ++ [CStep s]) = Some (s_id s)) by apply sub_id.
      destruct (HSs _ Hsid) as [HSt HSf]. rewrite Hld2 in HSt. unfold inner in HSf. rewrite removelast_snoc in HSf.
      assert (Hids : forall i, In i (all_ids (CSub (b ++ [CStep s]) a k)) <-> In i (flat_map all_ids b) \/ i = s_id s).
      { intros i. cbn [all_ids]. rewrite flat_map_app, in_app_iff. cbn. intuition. }
      rewrite copy_sub, sub_id. cbn [cmd_id unwrap obind].
      destruct (kget keep (s_id s)) as [[|]|] eqn:Ek.
      + (* kept *)
        specialize (HSt eq_refl). set (here := (List.length osc, List.length cur)). set (idx1 := im_insert String.eqb (c_idx st) (s_id s) here). set (st1 := mkC idx1 (c_seen st) (c_child st)).
        assert (Hlen' : List.length (sc ++ [pre]) = List.length (osc ++ [cur])) by (rewrite !app_length; cbn; lia).
        assert (HdS : List.length (osc ++ [cur]) = S (List.length osc)) by (rewrite app_length; cbn; lia).
        assert (Hl : Forall main b) by (apply Forall_app in IH; apply IH).
        destruct (main_list b Hl (Some (b ++ [CStep s])) (sc ++ [pre]) [] (osc ++ [cur]) [] st1 lb Hlen' Hsub' Hsb Hn1) as [bout [st2 [A1 [[lines [A2 [A3 [A4 [A5 [A6 [A7 A8]]]]]]] A9]]]]; auto.
        { rewrite HdS. exact Ht1. }
        { intros x Hin. apply Hx. apply in_app_iff. auto. }
        { intros S0 HS0. apply HS. right. rewrite flat_map_app. apply in_app_iff. auto. }
        { intros i Hi. unfold st1, idx1. cbn [c_idx]. rewrite sget_insert. destruct (String.eqb_spec i (s_id s)) as [->|]; [contradiction|]. apply Hf. apply in_app_iff. auto. }
        { intros i Hi Hk. apply vis_snoc in Hi. destruct Hi as [Hi|[]]. destruct (HJ i Hi Hk) as [p [P1 P2]]. exists p. unfold st1, idx1. cbn [c_idx]. rewrite sget_insert.
          destruct (String.eqb_spec i (s_id s)) as [->|]; [congruence|]. split; [exact P1|]. apply ref_outer. exact P2. }
        { intros Hc. destruct (HC Hc) as [ch [nm [P1 P2]]]. exists ch, nm. split; [exact P1|apply ref_outer; exact P2]. }
        rewrite HdS in A1. cbn [app] in *. rewrite copy_list_app, A1. cbn [obind fst snd copy_list copy_cmd].
        unfold copy_step at 1. rewrite Ek. destruct Hpen as [pn Hpn]. rewrite Hpn. cbn [obind c_idx c_seen c_child].
        set (st3 := mkC (c_idx st2) (c_seen st2 || String.eqb (s_id s) target) (c_child st2)).
        destruct (full_ok s true ((sc ++ [pre]) ++ [b]) ((osc ++ [cur]) ++ [bout]) st3 Hend Ek A6) as [qs [ps1 [F1 [F2 F3]]]].
        rewrite F2 in E1. injection E1 as ->. rewrite F1. cbn [obind fst snd].
        assert (Hi2 : sget (c_idx st2) (s_id s) = Some here).
        { rewrite A5 by exact Hsn. unfold st1, idx1. cbn [c_idx]. rewrite sget_insert, String.eqb_refl. reflexivity. }
        rewrite Hi2. cbn [obind fst snd c_idx c_seen c_child].
        set (s' := mkStep (s_id s) (s_clause s) (s_rule s) qs (s_args s) (s_disch s)).
        eexists [CSub (bout ++ [CStep s']) a k], _. split; [reflexivity|].
        assert (Hlead : exists o, bout = firstn (lead b) b ++ o) by (destruct (copy_lead b _ _ _ _ _ HSt A1) as [o Ho]; exists o; exact Ho).
        assert (Hdis : mapo (ref_name ((osc ++ [cur]) ++ [bout])) (s_disch s) = Some ds).
        { rewrite (disch_kept sc pre b osc cur bout s (lead b) Hlen Hcl (lead_le b) Hlead). exact E2. }
        assert (Hpr : print_list osc [CSub (bout ++ [CStep s']) a k] cur = Some (RwAnchor (s_id s) a :: lines ++ [RwStep (s_id s) (s_clause s) (s_rule s) ps (s_args s) ds])).
        { cbn [print_list]. rewrite print_sub, sub_id, print_list_app, A2. cbn [app print_list print_cmd]. unfold print_step. cbn [s' s_prems s_disch s_id s_clause s_rule s_args].
          rewrite F3, Hdis. cbn [appo cmd_id s' s_id]. rewrite app_nil_r. reflexivity. }
        split.
        * eexists. split; [exact Hpr|]. split; [constructor 3; apply cut_app; [exact A3|constructor 3; constructor]|]. split; [|cbn [c_idx c_seen c_child]; split; [|split; [|split]]].
          -- intros r i Hr Hi. destruct Hr as [<-|Hr]; [injection Hi as <-; split; intros _; [left; reflexivity|exact Logic.I]|]. apply in_app_iff in Hr. destruct Hr as [Hr|[<-|[]]].
             ++ destruct (A4 r i Hr Hi) as [G1 G2]. split; [intros Hk; right; apply in_app_iff; auto|]. intros Hk. specialize (G2 Hk).
                destruct r; cbn [present] in *; auto; [right; apply in_app_iff; auto|]. destruct G2 as [ru [ps2 [ar [ds2 G2]]]]. exists ru, ps2, ar, ds2. right. apply in_app_iff. auto.
             ++ split; intros _; [right; apply in_app_iff; right; left; reflexivity|]. cbn [present]. eexists _, _, _, _. right. apply in_app_iff. right. left. reflexivity.
          -- intros i Hi. rewrite Hids in Hi. rewrite A5 by tauto. unfold st1, idx1. cbn [c_idx]. rewrite sget_insert. destruct (String.eqb_spec i (s_id s)) as [->|]; [tauto|reflexivity].
          -- apply (J_push sc pre osc cur (c_idx st) (CSub (b ++ [CStep s]) a k) (s_id s)); auto.
             ++ intros i Hi. rewrite Hids in Hi. apply Hf. apply in_app_iff. cbn. intuition.
             ++ intros i Hi. rewrite Hids in Hi. rewrite A5 by tauto. unfold st1, idx1. cbn [c_idx]. rewrite sget_insert. destruct (String.eqb_spec i (s_id s)) as [->|]; [tauto|reflexivity].
             ++ intros _. exists here. split; [exact Hi2|]. unfold here. rewrite ref_here. apply sub_id.
          -- intros Hsn'. cbn [c_seen c_child] in *. rewrite Hsn'. exists here, (s_id s). split; [reflexivity|]. unfold here. rewrite ref_here. apply sub_id.
          -- intros Hsn'. cbn [c_seen st1] in A8. rewrite (A8 Hsn'). reflexivity.
        * rewrite has_target_sub. intros Ho. cbn [c_seen c_child].
          assert (Hseen : c_seen st2 || String.eqb (s_id s) target = true).
          { apply orb_true_iff in Ho. destruct Ho as [Ho|Ho]; [rewrite (A9 Ho); reflexivity|rewrite Ho; apply orb_true_r]. }
          rewrite Hseen. split; [reflexivity|]. split; [reflexivity|]. rewrite ref_here. apply sub_id.
      + (* the last step becomes a hole *)
        assert (Hin : forall i, In i (flat_map all_ids b) -> kget keep i = None) by (intros i Hi; apply HSf; [congruence|exact Hi]).
        rewrite copy_list_app, (noop_all b (Some (b ++ [CStep s])) (List.length osc) cur st Hsb Hin). cbn [obind fst snd copy_list copy_cmd].
        unfold copy_step. rewrite Ek. destruct Hpen as [pn Hpn]. rewrite Hpn. cbn [obind c_idx c_seen c_child]. rewrite Hfs.
        assert (Hnt : String.eqb (s_id s) target = false).
        { destruct (String.eqb_spec (s_id s) target) as [E|]; [|reflexivity]. rewrite <- E in Ht. congruence. }
        rewrite Hnt, orb_false_r.
        destruct (hole_ok s (osc ++ [cur]) (mkC (c_idx st) (c_seen st) (c_child st)) (String.eqb (s_id s) pn)) as [qs [ns [F1 F2]]].
        { exact HC. }
        rewrite F1. cbn [obind fst snd]. set (s' := mkStep (s_id s) (s_clause s) "hole" qs [trust] []).
        eexists [CStep s'], _. split; [reflexivity|].
        assert (Ho : forall i, ~ In i (all_ids (CSub (b ++ [CStep s]) a k)) -> sget (im_insert String.eqb (c_idx st) (s_id s) (List.length osc, List.length cur)) i = sget (c_idx st) i).
        { intros i Hi. rewrite Hids in Hi. rewrite sget_insert. destruct (String.eqb_spec i (s_id s)) as [->|]; [tauto|reflexivity]. }
        split.
        * exists [RwStep (s_id s) (s_clause s) "hole" ns [trust] []]. split.
          { cbn [print_list print_cmd]. unfold print_step. cbn [s' s_prems s_disch s_id s_clause s_rule s_args]. rewrite F2. reflexivity. }
          split; [constructor 2; apply (cut_app lb []); [apply cut_none|constructor 4; constructor]|]. split; [|cbn [c_idx c_seen c_child]; split; [exact Ho|split; [|split]]].
          -- intros r i Hr Hi. destruct Hr as [<-|Hr]; [injection Hi as <-; rewrite Ek; split; [discriminate|intros _; exact Logic.I]|]. apply in_app_iff in Hr. destruct Hr as [Hr|[<-|[]]].
             ++ pose proof (Hin i (print_ids_list b _ _ _ _ _ Elb Hsb Hr Hi)) as Hki. unfold kept. rewrite Hki. split; [discriminate|tauto].
             ++ injection Hi as <-. rewrite Ek. split; [discriminate|]. intros _. cbn [present]. eexists _, _, _, _. left. reflexivity.
          -- apply (J_push sc pre osc cur (c_idx st) (CSub (b ++ [CStep s]) a k) (s_id s)); auto.
             ++ intros i Hi. rewrite Hids in Hi. apply Hf. apply in_app_iff. cbn. intuition.
             ++ intros _. eexists. rewrite sget_insert, String.eqb_refl. split; [reflexivity|]. rewrite ref_here. reflexivity.
          -- apply C_grow with (out := [CStep s']) in HC. exact HC.
          -- auto.
        * rewrite has_target_sub, Hnt, orb_false_r. intros Ho'. exfalso. apply existsb_exists in Ho'. destruct Ho' as [y [Hy1 Hy2]]. apply target_id in Hy2.
          rewrite (Hin target) in Ht; [discriminate|]. apply in_flat_map. eauto.
      + (* nothing is kept *)
        assert (Hin : forall i, In i (all_ids (CSub (b ++ [CStep s]) a k)) -> kget keep i = None).
        { intros i Hi. rewrite Hids in Hi. destruct Hi as [Hi| ->]; [apply HSf; [congruence|exact Hi]|exact Ek]. }
        assert (Hsl : forallb shape_ok (b ++ [CStep s]) = true) by (rewrite forallb_app, Hsb; reflexivity).
        rewrite (noop_all (b ++ [CStep s]) (Some (b ++ [CStep s])) (List.length osc) cur st Hsl Hin).
        exists [], st. rewrite app_nil_r. split; [reflexivity|]. split.
        * exists []. cbn [print_list]. rewrite app_nil_r. split; [reflexivity|]. split; [apply cut_none|]. split; [|repeat split; auto].
          -- intros r i Hr Hi. assert (Hki : kget keep i = None).
             { apply Hin. rewrite Hids. destruct Hr as [<-|Hr]; [injection Hi as <-; auto|]. apply in_app_iff in Hr. destruct Hr as [Hr|[<-|[]]]; [left; eapply print_ids_list; eauto|injection Hi as <-; auto]. }
             unfold kept. rewrite Hki. split; [discriminate|tauto].
          -- rewrite <- (app_nil_r cur). apply (J_push sc pre osc cur (c_idx st) (CSub (b ++ [CStep s]) a k) (s_id s)); auto.
             ++ intros i Hi. rewrite Hids in Hi. apply Hf. apply in_app_iff. cbn. intuition.
             ++ unfold kept. rewrite Ek. tauto.
        * intros Ho. apply target_id in Ho. rewrite (Hin _ Ho) in Ht. discriminate.
  Qed.
End Copy.
