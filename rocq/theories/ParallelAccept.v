(** What a parallel run accepts, the sequential checker accepts: no assumption about panics, the scheduler or empty clauses at the end of subproofs. *)
From Coq Require Import List String ZArith NArith Bool Arith Lia Permutation.
From Verif Require Import Base Term Rules Polyeq Checker CheckerSound Parser ParserSound Scheduler SchedSound Parallel ParallelMain.
Import ListNotations.
Local Open Scope nat_scope.

Section Accept.
  Variable table : bool -> string -> option crule.
  Variable cfg : config.
  Variable prems : list term.
  Notation judge := (judge table cfg prems).
  Notation judge_seq := (judge_seq table cfg prems).
  Notation seqfold := (seqfold table cfg prems).
  Notation jr := (jr table cfg prems).
  Notation jh := (jh table cfg prems).
  Notation okdone := (okdone table cfg prems).

  (** The sequential checker reaches the empty clause whenever a worker does, and agrees on holes. *)
  Lemma judge_seq_ge v r h : judge v = ROk (r, h) -> exists r', judge_seq v = ROk (r', h) /\ (r = true -> r' = true).
  Proof.
    intros H. destruct (end_empty v) eqn:E; [|rewrite <- (judge_seq_eq table cfg prems v E) in H; eauto].
    destruct v as [[id t|s|cs a k] stk]; try discriminate E. unfold Parallel.judge in H. unfold Parallel.judge_seq. cbn [fst snd wcheck do_command] in *. unfold do_step. cbn [st_ctx st_reached st_holey].
    destruct (mk_rargs stk (ctx_of stk) s) as [ra| |]; cbn [obind] in *; try discriminate.
    match type of H with obind ?x _ = _ => destruct x as [h'| |]; cbn [obind] in *; try discriminate end. assert (h' = h) by congruence. subst h'.
    eexists. cbn [st_reached st_holey orb]. split; [reflexivity|]. intros ->. assert (Hr : Nat.eqb (List.length (s_clause s)) 0 && Nat.eqb (List.length (ctx_of stk)) 0 = true) by congruence.
    apply andb_true_iff in Hr. destruct Hr as [H1 H2]. apply Nat.eqb_eq in H2. apply Nat.eqb_eq in H1. rewrite H1. destruct (ctx_of stk); [|discriminate]. destruct (is_end_step stk); reflexivity.
  Qed.
  Lemma seqfold_ok : forall vs x, (forall v, In v vs -> exists rh, judge v = ROk rh) ->
    exists r, seqfold vs x = ROk (r, snd x || existsb jh vs) /\ (fst x || existsb jr vs = true -> r = true).
  Proof.
    induction vs as [|v vs IH]; intros x H.
    - exists (fst x). cbn. rewrite !orb_false_r. destruct x; auto.
    - destruct (H v (or_introl eq_refl)) as [[r h] Ej]. destruct (judge_seq_ge _ _ _ Ej) as [r' [Es Hr]]. cbn [Parallel.seqfold]. rewrite Es. cbn [obind fst snd].
      destruct (IH (fst x || r', snd x || h) (fun u Hu => H u (or_intror Hu))) as [q [Eq Hq]]. exists q. cbn [fst snd] in *. rewrite Eq. cbn [existsb]. unfold Parallel.jh at 2. unfold Parallel.jr at 1. rewrite Ej, orb_assoc.
      split; [reflexivity|]. intros K. apply Hq. destruct (fst x); [reflexivity|]. cbn [orb] in *. destruct r; [rewrite (Hr eq_refl); reflexivity|]. cbn [orb] in K. rewrite K. apply orb_true_r.
  Qed.

  Section Run.
    Variable proof : list command.
    Variable n : nat.
    Variable loads : nat -> list entry.
    Variable V : nat -> list visit.
    Hypothesis HV : forall w, sched_iter (loads w) [(0, proof)] = Some (V w).
    Hypothesis Hcover : forall v, In v (all_visits proof) -> leaf v = true -> exists w, w < n /\ In v (V w).
    Hypothesis Hsound : forall w v, In v (V w) -> leaf v = true -> In v (all_visits proof).

    Definition Wok (w : nat) (x : wst) (ab : bool) : Prop :=
      match w_status x with
      | Running | AtLoad => exists dn todo, V w = dn ++ todo /\ sched_iter (w_steps x) (w_stk x) = Some todo /\
          w_stk x <> [] /\ w_ctx x = ctx_of (w_stk x) /\ w_last x = depth (w_stk x) /\ okdone dn x
      | Done => exists dn todo, V w = dn ++ todo /\ okdone dn x /\ (todo = [] \/ ab = true)
      | Failed => exists v, In v (V w) /\ judge v = RErr
      | Panicked => True
      end.
    Definition Gok (g : gst) : Prop :=
      (forall w, w < n -> Wok w (g_w g w) (g_abort g)) /\
      (g_abort g = true -> exists w, w < n /\ w_status (g_w g w) = Failed).

    Lemma Wok_mono w x ab ab' : (ab = true -> ab' = true) -> Wok w x ab -> Wok w x ab'.
    Proof.
      intros H. unfold Wok. destruct (w_status x); auto. intros (dn & todo & H1 & H2 & H3). exists dn, todo.
      split; [exact H1|]. split; [exact H2|]. destruct H3; auto.
    Qed.
    Lemma worker_step_ok w x : Wok w x false -> w_status x = Running ->
      Wok w (fst (worker_step table cfg prems x)) false /\
      (snd (worker_step table cfg prems x) = true -> w_status (fst (worker_step table cfg prems x)) = Failed).
    Proof.
      intros HW Hs. unfold Wok in HW. rewrite Hs in HW. destruct HW as (dn & todo & E & Hi & Hne & Hc & Hl & (Hd1 & Hd2 & Hd3)).
      pose proof (next_spec _ _ _ _ Hi Hne Hc) as HN. unfold worker_step. destruct todo as [|[c stk] todo].
      - rewrite HN. cbn [fst snd]. split; [|discriminate]. unfold Wok. cbn [w_status w_reached w_holey]. exists dn, []. split; [exact E|]. split; [|auto]. split; [exact Hd1|]. split; [exact Hd2|exact Hd3].
      - destruct HN as (r & En & Hi' & Hne' & Hcx). rewrite En. cbv zeta in Hcx. rewrite Hl.
        set (cx := pop_ctx (depth (w_stk x)) (depth stk) (is_sub c) (w_ctx x)) in *.
        assert (Hj : wcheck table cfg prems c stk cx = judge (c, stk)).
        { unfold Parallel.judge. cbn [fst snd]. destruct c; [rewrite Hcx; reflexivity|rewrite Hcx; reflexivity|reflexivity]. }
        rewrite Hj. destruct (judge (c, stk)) as [[re h]| |] eqn:Ej; cbn [fst snd]; [|split; [|reflexivity]|split; [exact Logic.I|discriminate]].
        2: { unfold Wok. cbn [w_status]. exists (c, stk). split; [rewrite E; apply in_or_app; right; left; reflexivity|exact Ej]. }
        split; [|discriminate]. unfold Wok. cbn [w_status w_steps w_stk w_ctx w_last w_reached w_holey].
        exists (dn ++ [(c, stk)]), todo. split; [rewrite <- app_assoc; exact E|]. split; [exact Hi'|]. split; [exact Hne'|].
        split; [destruct c; exact Hcx|]. split; [reflexivity|]. unfold Parallel.okdone. cbn [w_reached w_holey]. rewrite !existsb_app. cbn [existsb].
        split; [|unfold Parallel.jr at 2, Parallel.jh at 2; rewrite Ej, Hd2, Hd3, !orb_false_r; auto].
        intros v Hv. apply in_app_or in Hv. destruct Hv as [Hv|[<-|[]]]; eauto.
    Qed.
    Lemma gstep_ok g g' : Gok g -> gstep table cfg prems n g g' -> Gok g'.
    Proof.
      intros [HW HA] Hs. destruct Hs as [g w Hw Hst|g w Hw Hst|g w Hw Hst Hab].
      - assert (HW0 : Wok w (g_w g w) false). { specialize (HW w Hw). unfold Wok in *. rewrite Hst in *. exact HW. }
        destruct (worker_step_ok w (g_w g w) HW0 Hst) as [H1 H2]. split; cbn [g_w g_abort].
        + intros w' Hw'. unfold fupd. destruct (Nat.eqb_spec w' w) as [->|Hne].
          * eapply Wok_mono; [|exact H1]. discriminate.
          * eapply Wok_mono; [|apply HW; auto]. intros ->. reflexivity.
        + intros H. destruct (snd (worker_step table cfg prems (g_w g w))) eqn:E.
          * exists w. split; [auto|]. rewrite fupd_same. auto.
          * rewrite orb_false_r in H. destruct (HA H) as (w' & Hw' & E'). exists w'. split; [auto|]. unfold fupd.
            destruct (Nat.eqb_spec w' w) as [->|]; [congruence|auto].
      - split; cbn [g_w g_abort].
        + intros w' Hw'. unfold fupd. destruct (Nat.eqb_spec w' w) as [->|Hne]; [|apply HW; auto].
          specialize (HW w Hw). unfold Wok in *. rewrite Hst in HW. exact HW.
        + intros H. destruct (HA H) as (w' & Hw' & E'). exists w'. split; [auto|]. unfold fupd.
          destruct (Nat.eqb_spec w' w) as [->|]; [congruence|auto].
      - split; cbn [g_w g_abort].
        + intros w' Hw'. unfold fupd. destruct (Nat.eqb_spec w' w) as [->|Hne]; [|apply HW; auto].
          specialize (HW w Hw). unfold Wok in *. rewrite Hst in HW. destruct HW as (dn & todo & E & _ & _ & _ & _ & Hd).
          cbn [set_status w_status]. exists dn, todo. split; [exact E|]. split; [exact Hd|auto].
        + intros H. destruct (HA H) as (w' & Hw' & E'). exists w'. split; [auto|]. unfold fupd.
          destruct (Nat.eqb_spec w' w) as [->|]; [congruence|auto].
    Qed.
    Lemma gsteps_ok g : gsteps table cfg prems n (ginit proof loads) g -> Gok g.
    Proof.
      intros H. remember (ginit proof loads) as g0 eqn:E. induction H; subst; [|eauto using gstep_ok].
      split; [|discriminate]. intros w _. unfold Wok, ginit. cbn [g_w w_status w_steps w_stk w_ctx w_last w_reached w_holey].
      exists [], (V w). split; [reflexivity|]. split; [apply HV|]. split; [discriminate|]. split; [reflexivity|]. split; [reflexivity|].
      split; [intros v []|split; reflexivity].
    Qed.
    Lemma run_accepts g b : wfp proof = true -> gsteps table cfg prems n (ginit proof loads) g -> final n g -> verdict n g = ROk b -> check table cfg prems proof = ROk b.
    Proof.
      intros Hw Hg Hf Hv. destruct (gsteps_ok g Hg) as [HW HA]. unfold verdict in Hv.
      destruct (anyw n (fun w => match w_status (g_w g w) with Panicked => true | _ => false end)) eqn:Ep; [discriminate|].
      destruct (anyw n (fun w => match w_status (g_w g w) with Failed => true | _ => false end)) eqn:Ef; [discriminate|].
      destruct (anyw n (fun w => w_reached (g_w g w))) eqn:Er; [|discriminate].
      assert (NP : forall w, w < n -> w_status (g_w g w) <> Panicked).
      { intros w Hlt E. assert (X : anyw n (fun w => match w_status (g_w g w) with Panicked => true | _ => false end) = true); [|congruence]. apply anyw_true. exists w. rewrite E. auto. }
      assert (NF : forall w, w < n -> w_status (g_w g w) <> Failed).
      { intros w Hlt E. assert (X : anyw n (fun w => match w_status (g_w g w) with Failed => true | _ => false end) = true); [|congruence]. apply anyw_true. exists w. rewrite E. auto. }
      assert (Hna : g_abort g = false).
      { destruct (g_abort g); [|reflexivity]. destruct (HA eq_refl) as (w & Hlt & E). destruct (NF w Hlt E). }
      assert (HD : forall w, w < n -> okdone (V w) (g_w g w)).
      { intros w Hlt. specialize (HW w Hlt). specialize (Hf w Hlt). specialize (NP w Hlt). specialize (NF w Hlt). unfold Wok in HW.
        destruct (w_status (g_w g w)) eqn:Es; try discriminate; try congruence.
        destruct HW as (dn & todo & EV & Hd & [->|Hx]); [|congruence]. rewrite app_nil_r in EV. rewrite EV. exact Hd. }
      assert (Hall : forall v, In v (all_visits proof) -> exists rh, judge v = ROk rh).
      { intros v Hin. destruct (leaf v) eqn:El; [|rewrite judge_sub by auto; eauto]. destruct (Hcover v Hin El) as (w & Hlt & Hi). destruct (HD w Hlt) as [Hd _]. auto. }
      rewrite check_fold by exact Hw. destruct (seqfold_ok (all_visits proof) (false, false) Hall) as [r [Es Hr]]. rewrite Es. cbn [obind fst snd orb] in *.
      rewrite Hr.
      - rewrite <- Hv. f_equal. apply eq_true_iff_eq. rewrite anyw_true, existsb_exists. split.
        + intros (v & Hin & Hj). assert (El : leaf v = true) by (destruct (leaf v) eqn:El; [auto|unfold Parallel.jh in Hj; rewrite judge_sub in Hj by auto; discriminate]).
          destruct (Hcover v Hin El) as (w & Hlt & Hi). exists w. split; [exact Hlt|]. destruct (HD w Hlt) as (_ & _ & ->). apply existsb_exists. eauto.
        + intros (w & Hlt & Hj). destruct (HD w Hlt) as (_ & _ & E). rewrite E in Hj. apply existsb_exists in Hj. destruct Hj as (v & Hi & Hj). exists v. split; [|exact Hj].
          apply (Hsound w v Hi). destruct (leaf v) eqn:El; [auto|]. unfold Parallel.jh in Hj. rewrite judge_sub in Hj by auto. discriminate.
      - apply anyw_true in Er. destruct Er as (w & Hlt & Hj). destruct (HD w Hlt) as (_ & E & _). rewrite E in Hj. apply existsb_exists in Hj. destruct Hj as (v & Hi & Hj). apply existsb_exists. exists v. split; [|exact Hj].
        apply (Hsound w v Hi). destruct (leaf v) eqn:El; [auto|]. unfold Parallel.jr in Hj. rewrite judge_sub in Hj by auto. discriminate.
    Qed.
    (** If no command is wrong and one makes the checker panic then the run panics, whatever the interleaving. *)
    Lemma run_panics g : gsteps table cfg prems n (ginit proof loads) g -> final n g -> (forall v, In v (all_visits proof) -> judge v <> RErr) ->
      (exists v, In v (all_visits proof) /\ judge v = RPanic) -> verdict n g = RPanic.
    Proof.
      intros Hg Hf He (v & Hin & Hj). destruct (gsteps_ok g Hg) as [HW HA]. unfold verdict.
      destruct (anyw n (fun w => match w_status (g_w g w) with Panicked => true | _ => false end)) eqn:Ep; [reflexivity|]. exfalso.
      assert (NP : forall w, w < n -> w_status (g_w g w) <> Panicked).
      { intros w Hlt E. assert (X : anyw n (fun w => match w_status (g_w g w) with Panicked => true | _ => false end) = true); [|congruence]. apply anyw_true. exists w. rewrite E. auto. }
      assert (NF : forall w, w < n -> w_status (g_w g w) <> Failed).
      { intros w Hlt E. specialize (HW w Hlt). unfold Wok in HW. rewrite E in HW. destruct HW as (u & Hu & Eu). destruct (leaf u) eqn:El; [|rewrite judge_sub in Eu by auto; discriminate].
        exact (He u (Hsound w u Hu El) Eu). }
      assert (Hna : g_abort g = false).
      { destruct (g_abort g); [|reflexivity]. destruct (HA eq_refl) as (w & Hlt & E). destruct (NF w Hlt E). }
      destruct (leaf v) eqn:El; [|rewrite judge_sub in Hj by auto; discriminate]. destruct (Hcover v Hin El) as (w & Hlt & Hi).
      specialize (HW w Hlt). specialize (Hf w Hlt). specialize (NP w Hlt). specialize (NF w Hlt). unfold Wok in HW.
      destruct (w_status (g_w g w)) eqn:Es; try discriminate; try congruence.
      destruct HW as (dn & todo & EV & (Hd & _) & [->|Hx]); [|congruence]. rewrite app_nil_r in EV. rewrite EV in Hi. destruct (Hd v Hi) as [rh Er]. congruence.
    Qed.
  End Run.
  Theorem parallel_accepts n proof b : 0 < n -> ids_ok proof -> wfp proof = true -> parallel table cfg prems n proof (ROk b) -> check table cfg prems proof = ROk b.
  Proof.
    intros Hn Hi Hw H. unfold parallel in H. destruct (schedule_n n proof) as [[loads usage]| |] eqn:E; [|contradiction|discriminate].
    destruct H as (g & Hg & Hf & Hv). destruct (run_hyps n Hn proof Hi loads usage E) as (V & HV & HC & HS).
    exact (run_accepts proof n loads V HV HC HS g b Hw Hg Hf Hv).
  Qed.
  Theorem parallel_panics n proof r : 0 < n -> ids_ok proof -> (forall v, In v (all_visits proof) -> judge v <> RErr) ->
    (exists v, In v (all_visits proof) /\ judge v = RPanic) -> parallel table cfg prems n proof r -> r = RPanic.
  Proof.
    intros Hn Hi He Hp H. unfold parallel in H. destruct (schedule_n n proof) as [[loads usage]| |] eqn:E; [|contradiction|exact H].
    destruct H as (g & Hg & Hf & <-). destruct (run_hyps n Hn proof Hi loads usage E) as (V & HV & HC & HS).
    exact (run_panics proof n loads V HV HC HS g Hg Hf He Hp).
  Qed.
End Accept.

(** Proofs that were parsed *)
Lemma ids_visits proof : SchedSound.ctx_ids (all_visits proof) = flat_map Parser.ctx_ids proof.
Proof.
  assert (HC : forall c stk, SchedSound.ctx_ids (visits c stk) = Parser.ctx_ids c).
  { induction c as [id t|s|cs args k IH] using command_ind'; intros stk; [reflexivity..|]. rewrite visits_eq. unfold SchedSound.ctx_ids. cbn [flat_map fst Parser.ctx_ids app]. f_equal.
    generalize 0. generalize cs at 1. induction IH as [|x r Hx Hr IHr]; intros l m; [reflexivity|]. cbn [visits_list flat_map]. rewrite flat_map_app. rewrite IHr. f_equal. apply Hx. }
  unfold all_visits. generalize 0. generalize proof at 1. induction proof as [|x r IH]; intros l m; [reflexivity|]. cbn [visits_list flat_map]. rewrite ctx_ids_app, HC, IH. reflexivity.
Qed.
Lemma parsed_ids rs proof : parse_proof rs = ROk proof -> ids_ok proof.
Proof. intros H. unfold ids_ok. rewrite ids_visits. exact (parse_ctx rs proof H). Qed.
Lemma shape_wfp proof : forallb shape_ok proof = true -> wfp proof = true.
Proof.
  assert (HC : forall c, shape_ok c = true -> wfc c = true).
  { induction c as [id t|s|cs args k IH] using command_ind'; intros H; [reflexivity..|]. cbn [shape_ok] in H. rewrite !andb_true_iff in H. destruct H as [[H1 H2] H3]. rewrite wfc_sub. apply andb_true_iff. split.
    - apply forallb_forall. rewrite forallb_forall in H3. rewrite Forall_forall in IH. intros x Hx. exact (IH x Hx (H3 x Hx)).
    - apply Nat.leb_le in H1. rewrite (list_last cs (CAssume "" tTrue)) by lia. unfold ends_in_step. rewrite rev_app_distr. cbn [rev app]. exact H2. }
  intros H. unfold wfp. rewrite forallb_forall in *. auto.
Qed.
