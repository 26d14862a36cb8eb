(** The parallel checker does not panic on proofs on which the sequential checker does not (NoPanicCheck.v), if the scheduler does not. *)
From Coq Require Import List String ZArith NArith Bool Arith Lia.
From Verif Require Import Base Term Field Sem Sorting Rules Utils Num R_Taut R_Claus R_Resolution R_Eq R_Extras R_LA R_Simp R_SimpArith R_AC R_Binder R_Quant R_Bv BvSound Polyeq PBSound StrSound2 Subst Checker CheckerSound Context Table R_PB NoPanic NoPanicBv NoPanicPoly NoPanicMore NoPanicCtx NoPanicRules NoPanicStr NoPanicPrem R_CP R_Rare FullTable NoPanicFull NoPanicCheck Scheduler SchedSound Parallel ParallelMain.
Import ListNotations.
Local Open Scope list_scope.
Local Open Scope nat_scope.

Section Par.
  Variable fl : flags.
  Variable other : bool -> string -> crule.
  Variable cfg : config.
  Variable prems : list term.
  Hypothesis Hprems : forallb tame prems = true.
  Hypothesis Hother : other_fine fl other.
  Notation table := (rule_table other).

  Lemma in_visits_list sub out l : forall i v, In v (visits_list sub out l i) -> exists j x, nth_error l j = Some x /\ In v (visits x ((S (i + j), sub) :: out)).
  Proof.
    induction l as [|x l IH]; intros i v H; [destruct H|]. cbn [visits_list] in H. apply in_app_or in H. destruct H as [H|H].
    - exists 0, x. rewrite Nat.add_0_r. auto.
    - destruct (IH (S i) v H) as (j & y & Hj & Hv). exists (S j), y. split; [exact Hj|]. replace (i + S j) with (S i + j) by lia. exact Hv.
  Qed.
  Lemma judge_step s stk : do_step table cfg stk (mkSt (ctx_of stk) false false) s <> RPanic -> judge table cfg prems (CStep s, stk) <> RPanic.
  Proof.
    unfold do_step, judge. cbn [fst snd wcheck st_ctx]. destruct (mk_rargs stk (ctx_of stk) s); cbn [obind]; [|discriminate|auto]. destruct (step_core _ _ _ _ _ _ _); cbn [obind]; [discriminate|discriminate|auto].
  Qed.
  Lemma np_visits c : forall lens i cs out, cmd_fine fl lens (ctx_of ((i, cs) :: out)) c = true -> stack_fine fl lens ((i, cs) :: out) ->
    (out <> [] -> 2 <= List.length cs /\ ctx_of ((i, cs) :: out) <> []) -> nth_error cs (pred i) = Some c ->
    forall v, In v (visits c ((i, cs) :: out)) -> judge table cfg prems v <> RPanic.
  Proof.
    induction c as [id t|s|sub args k IH] using command_ind'; intros lens i cs out Hf Hs Ho Hn v Hv; rewrite visits_eq in Hv.
    - destruct Hv as [<-|[]]. cbn [enter]. unfold judge. cbn [fst snd wcheck]. cbn [cmd_fine] in Hf. apply good_parts in Hf. destruct Hf as [_ [Hf _]]. cbn [forallb] in Hf. rewrite andb_true_r in Hf.
      apply np_bind; [|intros [|] _; discriminate]. unfold check_assume. destruct (in_subproof _); [discriminate|]. destruct (memb _ _ _); [discriminate|].
      destruct (elaborated cfg); [discriminate|]. apply np_any; auto.
    - destruct Hv as [<-|[]]. cbn [enter]. apply judge_step. eapply np_do_step; eauto.
    - destruct Hv as [<-|Hv]; [discriminate|]. cbn [cmd_fine] in Hf. rewrite !andb_true_iff in Hf. destruct Hf as [[F1 _] F3]. apply Nat.leb_le in F1.
      pose proof (fun j => stack_push fl lens _ args sub ((i, cs) :: out) j F3 Hs) as Hpush. apply in_visits_list in Hv. destruct Hv as (j & x & Hj & Hv). cbn [Nat.add] in Hv.
      assert (Hcx : ctx_of ((S j, sub) :: (i, cs) :: out) = args :: ctx_of ((i, cs) :: out)) by (cbn [ctx_of]; rewrite Hn; reflexivity).
      rewrite Forall_forall in IH. rewrite forallb_forall in F3. apply (IH x (nth_error_In _ _ Hj) (lens ++ [List.length sub]) (S j) sub ((i, cs) :: out)); auto.
      + rewrite Hcx. apply F3. eapply nth_error_In; eauto.
      + intros _. split; [exact F1|]. rewrite Hcx. discriminate.
  Qed.
  Lemma fine_judge proof : proof_fine fl proof = true -> forall v, In v (all_visits proof) -> judge table cfg prems v <> RPanic.
  Proof.
    intros Hf v Hv. unfold proof_fine in Hf. rewrite forallb_forall in Hf. unfold all_visits in Hv. apply in_visits_list in Hv. destruct Hv as (j & x & Hj & Hv). cbn [Nat.add] in Hv.
    apply (np_visits x [List.length proof] (S j) proof []); auto; [apply Hf; eapply nth_error_In; eauto| |congruence].
    split; [reflexivity|]. constructor; [|constructor]. apply Forall_forall. intros c Hc. eapply fine_good. apply Hf. exact Hc.
  Qed.
  Theorem parallel_no_panic n proof r : 0 < n -> ids_ok proof -> proof_fine fl proof = true -> schedule_n n proof <> RPanic -> parallel table cfg prems n proof r -> r <> RPanic.
  Proof.
    intros Hn Hi Hf Hs H. rewrite (parallel_verdict n Hn proof Hi table cfg prems (fine_judge proof Hf) r H Hs). unfold pjudge. destruct (existsb _ _); [discriminate|]. destruct (existsb _ _); discriminate.
  Qed.
End Par.
