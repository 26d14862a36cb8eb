(** The result of the elaboration of a step is a tree of steps over the premises of the step, with rules from a fixed list. *)
From Coq Require Import List String ZArith Bool Arith Lia.
From Verif Require Import Base Term Sem Rules R_Taut R_Claus R_Eq R_Resolution R_Extras R_ResExact Utils Checker R_Binder R_Simp Table Elab ElabSound ElabCong ElabFlip ElabTrans ElabCongr ElabRes ElabLocal.
Import ListNotations.
Local Open Scope string_scope.
Local Open Scope nat_scope.
Local Open Scope list_scope.

Inductive over (Q : string -> Prop) (ps : list enode) : enode -> Prop :=
| Over_prem n : In n ps -> over Q ps n
| Over_step c r es args : Q r -> (forall e, In e es -> over Q ps e) -> over Q ps (EStep c r es args).
Definition over_root (Q : string -> Prop) (ps : list enode) (n : enode) : Prop := exists c r es args, n = EStep c r es args /\ Q r /\ forall e, In e es -> over Q ps e.
(** the rules of the steps made from a step with rule [r] *)
Definition new_rule (r0 r : string) : Prop := r = r0 \/ In r ("refl" :: map fst intro_rules).

Section Over.
  Variables (r0 : string) (ps : list enode).
  Notation Q := (new_rule r0).
  Lemma root_over n : over_root Q ps n -> over Q ps n. Proof. intros (c & r & es & args & -> & H & Hs). apply Over_step; assumption. Qed.
  Lemma root_mk c r es args : Q r -> (forall e, In e es -> over Q ps e) -> over_root Q ps (EStep c r es args). Proof. intros. exists c, r, es, args. auto. Qed.
  Lemma over_symm n m : over Q ps n -> add_symm n = ROk m -> over_root Q ps m.
  Proof.
    intros Hn H. unfold add_symm in H. destruct (eclause n) as [|t [|? ?]]; try discriminate. destruct (op2 OEquals t) as [[a b]|]; [|discriminate]. injection H as <-. apply root_mk; [right; cbn; tauto|].
    intros e [<-|[]]. exact Hn.
  Qed.
  Lemma over_flips (l : list (enode * bool)) k : (forall e, In e l -> over Q ps (fst e)) -> omap (fun e : enode * bool => if snd e then add_symm (fst e) else ROk (fst e)) l = ROk k -> forall e, In e k -> over Q ps e.
  Proof.
    revert k. induction l as [|[n b] l IH]; intros k Hl H; cbn [omap] in H; [injection H as <-; intros e []|]. apply obind_ok in H. destruct H as (y & Hy & H). apply obind_ok in H. destruct H as (k' & Hk & H). injection H as <-.
    intros e [<-|He]; [|eapply IH; eauto; intros z Hz; apply Hl; right; exact Hz]. cbn [fst snd] in Hy. destruct b; [|injection Hy as <-; apply (Hl (n, false)); left; reflexivity].
    apply root_over. eapply over_symm; [|exact Hy]. apply (Hl (n, true)). left. reflexivity.
  Qed.
  Lemma swap_tail_in {A} i (l : list A) x : In x (swap_tail i l) -> In x l.
  Proof. intros H. pose proof (swap_tail_Forall (fun y => In y l) i l) as F. rewrite !Forall_forall in F. apply F; auto. Qed.
  Lemma chain_in {X} f : forall a b (l : list ((term * term) * X)) r, trace_chain f a b l = ROk r -> forall e, In e (fst (fst r)) -> In (fst e) l.
  Proof.
    induction f as [|f IH]; intros a b l r H e He; cbn [trace_chain] in H; (destruct (term_eqb a b); [injection H as <-; destruct He|]); (destruct (find_eq3 a (map fst l)) as [[[i x] fl]|]; [|discriminate]); [discriminate|].
    destruct (nth_error l i) as [z|] eqn:E; [|discriminate]. apply obind_ok in H. destruct H as (r' & Hr & H). injection H as <-. cbn [fst] in He. destruct He as [<-|He]; [eapply nth_error_In; exact E|].
    eapply swap_tail_in. eapply IH; eauto.
  Qed.
  Lemma over_chain (l : list (((term * term) * enode) * bool)) : forall k, (forall e, In e l -> In (snd (fst e)) ps) ->
    omap (fun e : ((term * term) * enode) * bool => if snd e then add_symm (snd (fst e)) else ROk (snd (fst e))) l = ROk k -> forall e, In e k -> over Q ps e.
  Proof.
    induction l as [|[[q m] b] l IH]; intros k Hc H; cbn [omap] in H; [injection H as <-; intros e []|].
    apply obind_ok in H. destruct H as (y & Hy & H). apply obind_ok in H. destruct H as (k' & Hk & H). injection H as <-. intros e [<-|He]; [|eapply IH; eauto; intros z Hz; apply Hc; right; exact Hz].
    assert (Hm : In m ps) by (apply (Hc (q, m, b)); left; reflexivity). cbn [fst snd] in Hy. destruct b; [|injection Hy as <-; apply Over_prem; exact Hm].
    apply root_over. eapply over_symm; [|exact Hy]. apply Over_prem. exact Hm.
  Qed.
  Lemma incl_trans_over c args n : elab_trans c ps args = ROk n -> over_root Q ps n.
  Proof.
    unfold elab_trans. intros H. do 4 (apply obind_ok in H; destruct H as (? & ? & H)). apply obind_ok in H. destruct H as (r & Hr & H). apply obind_ok in H. destruct H as (k & Hk & H). injection H as <-. apply root_mk; [right; cbn; tauto|].
    apply (over_chain (fst (fst r)) k); [|exact Hk]. intros e He. pose proof (chain_in _ _ _ _ _ Hr e He) as Hi. destruct e as [[q m] b]. apply in_combine_r in Hi. exact Hi.
  Qed.
  Lemma over_flip_needed c qs args n : (forall e, In e qs -> In e ps) -> flip_needed c qs args = ROk n -> over_root Q ps n.
  Proof.
    unfold flip_needed. intros Hq H. repeat (apply obind_ok in H; destruct H as (? & ? & H)). destruct (check_cong_f _ _ _) as [fl|]; [|discriminate]. destruct (existsb _ fl).
    - apply obind_ok in H. destruct H as (k & Hk & H). injection H as <-. apply root_mk; [right; cbn; tauto|]. eapply over_flips; [|exact Hk]. intros [m b] Hm. apply in_combine_l in Hm. apply Over_prem. auto.
    - injection H as <-. apply root_mk; [right; cbn; tauto|]. intros e He. apply Over_prem. auto.
  Qed.
  Lemma over_add_trans ns n : (forall e, In e ns -> over Q ps e) -> add_trans ns = ROk n -> over_root Q ps n.
  Proof.
    unfold add_trans. intros Hn H. repeat (apply obind_ok in H; destruct H as (? & ? & H)). destruct (op2 OEquals _) as [[? ?]|]; [|discriminate]. destruct (op2 OEquals _) as [[? ?]|]; [|discriminate]. injection H as <-.
    apply root_mk; [right; cbn; tauto|exact Hn].
  Qed.
  Lemma over_symm_step a b : over Q ps (eq_symm_step a b). Proof. apply Over_step; [right; cbn; tauto|intros e []]. Qed.
  Lemma over_cong c args n : elab_cong c ps args = ROk n -> over_root Q ps n.
  Proof.
    unfold elab_cong. intros H. do 4 (apply obind_ok in H; destruct H as (? & ? & H)). destruct (term_eqb _ _); [injection H as <-; apply root_mk; [right; cbn; tauto|intros e []]|].
    assert (Hf : flip_needed c ps args = ROk n -> over_root Q ps n) by (apply over_flip_needed; auto).
    destruct (op2 OEquals (fst x2)) as [[f1 f2]|]; [|auto]. destruct (op2 OEquals (snd x2)) as [[g1 g2]|]; [|auto]. unfold elab_cong_eqs in H. apply obind_ok in H. destruct H as (? & ? & H).
    destruct (_ && _); [injection H as <-; apply root_mk; [right; cbn; tauto|intros e []]|]. apply obind_ok in H. destruct H as (qs & _ & H). destruct (is_some _); [auto|].
    destruct (is_some _).
    { apply obind_ok in H. destruct H as (m & Hm & H). eapply over_add_trans; [|exact H]. intros e [<-|[<-|[]]]; [apply over_symm_step|]. apply root_over. eapply over_flip_needed; [|exact Hm]. auto. }
    destruct (is_some _).
    { apply obind_ok in H. destruct H as (m & Hm & H). eapply over_add_trans; [|exact H]. intros e [<-|[<-|[]]]; [|apply over_symm_step]. apply root_over. eapply over_flip_needed; [|exact Hm]. auto. }
    destruct (is_some _); [|discriminate]. apply obind_ok in H. destruct H as (? & ? & H). eapply over_flip_needed; [|exact H]. intros e He. apply in_rev. exact He.
  Qed.
  Ltac ov := repeat first
    [ progress intros
    | match goal with
      | H : In _ [] |- _ => destruct H
      | H : In _ (_ :: _) |- _ => destruct H as [<-|H]
      | H : In _ (map _ _) |- _ => apply in_map_iff in H; destruct H as (? & <- & H)
      | H : _ \/ _ |- _ => destruct H as [<-|H]
      | H : False |- _ => destruct H
      | |- over_root _ _ (EStep _ _ _ _) => apply root_mk
      | |- over _ _ (EStep _ _ _ _) => apply Over_step
      | |- new_rule _ _ => right; cbn; tauto
      end ].
  Lemma over_eq_transitive c args n : elab_eq_transitive c args = ROk n -> over_root Q ps n.
  Proof.
    unfold elab_eq_transitive. intros H. repeat (apply obind_ok in H; destruct H as (? & ? & H)). cbn zeta in H. destruct (_ && _); injection H as <-; [ov|].
    match goal with |- context [eclause ?l] => assert (Hl : over Q ps l); [|set (last := l) in *] end.
    { destruct (forallb _ _); [ov|]. unfold flip_premises. cbn zeta. ov. match goal with |- context [flip_step (fst ?z)] => destruct z as [[a b] f] end. cbn [flip_step fst]. ov. }
    match goal with |- context [match ?z with [] => last | _ :: _ => _ end] => destruct z end; ov; auto.
  Qed.
  Lemma over_eq_congruent c args n : elab_eq_congruent c args = ROk n -> over_root Q ps n.
  Proof.
    unfold elab_eq_congruent. intros H. do 6 (apply obind_ok in H; destruct H as (? & ? & H)). destruct (check_cong_f _ _ _) as [fl|]; [|discriminate]. destruct (negb _); [injection H as <-; ov|]. cbn zeta in H.
    apply obind_ok in H. destruct H as (s4 & Hs4 & H). injection H as <-. ov. match type of Hs4 with context [EStep ?rc "resolution" ?es ?as_] => assert (Hl : over Q ps (EStep rc "resolution" es as_)) end.
    { apply Over_step; [right; cbn; tauto|]. intros e [<-|He].
      - match goal with |- over _ _ (if ?b then _ else _) => destruct b end; ov.
      - apply in_map_iff in He. destruct He as (z & <- & Hz). apply in_map_iff in Hz. destruct Hz as ([u t] & <- & _). cbn [sym_step fst]. ov. }
    destruct (Nat.eqb (List.length c) _); [injection Hs4 as <-; exact Hl|]. apply obind_ok in Hs4. destruct Hs4 as (w & _ & Hs4). injection Hs4 as <-. apply Over_step; [right; cbn; tauto|]. intros e [<-|[]]. exact Hl.
  Qed.
  Lemma dedup_by_in {A K} eqb (key : A -> K) l : forall x, In x (dedup_by eqb key l) -> In x l.
  Proof. induction l as [|y l IH]; intros x H; [exact H|]. cbn [dedup_by] in H. destruct H as [<-|H]; [left; reflexivity|]. apply filter_In in H. right. apply IH. apply H. Qed.
  Lemma over_general c qs n : (forall e, In e (map snd qs) -> In e ps) -> general_resolution c qs = ROk n -> over_root Q ps n.
  Proof.
    unfold general_resolution. intros Hq H. cbn zeta in H. apply obind_ok in H. destruct H as ([[nn tr] qs'] & Hr & H). cbn [fst snd] in H.
    assert (Hin : forall e, In e (map snd qs') -> over Q ps e).
    { intros e He. apply Over_prem. apply Hq. apply in_map_iff in He. destruct He as (p & <- & Hp). apply in_map. destruct (greedy_t c (map eclause (map snd (dedup_by Nat.eqb fst qs)))) as [x| |].
      - injection Hr as _ <-. eapply dedup_by_in. exact Hp.
      - destruct (greedy_t c _) as [x| |]; try discriminate. injection Hr as _ <-. apply in_rev in Hp. eapply dedup_by_in. exact Hp.
      - discriminate. }
    destruct nn; [|injection H as <-; apply root_mk; [right; cbn; tauto|exact Hin]]. destruct c as [|c0 [|? ?]]; try discriminate. unfold not_not_steps in H. apply obind_ok in H. destruct H as (? & ? & H). apply obind_ok in H. destruct H as (? & ? & H). cbn zeta in H. injection H as <-.
    apply root_mk; [right; cbn; tauto|]. intros e [<-|[<-|[<-|[]]]]; (apply Over_step; [right; cbn; tauto|]); [exact Hin|intros e []|intros e []].
  Qed.
  Lemma over_resolution c args n : elab_resolution r0 c (addressed ps) args = ROk n -> over_root Q ps n.
  Proof.
    assert (Hs : forall e, In e (map snd (addressed ps)) -> In e ps) by (intros e He; rewrite map_snd_addressed in He; exact He).
    unfold elab_resolution. destruct args as [|t args]; [|intros H; injection H as <-; apply root_mk; [left; reflexivity|intros e He; apply Over_prem; auto]]. destruct c as [|c0 c]; [|apply over_general; exact Hs].
    destruct (map snd (addressed ps)) as [|p [|p' qs]] eqn:E.
    - cbn [existsb]. apply over_general. rewrite E. exact Hs.
    - destruct (match eclause p with [t] => term_eqb t (tNot tTrue) | _ => false end); [intros H; injection H as <-; ov; apply Over_prem; apply Hs; left; reflexivity|].
      destruct (match eclause p with [] => true | _ => false end); [intros H; injection H as <-; apply root_mk; [left; reflexivity|intros e He; apply Over_prem; auto]|]. apply over_general. rewrite E. exact Hs.
    - destruct (existsb _ _); [intros H; injection H as <-; apply root_mk; [left; reflexivity|intros e He; apply Over_prem; auto]|]. apply over_general. rewrite E. exact Hs.
  Qed.
  Theorem elab_step_over c args n : elab_step c r0 ps args = ROk n -> over_root Q ps n.
  Proof.
    unfold elab_step. destruct (String.eqb r0 "eq_transitive"); [apply over_eq_transitive|]. destruct (String.eqb r0 "trans"); [apply incl_trans_over|]. destruct (_ || _); [apply over_resolution|].
    destruct (String.eqb r0 "cong"); [apply over_cong|]. destruct (String.eqb r0 "eq_congruent"); [apply over_eq_congruent|]. intros H. injection H as <-. apply root_mk; [left; reflexivity|]. intros e He. apply Over_prem. exact He.
  Qed.
End Over.
