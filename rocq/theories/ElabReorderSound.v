(** Uncrowding a whole proof and removing its reordering steps. *)
From Coq Require Import List String ZArith Bool Arith Lia Permutation.
From Verif Require Import Base Term Sem Rules R_Resolution R_Extras R_ResExact Utils Checker Elab ElabSound ElabFlip ElabRes ElabUncrowd ElabUncrowdSound ElabReorder.
Import ListNotations.
Open Scope string_scope.
Local Open Scope nat_scope.
Local Open Scope list_scope.

(** ** Permuting the premises of naive resolution *)
Lemma trm1_spec x l r : trm1 x l = Some r -> exists a b, l = a ++ x :: b /\ r = a ++ b.
Proof.
  revert r. induction l as [|y l IH]; intros r; cbn [trm1]; [discriminate|]. destruct (term_eqb y x) eqn:E.
  - apply term_eqb_eq in E. subst y. intros H. injection H as <-. exists [], l. auto.
  - destruct (trm1 x l) as [r'|]; [|discriminate]. intros H. injection H as <-. destruct (IH r' eq_refl) as (a & b & -> & ->). exists (y :: a), b. auto.
Qed.
Lemma trm1_ex x l : In x l -> exists r, trm1 x l = Some r.
Proof.
  induction l as [|y l IH]; intros H; [destruct H|]. cbn [trm1]. destruct (term_eqb y x) eqn:E; [eauto|]. destruct H as [->|H]; [rewrite (proj2 (term_eqb_eq x x) eq_refl) in E; discriminate|].
  destruct (IH H) as [r ->]. eauto.
Qed.
Lemma trm1_perm x l l' r : Permutation l l' -> trm1 x l = Some r -> exists r', trm1 x l' = Some r' /\ Permutation r r'.
Proof.
  intros HP H. apply trm1_spec in H. destruct H as (a & b & -> & ->). destruct (trm1_ex x l') as [r' Hr'].
  { apply (Permutation_in x HP). apply in_or_app. right. left. reflexivity. }
  exists r'. split; [exact Hr'|]. apply trm1_spec in Hr'. destruct Hr' as (a' & b' & -> & ->).
  apply Permutation_app_inv with (a := x). exact HP.
Qed.
Lemma tnaive_perm l : forall l' C C' R, Forall2 (fun e e' => Permutation (fst e) (fst e') /\ snd e = snd e') l l' -> Permutation C C' -> tnaive C l = ROk R ->
  exists R', tnaive C' l' = ROk R' /\ Permutation R R'.
Proof.
  induction l as [|[D [p b]] l IH]; intros l' C C' R HF HP H; inversion HF as [|? [D' pb] ? l2 [H1 H2] HF']; subst; cbn [tnaive] in *.
  - injection H as <-. exists C'. auto.
  - cbn [fst snd] in *. subst pb. apply obind_ok in H. destruct H as (c1 & E1 & H). apply unwrap_ok in E1. apply obind_ok in H. destruct H as (d1 & E2 & H). apply unwrap_ok in E2.
    destruct (trm1_perm _ _ _ _ HP E1) as (c1' & E1' & P1). destruct (trm1_perm _ _ _ _ H1 E2) as (d1' & E2' & P2). rewrite E1'. cbn [unwrap obind]. rewrite E2'. cbn [unwrap obind].
    apply (IH l2 (c1 ++ d1)); auto. apply Permutation_app; auto.
Qed.
(** *** and of the chain *)
Lemma rm1_perm x l l' r : Permutation l l' -> rm1 x l = Some r -> exists r', rm1 x l' = Some r' /\ Permutation r r'.
Proof.
  intros HP H. apply rm1_spec in H. destruct H as (a & b & -> & _ & ->). destruct (rm1_ex x l') as [r' Hr'].
  { apply (Permutation_in x HP). apply in_or_app. right. left. reflexivity. }
  exists r'. split; [exact Hr'|]. apply rm1_spec in Hr'. destruct Hr' as (a' & b' & -> & _ & ->).
  apply Permutation_app_inv with (a := x). exact HP.
Qed.
Lemma perm_same {A} (l r : list A) : Permutation l r -> same l r.
Proof. intros H x. split; apply Permutation_in; [exact H|symmetry; exact H]. Qed.
Lemma chain_perm l : forall l' C T, Forall2 (fun e e' => Permutation (fst e) (fst e') /\ snd e = snd e') l l' -> chain C l T -> chain C l' T.
Proof.
  induction l as [|[D [p b]] l IH]; intros l' C T HF H; inversion HF as [|? [D' pb] ? l2 [H1 H2] HF']; subst; [exact H|]. cbn [fst snd] in *. subst pb.
  inversion H as [|? ? ? ? C1 ? ? HR HC]; subst. econstructor; [|apply IH; eassumption]. apply resolvent_rm1 in HR. apply resolvent_rm1. destruct HR as (Hin & E & HE & HR).
  split; [exact Hin|]. destruct (rm1_perm _ (lits D) (lits D') _ (Permutation_map _ H1) HE) as (E' & HE' & HP). exists E'. split; [exact HE'|].
  intros x. rewrite HR. rewrite (perm_same _ _ HP x). reflexivity.
Qed.
Lemma combine_perm {B} ps ps' : Forall2 (@Permutation term) ps ps' -> forall pv : list B, Forall2 (fun e e' => Permutation (fst e) (fst e') /\ snd e = snd e') (combine ps pv) (combine ps' pv).
Proof. induction 1 as [|a b l r H1 H2 IH]; intros [|v pv]; cbn [combine]; constructor; auto. Qed.
Lemma Forall2_len {A B} (R : A -> B -> Prop) l r : Forall2 R l r -> List.length l = List.length r.
Proof. induction 1; cbn; lia. Qed.
Lemma resolution_perm c ps args ps' c' : r_resolution_with_args c ps args = ROk tt -> Forall2 (@Permutation term) ps ps' -> Permutation c c' -> r_resolution_with_args c' ps' args = ROk tt.
Proof.
  intros H HF HP. apply resolution_with_args_exact in H. destruct H as (p0 & p1 & rest & pv & -> & Hpv & HL & HC). apply resolution_with_args_exact.
  inversion HF as [|? p0' ? ps1 Hp0 HF1]; subst. inversion HF1 as [|? p1' ? rest' Hp1 HF2]; subst. exists p0', p1', rest', pv. split; [reflexivity|]. split; [exact Hpv|].
  split; [rewrite HL; cbn; f_equal; apply (Forall2_len _ _ _ HF2)|]. apply (chain_same (lits p0)); [apply perm_same, Permutation_map, Hp0|].
  apply (chain_same_r _ _ (lits c)); [apply perm_same, Permutation_map, HP|]. apply (chain_perm (combine (p1 :: rest) pv)); [apply combine_perm; exact HF1|exact HC].
Qed.
Lemma recompute_perm ps args ps' d : recompute_resolution ps args = ROk d -> Forall2 (@Permutation term) ps ps' -> exists d', recompute_resolution ps' args = ROk d' /\ Permutation d d'.
Proof.
  intros H HF. unfold recompute_resolution in *. apply obind_ok in H. destruct H as (pv & -> & H). cbn [obind].
  destruct ps as [|p0 [|p1 rest]]; try discriminate. inversion HF as [|? p0' ? ps1 Hp0 HF1]; subst. inversion HF1 as [|? p1' ? rest' Hp1 HF2]; subst.
  apply obind_ok in H. destruct H as ([] & H1 & H). unfold passert in H1. destruct (List.length pv =? List.length (p1 :: rest)) eqn:E; [|discriminate].
  assert (EL : @List.length clause (p1' :: rest') = List.length (p1 :: rest)) by (cbn; f_equal; symmetry; apply (Forall2_len _ _ _ HF2)).
  rewrite EL, E. cbn [passert obind]. apply (tnaive_perm (combine (p1 :: rest) pv) _ p0); auto. apply combine_perm. exact HF1.
Qed.

(** ** Removing reordering steps *)
Definition order_rules : list string := ["reordering"; "weakening"; "contraction"; "resolution"; "th_resolution"; "strict_resolution"].
Definition order_rule (r : string) : bool := memb String.eqb r order_rules.
(** a node whose clause stays as it is *)
Definition steady (n : enode) : Prop := List.length (eclause n) <= 1 \/ match n with EStep _ r _ _ => order_rule r = false | _ => True end.
Fixpoint no_reordering (n : enode) : Prop :=
  match n with
  | EPrem _ => True
  | EStep _ r ps _ => r <> "reordering" /\ (fix all (l : list enode) : Prop := match l with [] => True | x :: l => no_reordering x /\ all l end) ps
  | ESub _ _ _ ps _ prev => (fix all (l : list enode) : Prop := match l with [] => True | x :: l => no_reordering x /\ all l end) ps /\ no_reordering prev
  end.
Lemma no_reordering_all l : (fix all (l : list enode) : Prop := match l with [] => True | x :: l => no_reordering x /\ all l end) l <-> Forall no_reordering l.
Proof. induction l as [|x l IH]; [split; [constructor|auto]|]. rewrite IH. split; [intros [H1 H2]; constructor; auto|intros H; inversion H; auto]. Qed.

Section Reorder.
  Variable other : bool -> string -> crule.
  Notation accepted := (accepted other).
  (** The steps of a proof whose reordering steps can be removed: contractions are complete, and a resolution step concludes what naive resolution gives, up to
      order; the other rules have premises whose clauses do not change. *)
  Inductive tame_step (cx : list (list anchor)) (c : clause) (ps : list enode) (args : list term) : string -> Prop :=
  | T_reordering : r_reordering c (map eclause ps) args = ROk tt -> tame_step cx c ps args "reordering"
  | T_weakening : r_weakening c (map eclause ps) args = ROk tt -> tame_step cx c ps args "weakening"
  | T_contraction : r_contraction c (map eclause ps) args = ROk tt -> NoDup c -> tame_step cx c ps args "contraction"
  | T_resolution r : is_res r = true -> r_resolution_with_args c (map eclause ps) args = ROk tt ->
      (forallb is_leaf ps = true \/ exists d, recompute_resolution (map eclause ps) args = ROk d /\ Permutation d c) -> tame_step cx c ps args r
  | T_other r : order_rule r = false -> run other r (mkRA c (map eclause ps) args cx None []) -> Forall steady ps -> tame_step cx c ps args r.
  Fixpoint tame (cx : list (list anchor)) (n : enode) : Prop :=
    match n with
    | EPrem _ => True
    | EStep c r ps args => tame_step cx c ps args r /\ (fix all (l : list enode) : Prop := match l with [] => True | x :: l => tame cx x /\ all l end) ps
    | ESub a c r ps args prev =>
        run other r (mkRA c (map eclause ps) args (a :: cx) (Some (eclause prev)) []) /\ Forall steady ps /\ steady prev /\
        (fix all (l : list enode) : Prop := match l with [] => True | x :: l => tame cx x /\ all l end) ps /\ tame (a :: cx) prev
    end.
  Lemma tame_all cx l : (fix all (l : list enode) : Prop := match l with [] => True | x :: l => tame cx x /\ all l end) l <-> Forall (tame cx) l.
  Proof. induction l as [|x l IH]; [split; [constructor|auto]|]. rewrite IH. split; [intros [H1 H2]; constructor; auto|intros H; inversion H; auto]. Qed.
  (** what becomes of a node *)
  Definition goes (cx : list (list anchor)) (n n' : enode) : Prop :=
    reorder_pass n = ROk n' /\ Permutation (eclause n) (eclause n') /\ (steady n -> eclause n' = eclause n) /\ accepted cx n' /\ no_reordering n'.
  Lemma perm_short {A} (l r : list A) : Permutation l r -> List.length l <= 1 -> r = l.
  Proof.
    intros H HL. destruct l as [|a [|b l]]; [apply Permutation_nil in H; auto|apply Permutation_length_1_inv in H; auto|cbn in HL; lia].
  Qed.
  Lemma goes_list cx ps : Forall (fun n => exists n', goes cx n n') ps ->
    exists ps', omap reorder_pass ps = ROk ps' /\ Forall2 (@Permutation term) (map eclause ps) (map eclause ps') /\ Forall (accepted cx) ps' /\ Forall no_reordering ps' /\
      (Forall steady ps -> map eclause ps' = map eclause ps) /\ (forallb is_leaf ps = true -> ps' = ps).
  Proof.
    induction 1 as [|n ps (n' & G1 & G2 & G3 & G4 & G5) H (ps' & I1 & I2 & I3 & I4 & I5 & I6)]; [exists []; repeat split; constructor|].
    exists (n' :: ps'). cbn [omap]. rewrite G1, I1. split; [reflexivity|]. split; [constructor; auto|]. split; [constructor; auto|]. split; [constructor; auto|]. split.
    - intros HS. inversion HS; subst. cbn [map]. f_equal; auto.
    - cbn [forallb]. intros HL. apply andb_true_iff in HL. destruct HL as [HL1 HL2]. f_equal; auto. destruct n; try discriminate. cbn in G1. injection G1 as <-. reflexivity.
  Qed.
  Lemma tame_accepted cx c ps args r : tame_step cx c ps args r -> run other r (mkRA c (map eclause ps) args cx None []).
  Proof.
    intros H. inversion H as [H1|H1|H1 H2|r' H1 H2 H3|r' H1 H2 H3]; subst.
    - apply (run_plain other "reordering" r_reordering); [cbn; tauto|exact H1].
    - apply (run_plain other "weakening" r_weakening); [cbn; tauto|exact H1].
    - apply (run_plain other "contraction" r_contraction); [cbn; tauto|exact H1].
    - unfold is_res in H1. apply orb_true_iff in H1. destruct H1 as [H1|H1]; apply String.eqb_eq in H1; subst r; eapply run_plain with (r := r_resolution_with_args); try exact H2; cbn; tauto.
    - exact H2.
  Qed.
  Lemma reordering_inv c ps args : r_reordering c ps args = ROk tt -> exists p, ps = [p] /\ Permutation c p.
  Proof.
    unfold r_reordering. intros H. apply obind_ok in H. destruct H as (u & H1 & H). unfold len_is in H1. apply rassert_ok, Nat.eqb_eq in H1. destruct ps as [|p [|q ps]]; try discriminate.
    exists p. split; [reflexivity|]. cbn [idx nth_error unwrap obind] in H. apply obind_ok in H. destruct H as (u' & _ & H).
    apply (ms_sym_diff_spec term_eqb term_eqb_eq). destruct (ms_sym_diff term_eqb (ms_of term_eqb c) (ms_of term_eqb p)); congruence.
  Qed.
  Lemma weakening_inv c ps args : r_weakening c ps args = ROk tt -> exists p r, ps = [p] /\ c = p ++ r.
  Proof.
    unfold r_weakening. intros H. apply obind_ok in H. destruct H as (u & H1 & H). unfold len_is in H1. apply rassert_ok, Nat.eqb_eq in H1. destruct ps as [|p [|q ps]]; try discriminate.
    exists p. cbn [idx nth_error unwrap obind] in H. apply obind_ok in H. destruct H as (u' & HL & H). unfold len_ge in HL. apply rassert_ok, Nat.leb_le in HL. clear H1 u u'.
    revert c HL H. induction p as [|t p IH]; intros c HL H; [exists c; auto|]. destruct c as [|t' c]; [cbn in HL; lia|]. cbn [combine ofor fst snd] in H. apply obind_ok in H.
    destruct H as (u & Ht & H). apply teq_ok in Ht. subst t'. destruct (IH c) as (r & _ & ->); [cbn in HL; lia|exact H|]. exists r. auto.
  Qed.
  Lemma contraction_inv c ps args : r_contraction c ps args = ROk tt -> exists p, ps = [p] /\ same c p.
  Proof.
    unfold r_contraction. intros H. apply obind_ok in H. destruct H as (u & H1 & H). unfold len_is in H1. apply rassert_ok, Nat.eqb_eq in H1. destruct ps as [|p [|q ps]]; try discriminate.
    exists p. split; [reflexivity|]. cbn [idx nth_error unwrap obind] in H. apply obind_ok in H. destruct H as (u' & H2 & H3).
    assert (Hc : forall t l, count t l = 0 <-> ~ In t l). { intros t l. rewrite count_occ_. rewrite <- (occ_pos term_eqb term_eqb_eq). lia. }
    intros t. split; intros Ht.
    - pose proof (ofor_ok _ _ _ H3 t Ht) as [v Hu]. apply rassert_ok, Nat.leb_le in Hu.
      destruct (count t p) eqn:E; [|destruct (in_dec (fun a b => ElabRes.term_eq_dec a b) t p) as [Hp|Hp]; [exact Hp|apply Hc in Hp; lia]].
      assert (count t c = 0) by lia. apply Hc in H. contradiction.
    - pose proof (ofor_ok _ _ _ H2 t Ht) as [v Hu]. apply obind_ok in Hu. destruct Hu as (v' & Hu & _). apply rassert_ok, negb_true_iff, Nat.eqb_neq in Hu.
      destruct (in_dec (fun a b => ElabRes.term_eq_dec a b) t c) as [Hp|Hp]; [exact Hp|]. apply Hc in Hp. lia.
  Qed.
  Lemma order_rule_no r : order_rule r = false -> r <> "reordering" /\ String.eqb r "reordering" = false /\ String.eqb r "weakening" = false /\ String.eqb r "contraction" = false /\ is_res r || String.eqb r "strict_resolution" = false.
  Proof.
    unfold order_rule, order_rules, is_res. cbn [memb existsb]. intros H. repeat (apply orb_false_iff in H; destruct H as [? H]).
    repeat match goal with Hx : String.eqb r _ = false |- _ => rewrite Hx end. split; [|auto]. intros ->. discriminate.
  Qed.

  Theorem reorder_ok : forall n cx, tame cx n -> exists n', goes cx n n'.
  Proof.
    fix IH 1. intros n cx. destruct n as [c|c r ps args|a c r ps args prev]; intros H.
    - exists (EPrem c). repeat split; auto.
    - cbn [tame] in H. destruct H as [Hs H].
      assert (G : Forall (fun n => exists n', goes cx n n') ps). { clear Hs. induction ps as [|p ps IHp]; constructor; [apply IH, H|apply IHp, H]. }
      destruct (goes_list cx ps G) as (ps' & I1 & I2 & I3 & I4 & I5 & I6). unfold goes, reorder_pass. rewrite pass_step. fold reorder_pass. rewrite I1. cbn [obind].
      assert (Keep : forall d, r <> "reordering" -> reorder_step c r ps' args (negb (forallb is_leaf ps)) = ROk (EStep d r ps' args) -> Permutation c d -> (order_rule r = false -> d = c) ->
        run other r (mkRA d (map eclause ps') args cx None []) ->
        exists n', reorder_step c r ps' args (negb (forallb is_leaf ps)) = ROk n' /\ Permutation (eclause (EStep c r ps args)) (eclause n') /\
          (steady (EStep c r ps args) -> eclause n' = eclause (EStep c r ps args)) /\ accepted cx n' /\ no_reordering n').
      { intros d Hr E HP Hd Ha. exists (EStep d r ps' args). split; [exact E|]. cbn [eclause]. split; [exact HP|]. split; [|split].
        - unfold steady. cbn [eclause]. intros [HL|HL]; [apply perm_short; auto|auto].
        - apply accepted_step. split; [exact Ha|exact I3].
        - cbn [no_reordering]. split; [exact Hr|]. apply no_reordering_all. exact I4. }
      assert (Leaf : forallb is_leaf ps = true -> r <> "reordering" -> exists n', reorder_step c r ps' args (negb (forallb is_leaf ps)) = ROk n' /\ Permutation (eclause (EStep c r ps args)) (eclause n') /\
          (steady (EStep c r ps args) -> eclause n' = eclause (EStep c r ps args)) /\ accepted cx n' /\ no_reordering n').
      { intros HL Hr. apply (Keep c); auto.
        - unfold reorder_step. rewrite HL. cbn [negb]. destruct (String.eqb_spec r "reordering"); [contradiction|reflexivity].
        - rewrite (I6 HL). apply tame_accepted. exact Hs. }
      inversion Hs as [H1|H1|H1 H2|r' H1 H2 H3|r' H1 H2 H3]; subst.
      + apply reordering_inv in H1. destruct H1 as (p & Ep & HP). destruct ps as [|q [|q2 ps]]; try discriminate. cbn [map] in Ep. injection Ep as <-.
        inversion I2 as [|? q' ? l2 P1 P2 E1 E2]; subst. destruct ps' as [|n' [|n2 ps']]; try discriminate; [|cbn [map] in E2; injection E2 as _ E2; subst l2; inversion P2].
        cbn [map] in E2. injection E2 as E2 E3. subst q'. inversion I3; subst. inversion I4; subst. exists n'. cbn [reorder_step String.eqb Ascii.eqb Bool.eqb idx nth_error unwrap]. split; [reflexivity|].
        cbn [eclause]. assert (HP' : Permutation c (eclause n')) by (etransitivity; eauto). split; [exact HP'|]. split; [|auto]. unfold steady. cbn [eclause].
        intros [HL|HL]; [apply perm_short; auto|discriminate].
      + destruct (forallb is_leaf ps) eqn:EL; [apply Leaf; [auto|discriminate]|]. apply weakening_inv in H1. destruct H1 as (p & w & Ep & Ec). subst c.
        rewrite Ep in I2. inversion I2 as [|? p' ? l2 P1 P2 E1 E2]; subst. inversion P2; subst. apply (Keep (p' ++ w)).
        * discriminate.
        * cbn [negb]. unfold reorder_step. cbn [String.eqb Ascii.eqb Bool.eqb]. unfold recompute_weakening. rewrite <- E2. cbn [idx nth_error unwrap obind].
          replace (List.length p' <=? List.length (p ++ w)) with true by (symmetry; apply Nat.leb_le; rewrite app_length, (Permutation_length P1); lia). cbn [passert obind].
          rewrite <- (Permutation_length P1). rewrite skipn_app, skipn_all, Nat.sub_diag. reflexivity.
        * apply Permutation_app_tail, P1.
        * discriminate.
        * rewrite <- E2. apply (run_plain other "weakening" r_weakening); [cbn; tauto|]. apply weakening_ok.
      + destruct (forallb is_leaf ps) eqn:EL; [apply Leaf; [auto|discriminate]|]. apply contraction_inv in H1. destruct H1 as (p & Ep & HSa).
        rewrite Ep in I2. inversion I2 as [|? p' ? l2 P1 P2 E1 E2]; subst. inversion P2; subst.
        assert (HP : Permutation c (Utils.dedup term_eqb p')).
        { apply NoDup_Permutation; [exact H2|apply (Utils.dedup_NoDup term_eqb term_eqb_eq)|]. intros t. rewrite (Utils.dedup_In term_eqb term_eqb_eq), (HSa t). apply (perm_same _ _ P1). }
        apply (Keep (Utils.dedup term_eqb p')); auto; try discriminate.
        * cbn [negb]. unfold reorder_step. cbn [String.eqb Ascii.eqb Bool.eqb]. unfold recompute_contraction. rewrite <- E2. cbn [idx nth_error unwrap obind].
          rewrite (Permutation_length HP), Nat.eqb_refl. reflexivity.
        * rewrite <- E2. apply (run_plain other "contraction" r_contraction); [cbn; tauto|]. apply contraction_ok.
      + assert (Hr : r <> "reordering" /\ String.eqb r "reordering" = false /\ String.eqb r "weakening" = false /\ String.eqb r "contraction" = false /\ order_rule r = true).
        { unfold is_res in H1. apply orb_true_iff in H1. destruct H1 as [H1|H1]; apply String.eqb_eq in H1; subst r; (split; [discriminate|]); repeat split. }
        destruct Hr as (Hr & R1 & R2 & R3 & R4). destruct H3 as [HL|(d & Hd & HP)]; [apply Leaf; auto|]. destruct (forallb is_leaf ps) eqn:EL; [apply Leaf; auto|].
        destruct (recompute_perm _ _ _ _ Hd I2) as (d' & Ed' & HP'). assert (HPc : Permutation c d') by (rewrite <- HP'; symmetry; exact HP).
        apply (Keep d'); auto; [|congruence|].
        * cbn [negb]. unfold reorder_step. rewrite R1, R2, R3, H1. cbn [orb]. rewrite Ed'. reflexivity.
        * pose proof (resolution_perm _ _ _ _ _ H2 I2 HPc) as Hx.
          unfold is_res in H1. apply orb_true_iff in H1. destruct H1 as [H1|H1]; apply String.eqb_eq in H1; subst r; eapply run_plain with (r := r_resolution_with_args); try exact Hx; cbn; tauto.
      + destruct (order_rule_no r H1) as (Hr & R1 & R2 & R3 & R4). apply (Keep c); auto.
        * unfold reorder_step. rewrite R1, R2, R3, R4. destruct (negb (forallb is_leaf ps)); reflexivity.
        * rewrite (I5 H3). exact H2.
    - cbn [tame] in H. destruct H as (Hs & HS1 & HS2 & H & Hp).
      assert (G : Forall (fun n => exists n', goes cx n n') ps). { clear Hs HS1. induction ps as [|p ps IHp]; constructor; [apply IH, H|apply IHp, H]. }
      destruct (goes_list cx ps G) as (ps' & I1 & I2 & I3 & I4 & I5 & I6). destruct (IH prev (a :: cx) Hp) as (prev' & G1 & G2 & G3 & G4 & G5).
      exists (ESub a c r ps' args prev'). unfold goes, reorder_pass. rewrite pass_sub. fold reorder_pass. rewrite I1. cbn [obind]. rewrite G1. split; [reflexivity|].
      split; [reflexivity|]. split; [reflexivity|]. split; [apply accepted_sub; rewrite (I5 HS1), (G3 HS2); auto|]. cbn [no_reordering]. split; [apply no_reordering_all; exact I4|exact G5].
  Qed.

  (** ** uncrowding a whole proof, and then removing its reordering steps *)
  Inductive ready_step (cx : list (list anchor)) (c : clause) (ps : list enode) (args : list term) : string -> Prop :=
  | Y_reordering : r_reordering c (map eclause ps) args = ROk tt -> ready_step cx c ps args "reordering"
  | Y_weakening : r_weakening c (map eclause ps) args = ROk tt -> ready_step cx c ps args "weakening"
  | Y_contraction : r_contraction c (map eclause ps) args = ROk tt -> NoDup c -> ready_step cx c ps args "contraction"
  | Y_resolution r : is_res r = true -> r_resolution_with_args c (map eclause ps) args = ROk tt -> args <> [] ->
      no_return (res_steps (map eclause ps) args) -> first_once (map eclause ps) args -> ready_step cx c ps args r
  | Y_other r : order_rule r = false -> run other r (mkRA c (map eclause ps) args cx None []) -> Forall steady ps -> ready_step cx c ps args r.
  Fixpoint ready (cx : list (list anchor)) (n : enode) : Prop :=
    match n with
    | EPrem _ => True
    | EStep c r ps args => ready_step cx c ps args r /\ (fix all (l : list enode) : Prop := match l with [] => True | x :: l => ready cx x /\ all l end) ps
    | ESub a c r ps args prev =>
        run other r (mkRA c (map eclause ps) args (a :: cx) (Some (eclause prev)) []) /\ Forall steady ps /\ steady prev /\
        (fix all (l : list enode) : Prop := match l with [] => True | x :: l => ready cx x /\ all l end) ps /\ ready (a :: cx) prev
    end.
  Definition uncrowds (cx : list (list anchor)) (n n' : enode) : Prop :=
    uncrowd_pass n = ROk n' /\ eclause n' = eclause n /\ tame cx n' /\ (steady n -> steady n').
  Lemma uncrowds_list cx ps : Forall (fun n => exists n', uncrowds cx n n') ps ->
    exists ps', omap uncrowd_pass ps = ROk ps' /\ map eclause ps' = map eclause ps /\ Forall (tame cx) ps' /\ (Forall steady ps -> Forall steady ps').
  Proof.
    induction 1 as [|n ps (n' & G1 & G2 & G3 & G4) H (ps' & I1 & I2 & I3 & I4)]; [exists []; repeat split; auto|].
    exists (n' :: ps'). cbn [omap map]. rewrite G1, I1. split; [reflexivity|]. split; [congruence|]. split; [constructor; auto|]. intros HS. inversion HS; subst. constructor; auto.
  Qed.
  Lemma uncrowd_tame cx c ps args : r_resolution_with_args c (map eclause ps) args = ROk tt -> Forall (tame cx) ps ->
    no_return (res_steps (map eclause ps) args) -> first_once (map eclause ps) args ->
    exists n, uncrowd c ps args = ROk n /\ eclause n = c /\ tame cx n.
  Proof.
    intros H1 H2 H3 H4. destruct (uncrowd_keeps (tame cx)) with (5 := H1) (6 := H2) as (n & E1 & E2 & E3 & _); auto; [..|exists n; auto].
    - intros c' qs a HF HR HC. cbn [tame]. split; [|apply tame_all; exact HF]. apply T_resolution; [reflexivity|exact HR|]. right. exists c'. auto.
    - intros n Hn. cbn [tame]. split; [|auto]. apply T_contraction; [apply contraction_ok|apply (Utils.dedup_NoDup term_eqb term_eqb_eq)].
    - intros n w Hn. cbn [tame]. split; [|auto]. apply T_weakening. apply weakening_ok.
    - intros n c' Hn HP. cbn [tame]. split; [|auto]. apply T_reordering. apply reordering_ok. exact HP.
  Qed.
  Theorem uncrowd_pass_ok : forall n cx, ready cx n -> exists n', uncrowds cx n n'.
  Proof.
    fix IH 1. intros n cx. destruct n as [c|c r ps args|a c r ps args prev]; intros H.
    - exists (EPrem c). repeat split; auto.
    - cbn [ready] in H. destruct H as [Hs H].
      assert (G : Forall (fun n => exists n', uncrowds cx n n') ps). { clear Hs. induction ps as [|p ps IHp]; constructor; [apply IH, H|apply IHp, H]. }
      destruct (uncrowds_list cx ps G) as (ps' & I1 & I2 & I3 & I4). unfold uncrowds, uncrowd_pass. rewrite pass_step. fold uncrowd_pass. rewrite I1. cbn [obind].
      assert (Keep : is_res r = false -> tame_step cx c ps' args r -> exists n', uncrowd_step c r ps' args (negb (forallb is_leaf ps)) = ROk n' /\ eclause n' = eclause (EStep c r ps args) /\ tame cx n' /\
        (steady (EStep c r ps args) -> steady n')).
      { intros Hr Ht. exists (EStep c r ps' args). split; [unfold uncrowd_step; rewrite Hr; destruct args; reflexivity|]. split; [reflexivity|]. split; [|auto].
        cbn [tame]. split; [exact Ht|apply tame_all; exact I3]. }
      inversion Hs as [H1|H1|H1 H2|r' H1 H2 H3 H4 H5|r' H1 H2 H3]; subst.
      + apply Keep; [reflexivity|]. apply T_reordering. rewrite I2. exact H1.
      + apply Keep; [reflexivity|]. apply T_weakening. rewrite I2. exact H1.
      + apply Keep; [reflexivity|]. apply T_contraction; [rewrite I2; exact H1|exact H2].
      + rewrite <- I2 in H2, H4, H5. destruct (uncrowd_tame cx c ps' args H2 I3 H4 H5) as (n' & E1 & E2 & E3).
        exists n'. split; [unfold uncrowd_step; rewrite H1; destruct args; [congruence|exact E1]|]. split; [exact E2|]. split; [exact E3|].
        unfold steady. rewrite E2. cbn [eclause]. intros [HL|HL]; [auto|]. exfalso.
        unfold is_res in H1. apply orb_true_iff in H1. destruct H1 as [H1|H1]; apply String.eqb_eq in H1; subst r; discriminate HL.
      + assert (Hr : is_res r = false). { destruct (order_rule_no r H1) as (_ & _ & _ & _ & R4). apply orb_false_iff in R4. apply R4. }
        apply Keep; [exact Hr|]. apply T_other; [exact H1|rewrite I2; exact H2|auto].
    - cbn [ready] in H. destruct H as (Hs & HS1 & HS2 & H & Hp).
      assert (G : Forall (fun n => exists n', uncrowds cx n n') ps). { clear Hs HS1. induction ps as [|p ps IHp]; constructor; [apply IH, H|apply IHp, H]. }
      destruct (uncrowds_list cx ps G) as (ps' & I1 & I2 & I3 & I4). destruct (IH prev (a :: cx) Hp) as (prev' & G1 & G2 & G3 & G4).
      exists (ESub a c r ps' args prev'). unfold uncrowds, uncrowd_pass. rewrite pass_sub. fold uncrowd_pass. rewrite I1. cbn [obind]. rewrite G1. split; [reflexivity|].
      split; [reflexivity|]. split; [|unfold steady; cbn [eclause]; auto]. cbn [tame]. rewrite I2, G2. split; [exact Hs|]. split; [auto|]. split; [auto|]. split; [apply tame_all; exact I3|exact G3].
  Qed.
  Theorem last_passes_ok n cx : ready cx n -> exists n1 n2, uncrowd_pass n = ROk n1 /\ reorder_pass n1 = ROk n2 /\
    eclause n1 = eclause n /\ Permutation (eclause n) (eclause n2) /\ (steady n -> eclause n2 = eclause n) /\ accepted cx n2 /\ no_reordering n2.
  Proof.
    intros H. destruct (uncrowd_pass_ok n cx H) as (n1 & U1 & U2 & U3 & U4). destruct (reorder_ok n1 cx U3) as (n2 & G1 & G2 & G3 & G4 & G5).
    exists n1, n2. rewrite <- U2. split; [exact U1|]. split; [exact G1|]. split; [reflexivity|]. split; [exact G2|]. split; [intros HS; apply G3, U4, HS|auto].
  Qed.
End Reorder.
