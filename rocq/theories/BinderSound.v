(** Conditions under which the rules of R_Binder.v are sound. *)
From Coq Require Import List String ZArith Bool Arith Lia.
From Verif Require Import Base Term Field Sem Sorting Rules Utils Polyeq Std PolyeqSound R_Simp Subst SubstSound SubstClean AlphaSound
  Checker CheckerSound CheckerSem Context ContextSound R_Binder.
Import ListNotations.
Local Open Scope nat_scope.
Local Notation doms I := (Forall2 (fun s v => idom I s v = true)).

Lemma svmem_In v l : svmem v l = true <-> In v l.
Proof. destruct v. apply svar_mem. Qed.
Fixpoint nodup_sv (l : list (string * sort)) : bool :=
  match l with [] => true | v :: r => negb (svmem v r) && nodup_sv r end.
Lemma nodup_sv_spec l : nodup_sv l = true -> NoDup l.
Proof.
  induction l as [|v l IH]; cbn [nodup_sv]; intros H; [constructor|]. apply andb_true_iff in H. destruct H as [H1 H2].
  constructor; auto. intros Hi. apply svmem_In in Hi. rewrite Hi in H1. discriminate.
Qed.
Fixpoint sv_index (v : string * sort) (l : list (string * sort)) : option nat :=
  match l with [] => None | w :: r => if svar_eqb v w then Some 0 else option_map S (sv_index v r) end.
Lemma sv_index_some v l k : sv_index v l = Some k -> nth_error l k = Some v.
Proof.
  revert k. induction l as [|w l IH]; cbn [sv_index]; intros k H; [discriminate|]. destruct (svar_eqb v w) eqn:E.
  - injection H as <-. apply svar_eqb_eq in E. subst. reflexivity.
  - destruct (sv_index v l) as [j|]; [|discriminate]. injection H as <-. apply IH. reflexivity.
Qed.
Lemma sv_index_none v l : sv_index v l = None -> ~ In v l.
Proof.
  induction l as [|w l IH]; cbn [sv_index]; intros H; [intros []|]. destruct (svar_eqb v w) eqn:E; [discriminate|].
  destruct (sv_index v l); [discriminate|]. intros [->|Hi]; [|apply IH; auto].
  assert (svar_eqb v v = true) by (apply svar_eqb_eq; reflexivity). congruence.
Qed.
Lemma upds_index {I} (l : list (string * sort)) : forall (E : env I) vals x s k, NoDup l -> List.length l = List.length vals ->
  sv_index (x, s) l = Some k -> nth_error vals k = Some (upds E l vals x s).
Proof.
  induction l as [|[y sy] l IH]; intros E [|v vals] x s k Hn Hl; cbn [sv_index]; try discriminate.
  apply NoDup_cons_iff in Hn. destruct Hn as [Hn1 Hn2]. cbn [upds]. destruct (svar_eqb (x, s) (y, sy)) eqn:Eq.
  - intros H. injection H as <-. apply svar_eqb_eq in Eq. injection Eq as -> ->. cbn [nth_error]. rewrite upds_notin by auto.
    rewrite upd_same. reflexivity.
  - destruct (sv_index (x, s) l) as [j|] eqn:Ej; [|discriminate]. intros H. injection H as <-. cbn [nth_error]. apply IH; auto.
Qed.
Lemma doms_nth {I} ss (vals : list (value I)) : doms I ss vals -> forall k s, nth_error ss k = Some s -> exists v, nth_error vals k = Some v /\ idom I s v = true.
Proof.
  induction 1 as [|s v ss vals H1 H2 IH]; intros [|k] s' Hk; try discriminate; cbn [nth_error] in *.
  - injection Hk as <-. eauto.
  - apply IH; auto.
Qed.
Lemma eq_wt a b : bool_term (tEq a b) = true -> wt a = true /\ wt b = true /\ sort_of a = sort_of b.
Proof.
  intros H. apply eq_args_wt. apply bool_term_wt. exact H.
Qed.
Lemma one_holds {I} (E : env I) t : clause_holds E [t] <-> holds E t = true.
Proof. split; [intros [l [[<-|[]] H]]; exact H|intros H; exists t; split; [left; reflexivity|exact H]]. Qed.

(** ** bind *)
(** What is known about the value of a variable inside the anchor: the value of the [n]-th bound variable, the value of a
    variable outside of the anchor, or nothing. *)
Inductive sym : Type := Slot (n : nat) | Out (v : string * sort) | Unk.
Definition sym_is (a b : sym) : bool :=
  match a, b with Slot n, Slot m => Nat.eqb n m | Out v, Out w => svar_eqb v w | _, _ => false end.
Definition sym_get (st : list ((string * sort) * sym)) (v : string * sort) : sym :=
  match find (fun p => svar_eqb v (fst p)) st with Some p => snd p | None => Out v end.
Definition sym_step (rb : list (string * sort)) (st : list ((string * sort) * sym)) (a : anchor) : list ((string * sort) * sym) :=
  match a with
  | AVar v => match sv_index v rb with Some k => (v, Slot k) :: st | None => st end
  | AAssign v t => (v, match t with TVar y s => sym_get st (y, s) | _ => Unk end) :: st
  end.
Definition sym_run (rb : list (string * sort)) (a : list anchor) := fold_left (sym_step rb) a [].
(** the value of [v] below the binders [bs] *)
Definition sym_bound (bs : list (string * sort)) (v : string * sort) : sym :=
  match sv_index v bs with Some k => Slot k | None => Out v end.
(** the free variables of [t] mean the same inside the anchor as below the binders [bs] *)
Definition same_meaning (rb : list (string * sort)) (a : list anchor) (cand bs : list (string * sort)) (t : term) : bool :=
  forallb (fun v => negb (free_in (fst v) (snd v) t) || sym_is (sym_get (sym_run rb a) v) (sym_bound bs v)) cand.
Definition bind_side (ra : rargs) : bool :=
  match ra_concl ra, ra_ctx ra with
  | [c], a :: _ =>
      match op2 OEquals c with
      | Some (TBind _ lb phi, TBind _ rb phi') =>
          let cand := map bound_var a ++ lb ++ rb in
          nodup_sv lb && nodup_sv rb && list_eqb sort_eqb (map snd lb) (map snd rb) &&
          same_meaning rb a cand lb phi && same_meaning rb a cand rb phi'
      | _ => false
      end
  | _, _ => false
  end.

Section Bind.
  Context {I : interp}.
  Variable E : env I.
  Variable rb : list (string * sort).
  Variable vals : list (value I).
  Hypothesis Hvals : doms I (map snd rb) vals.
  Definition sym_val (y : sym) : option (value I) :=
    match y with Slot k => nth_error vals k | Out v => Some (E (fst v) (snd v)) | Unk => None end.
  Definition known (st : list ((string * sort) * sym)) (E0 : env I) : Prop :=
    forall x s w, sym_val (sym_get st (x, s)) = Some w -> E0 x s = w.
  Lemma known_cons st E0 x s y v : known st E0 -> (forall w, sym_val y = Some w -> v = w) -> known (((x, s), y) :: st) (upd E0 x s v).
  Proof.
    intros H Hv x' s' w. unfold sym_get. cbn [find fst snd]. destruct (svar_eqb (x', s') (x, s)) eqn:Eq.
    - intros Hw. apply svar_eqb_eq in Eq. injection Eq as -> ->. rewrite upd_same. apply Hv; auto.
    - intros Hw. rewrite upd_other; [apply H; exact Hw|]. intros Hq. rewrite Hq in Eq.
      assert (svar_eqb (x, s) (x, s) = true) by (apply svar_eqb_eq; reflexivity). congruence.
  Qed.
  Lemma sim a : forall st E0, known st E0 -> env_ok E0 -> forallb anchor_wt a = true ->
    exists E', ext a E0 E' /\ known (fold_left (sym_step rb) a st) E'.
  Proof.
    induction a as [|b a IH]; intros st E0 Hk HE Hw; [exists E0; split; [constructor|exact Hk]|].
    cbn [forallb] in Hw. apply andb_true_iff in Hw. destruct Hw as [Hb Hw]. cbn [fold_left]. destruct b as [[x s]|[x s] t]; cbn [sym_step].
    - destruct (sv_index (x, s) rb) as [k|] eqn:Ek.
      + apply sv_index_some in Ek. apply (map_nth_error snd) in Ek. destruct (doms_nth _ _ Hvals _ _ Ek) as [v [Hv Hd]].
        destruct (IH (((x, s), Slot k) :: st) (upd E0 x s v)) as [E' [H1 H2]]; auto.
        * apply known_cons; auto. intros w. cbn [sym_val]. congruence.
        * apply env_ok_upd; auto.
        * exists E'. split; [econstructor; eauto|auto].
      + destruct (IH st (upd E0 x s (E0 x s))) as [E' [H1 H2]]; auto.
        * intros x' s' w Hx. unfold upd. destruct (String.eqb x' x && sort_eqb s' s) eqn:Eq; [|apply Hk; auto].
          apply andb_true_iff in Eq. destruct Eq as [Q1 Q2]. apply String.eqb_eq in Q1. apply sort_eqb_eq in Q2. subst. apply Hk; auto.
        * apply env_ok_upd; auto.
        * exists E'. split; [apply (ext_var _ _ (E0 x s)); auto|auto].
    - cbn in Hb. apply andb_true_iff in Hb. destruct Hb as [Ht Hs]. apply sort_eqb_eq in Hs. subst.
      match goal with |- context [fold_left _ a (?e :: st)] => destruct (IH (e :: st) (upd E0 x (sort_of t) (eval t E0))) as [E' [H1 H2]]; auto end.
      + apply known_cons; auto. destruct t; try discriminate. intros w Hx. cbn [eval]. apply Hk; auto.
      + apply env_ok_upd; auto. apply eval_dom; auto.
      + exists E'. split; [econstructor; eauto|auto].
  Qed.
  Lemma sym_is_eq a b : sym_is a b = true -> a = b.
  Proof.
    destruct a, b; cbn; try discriminate; intros H; [apply Nat.eqb_eq in H; congruence|apply svar_eqb_eq in H; congruence].
  Qed.
  (** where the condition holds, [t] has the same value *)
  Lemma meaning a E' bs t : ext a E E' -> known (sym_run rb a) E' -> NoDup bs -> List.length bs = List.length vals ->
    forall cand, incl (map bound_var a) cand -> incl bs cand -> same_meaning rb a cand bs t = true -> eval t E' = eval t (upds E bs vals).
  Proof.
    intros He Hk Hn Hl cand Ha Hb H. apply eval_agree. intros x s Hf. unfold same_meaning in H. rewrite forallb_forall in H.
    destruct (svmem (x, s) cand) eqn:Em.
    - apply svmem_In in Em. specialize (H _ Em). cbn [fst snd] in H. rewrite Hf in H. cbn [negb orb] in H. apply sym_is_eq in H.
      apply Hk. rewrite H. unfold sym_bound. destruct (sv_index (x, s) bs) as [k|] eqn:Ek; cbn [sym_val fst snd].
      + apply upds_index; auto.
      + f_equal. symmetry. apply upds_notin. apply sv_index_none; auto.
    - assert (Hni : ~ In (x, s) cand) by (rewrite <- svmem_In; congruence).
      rewrite (ext_notin _ _ _ He) by auto. symmetry. apply upds_notin. auto.
  Qed.
End Bind.
Lemma known_nil {I} (E : env I) vals : known E vals [] E.
Proof. intros x s w H. cbn in H. congruence. Qed.

Lemma end_setup ra a cx prev : ra_wt ra = true -> ra_ctx ra = a :: cx -> ra_prev ra = Some prev -> no_disch ra = true ->
  clause_wt (ra_concl ra) = true /\ forallb clause_wt (ra_prems ra) = true /\ forallb anchor_wt a = true /\
  forallb (forallb anchor_wt) cx = true /\ clause_wt prev = true /\ ra_disch ra = [].
Proof.
  intros Hw Hcx Hp Hd. unfold ra_wt in Hw. rewrite Hp, Hcx in Hw. rewrite !andb_true_iff in Hw. cbn [forallb] in Hw.
  rewrite andb_true_iff in Hw. unfold no_disch in Hd. destruct (ra_disch ra); [|discriminate]. tauto.
Qed.
Lemma clause_wt_one t : clause_wt [t] = true -> bool_term t = true.
Proof. unfold clause_wt. cbn [forallb]. rewrite andb_true_r. auto. Qed.
Ltac rpairs := repeat match goal with x : (_ * _)%type |- _ => destruct x end; cbn [fst snd] in *.
Lemma as_binder_ok t r : ok_or (as_binder t) = ROk r -> t = TBind (fst (fst r)) (snd (fst r)) (snd r).
Proof. destruct t; cbn; try discriminate. intros H. injection H as <-. reflexivity. Qed.
Lemma binder_beq_eq a b : binder_beq a b = true -> a = b.
Proof. destruct a, b; cbn; congruence. Qed.
Lemma idx0 {A} (x y : A) : idx [x] 0 = ROk y -> y = x.
Proof. cbn. congruence. Qed.
Lemma r_bind_inv ra prev : r_bind ra = ROk tt -> ra_prev ra = Some prev ->
  exists b lb phi rb phi', prev = [tEq phi phi'] /\ ra_concl ra = [tEq (TBind b lb phi) (TBind b rb phi')].
Proof.
  unfold r_bind. intros H Hp. rewrite Hp in H. cbn [ok_or obind] in H. rinv. rpairs.
  match goal with H : ra_concl ra = _ |- _ => rewrite H in *; apply idx0 in H3; subst end.
  apply as_binder_ok in H5, H6. cbn [fst snd] in *. subst. rinv. match goal with H : binder_beq _ _ = true |- _ => apply binder_beq_eq in H end. subst. do 5 eexists. split; reflexivity.
Qed.
Lemma op2_tEq a b : op2 OEquals (tEq a b) = Some (a, b).
Proof. reflexivity. Qed.
Lemma holds_tEq {I} (E : env I) a b : eval a E = eval b E -> clause_holds E [tEq a b].
Proof. intros H. apply one_holds. apply holds_eq_iff. exact H. Qed.
Lemma tEq_holds {I} (E : env I) a b : clause_holds E [tEq a b] -> eval a E = eval b E.
Proof. intros H. apply one_holds in H. apply holds_eq_iff. exact H. Qed.
Lemma bind_end : end_sound r_bind (fun ra => bind_side ra && no_disch ra).
Proof.
  intros ra a cx prev H Hs Hw Hcx Hp I E HE Hin. apply andb_true_iff in Hs. destruct Hs as [Hs Hd].
  destruct (end_setup _ _ _ _ Hw Hcx Hp Hd) as [Wc [_ [Wa [Wcx [Wp Ed]]]]].
  destruct (r_bind_inv _ _ H Hp) as [b [lb [phi [rb [phi' [-> Ec]]]]]]. rewrite Ec in *.
  unfold bind_side in Hs. rewrite Ec, Hcx, op2_tEq in Hs. rewrite !andb_true_iff in Hs. destruct Hs as [[[[N1 N2] Hss] M1] M2].
  apply nodup_sv_spec in N1, N2. apply list_eqb_eq in Hss; [|apply sort_eqb_eq].
  pose proof (in_ctx_ok _ _ HE Wcx) as HEok. apply clause_wt_one, eq_wt in Wp. destruct Wp as [_ [_ Es]].
  apply holds_tEq. cbn [eval]. rewrite Es. apply eval_bind_ext2; [exact Hss|]. intros vals Hv'.
  assert (Hv : doms I (map snd lb) vals) by (rewrite Hss; exact Hv').
  destruct (sim E rb vals Hv' a [] E (known_nil E vals) HEok Wa) as [E' [He Hk]].
  assert (L1 : List.length rb = List.length vals) by (apply doms_length in Hv'; rewrite map_length in Hv'; auto).
  assert (L2 : List.length lb = List.length vals) by (apply doms_length in Hv; rewrite map_length in Hv; auto).
  destruct (Hin E' He) as [_ Hpe]; [rewrite Ed; intros id t []|]. apply tEq_holds in Hpe.
  rewrite <- (meaning E rb vals a E' lb phi He Hk N1 L2 _ (incl_appl _ (incl_refl _)) (incl_appr _ (incl_appl _ (incl_refl _))) M1).
  rewrite <- (meaning E rb vals a E' rb phi' He Hk N2 L1 _ (incl_appl _ (incl_refl _)) (incl_appr _ (incl_appr _ (incl_refl _))) M2).
  exact Hpe.
Qed.

(** ** refl *)
Definition no_prev (ra : rargs) : rargs := mkRA (ra_concl ra) (ra_prems ra) (ra_args ra) (ra_ctx ra) None (ra_disch ra).
(** a rule that does not look at the previous command may end a subproof if its conclusion is closed *)
Lemma step_to_end r side : step_sound r side -> (forall ra, r (no_prev ra) = r ra /\ side (no_prev ra) = side ra) ->
  end_sound r (fun ra => side ra && (end_closed ra && no_disch ra)).
Proof.
  intros Hr Hnp ra a cx prev H Hs Hw Hcx Hp I E HE Hin. rewrite !andb_true_iff in Hs. destruct Hs as [Hs [Hcl Hd]].
  destruct (end_setup _ _ _ _ Hw Hcx Hp Hd) as [Wc [Wps [Wa [Wcx [Wp Ed]]]]].
  pose proof (in_ctx_ok _ _ HE Wcx) as HEok. destruct (ext_exists a E HEok Wa) as [E' He].
  unfold end_closed in Hcl. rewrite Hcx in Hcl. rewrite <- (ext_clause a E E' _ He Hcl).
  destruct (Hnp ra) as [N1 N2]. apply (Hr (no_prev ra)); rewrite ?N1, ?N2; auto.
  - unfold ra_wt in *. rewrite Hp in Hw. cbn [no_prev ra_concl ra_prems ra_ctx ra_prev ra_disch]. rewrite !andb_true_iff in *. tauto.
  - cbn [no_prev ra_ctx]. rewrite Hcx. econstructor; eauto.
  - cbn [no_prev ra_prems]. apply Hin; auto. rewrite Ed. intros id t [].
Qed.
Lemma fresh_ok cx : hyg_ctx cx <> None -> forallb (forallb anchor_wt) cx = true -> stk_ok cx (fresh_stack cx).
Proof.
  induction cx as [|a cx IH]; cbn [hyg_ctx forallb fresh_stack map stk_ok]; intros H Hw; [exact Logic.I|].
  apply andb_true_iff in Hw. destruct Hw as [Ha Hw]. split; [reflexivity|]. split; [exact Ha|].
  destruct (hyg_ctx cx) as [h|] eqn:Eh; [|congruence]. split; [apply IH; [congruence|auto]|].
  destruct (hyg h a) as [h'|]; [|congruence]. exists h'. auto.
Qed.
(** the anchors are hygienic and the term does not bind any name used in them *)
Definition hygienic (cx : list (list anchor)) (t : term) : bool :=
  match hyg_ctx cx with Some h => avoids_b (hnames h) t | None => false end.
Lemma hygienic_spec cx t : hygienic cx t = true -> exists h, hyg_ctx cx = Some h /\ avoids (hnames h) t.
Proof. unfold hygienic. destruct (hyg_ctx cx) as [h|]; [|discriminate]. intros H. exists h. split; [auto|]. apply avoids_b_spec; auto. Qed.
Lemma alpha_eval a b : alpha_equiv a b = ROk true -> alpha_ok a b = true -> wt a = true -> wt b = true ->
  forall (I : interp) (E : env I), env_ok E -> eval a E = eval b E.
Proof. intros. eapply alpha_ok_sound; eauto. Qed.
(** [refl], for any stack that is right *)
Lemma refl_pair_sound cx st c a b st' : refl_pair st c = ROk (a, b, st') -> clause_wt c = true -> alpha_ok a b = true ->
  forallb (forallb anchor_wt) cx = true ->
  (c = [tEq a b] \/ stk_ok cx st /\ forall l r, c = [tEq l r] -> hygienic cx l = true /\ hygienic cx r = true) ->
  (stk_ok cx st -> stk_ok cx st') /\ forall (I : interp) (E : env I), in_ctx cx E -> clause_holds E c.
Proof.
  intros H Hw Hok Wcx Hcase.
  assert (Hc : exists l r, c = [tEq l r]).
  { unfold refl_pair in H. rinv. do 2 eexists. reflexivity. }
  destruct Hc as [l [r ->]]. apply clause_wt_one, eq_wt in Hw. destruct Hw as [Wl [Wr Es]].
  unfold refl_pair in H. cbn [len_is List.length Nat.eqb rassert obind idx nth_error unwrap] in H.
  change (m_op2 OEquals (tEq l r)) with (ROk (l, r)) in H. cbn [obind] in H.
  destruct (alpha_equiv l r) as [[|]| |] eqn:E0; try discriminate; cbn [obind] in H.
  { injection H as <- <- <-. split; [auto|]. intros I E HE. apply holds_tEq. eapply alpha_eval; eauto. eapply in_ctx_ok; eauto. }
  assert (Hx : stk_ok cx st /\ hygienic cx l = true /\ hygienic cx r = true).
  { destruct Hcase as [Hcase|[Hst Hh]]; [|split; [auto|]; apply Hh; reflexivity].
    exfalso. injection Hcase as -> ->. apply orb_true_iff in Hok.
    destruct st as [|lv st]; cbn [rassert obind] in H; [discriminate|].
    assert (Hf : forall x y : term, alpha_equiv a b = ROk false -> x = a -> y = b -> alpha_equiv x y = ROk true -> False) by congruence.
    destruct (ctx_apply (lv :: st) a) as [[l' st1]| |]; try discriminate. cbn [obind] in H.
    destruct (alpha_equiv l' b) as [[|]| |] eqn:E1; try discriminate; cbn [obind] in H.
    - injection H as -> <-. eapply Hf; eauto.
    - destruct (ctx_apply st1 b) as [[r' st2]| |]; try discriminate. cbn [obind] in H.
      destruct (alpha_equiv a r') as [[|]| |] eqn:E2; try discriminate; cbn [obind] in H.
      + injection H as -> <-. eapply Hf; eauto.
      + destruct (alpha_equiv l' r') as [[|]| |] eqn:E3; try discriminate; cbn [obind rassert] in H; try discriminate.
        injection H as -> -> <-. eapply Hf; eauto. }
  destruct Hx as [Hst [Hl Hr]]. apply hygienic_spec in Hl, Hr.
  destruct st as [|lv st]; cbn [rassert obind] in H; [discriminate|].
  destruct (apply_top _ _ _ Hst Wl Hl) as [l' [st1 [A1 [A2 [A3 [A4 A5]]]]]]. rewrite A1 in H. cbn [obind] in H.
  destruct (alpha_equiv l' r) as [[|]| |] eqn:E1; try discriminate; cbn [obind] in H.
  { injection H as <- <- <-. split; [auto|]. intros I E HE. apply holds_tEq. rewrite <- A5 by auto. eapply alpha_eval; eauto. eapply in_ctx_ok; eauto. }
  destruct (apply_top _ _ _ A2 Wr Hr) as [r' [st2 [B1 [B2 [B3 [B4 B5]]]]]]. rewrite B1 in H. cbn [obind] in H.
  destruct (alpha_equiv l r') as [[|]| |] eqn:E2; try discriminate; cbn [obind] in H.
  { injection H as <- <- <-. split; [auto|]. intros I E HE. apply holds_tEq. rewrite <- B5 by auto. eapply alpha_eval; eauto. eapply in_ctx_ok; eauto. }
  destruct (alpha_equiv l' r') as [[|]| |] eqn:E3; try discriminate; cbn [obind rassert] in H; try discriminate.
  injection H as <- <- <-. split; [auto|]. intros I E HE. apply holds_tEq. rewrite <- A5, <- B5 by auto. eapply alpha_eval; eauto. eapply in_ctx_ok; eauto.
Qed.
Definition refl_side (ra : rargs) : bool :=
  match refl_pair (fresh_stack (ra_ctx ra)) (ra_concl ra) with
  | ROk (a, b, _) =>
      alpha_ok a b &&
      match ra_concl ra with
      | [c] => match op2 OEquals c with
               | Some (l, r) => term_eqb l a && term_eqb r b || hygienic (ra_ctx ra) l && hygienic (ra_ctx ra) r
               | None => false
               end
      | _ => false
      end
  | _ => false
  end.
Lemma refl_step : step_sound r_refl refl_side.
Proof.
  intros ra H Hs Hw Hp I E HE _. unfold r_refl in H. unfold refl_side in Hs.
  destruct (refl_pair _ _) as [[[a b] st']| |] eqn:Er; try discriminate. apply andb_true_iff in Hs. destruct Hs as [Hok Hs].
  destruct (ra_concl ra) as [|c [|]] eqn:Ec; try discriminate. destruct (op2 OEquals c) as [[l r]|] eqn:Eo; [|discriminate].
  apply op2_some in Eo. subst c. change (TOp OEquals [l; r]) with (tEq l r) in *.
  unfold ra_wt in Hw. rewrite Ec in Hw. rewrite !andb_true_iff in Hw. destruct Hw as [[[[Wc _] Wcx] _] _].
  apply (refl_pair_sound (ra_ctx ra) _ _ _ _ _ Er); auto. apply orb_true_iff in Hs. rewrite !andb_true_iff in Hs. destruct Hs as [[H1 H2]|[H1 H2]].
  - left. apply term_eqb_eq in H1, H2. subst. reflexivity.
  - right. split; [|intros l' r' Hq; injection Hq as <- <-; auto]. apply fresh_ok; auto. unfold hygienic in H1. destruct (hyg_ctx _); [discriminate|congruence].
Qed.
Lemma refl_end : end_sound r_refl (fun ra => refl_side ra && (end_closed ra && no_disch ra)).
Proof. apply step_to_end; [apply refl_step|]. intros ra. split; reflexivity. Qed.

(** [strict_refl] *)
Lemma strict_refl_sound cx st c st' : strict_refl_st st c = ROk st' -> clause_wt c = true ->
  (exists t, c = [tEq t t]) \/ (stk_ok cx st /\ forall l r, c = [tEq l r] -> hygienic cx l = true) ->
  (stk_ok cx st -> stk_ok cx st') /\ forall (I : interp) (E : env I), in_ctx cx E -> clause_holds E c.
Proof.
  intros H Hw Hcase.
  assert (Hc : exists l r, c = [tEq l r]).
  { unfold strict_refl_st in H. rinv. do 2 eexists. reflexivity. }
  destruct Hc as [l [r ->]]. apply clause_wt_one, eq_wt in Hw. destruct Hw as [Wl [Wr Es]].
  unfold strict_refl_st in H. cbn [len_is List.length Nat.eqb rassert obind idx nth_error unwrap] in H.
  change (m_op2 OEquals (tEq l r)) with (ROk (l, r)) in H. cbn [obind] in H.
  destruct (term_eqb l r) eqn:E0.
  { injection H as <-. apply term_eqb_eq in E0. subst. split; [auto|]. intros. apply holds_tEq. reflexivity. }
  destruct Hcase as [[t Ht]|[Hst Hl]].
  { injection Ht as -> ->. assert (term_eqb t t = true) by (apply term_eqb_eq; reflexivity). congruence. }
  specialize (Hl _ _ eq_refl). apply hygienic_spec in Hl. destruct st as [|lv st]; cbn [rassert obind] in H; [discriminate|].
  destruct (apply_top _ _ _ Hst Wl Hl) as [l' [st1 [A1 [A2 [A3 [A4 A5]]]]]]. rewrite A1 in H. cbn [obind] in H.
  destruct (term_eqb l' r) eqn:E1; [|discriminate]. cbn [rassert obind] in H. injection H as <-. apply term_eqb_eq in E1. subst.
  split; [auto|]. intros I E HE. apply holds_tEq. symmetry. apply A5; auto.
Qed.
Definition strict_refl_side (ra : rargs) : bool :=
  match ra_concl ra with
  | [c] => match op2 OEquals c with Some (l, r) => term_eqb l r || hygienic (ra_ctx ra) l | None => false end
  | _ => false
  end.
Lemma strict_refl_step : step_sound r_strict_refl strict_refl_side.
Proof.
  intros ra H Hs Hw Hp I E HE _. unfold r_strict_refl in H. unfold strict_refl_side in Hs.
  destruct (strict_refl_st _ _) as [st'| |] eqn:Er; try discriminate.
  destruct (ra_concl ra) as [|c [|]] eqn:Ec; try discriminate. destruct (op2 OEquals c) as [[l r]|] eqn:Eo; [|discriminate].
  apply op2_some in Eo. subst c. change (TOp OEquals [l; r]) with (tEq l r) in *.
  unfold ra_wt in Hw. rewrite Ec in Hw. rewrite !andb_true_iff in Hw. destruct Hw as [[[[Wc _] Wcx] _] _].
  apply (strict_refl_sound (ra_ctx ra) _ _ _ Er); auto. apply orb_true_iff in Hs. destruct Hs as [H1|H1].
  - left. apply term_eqb_eq in H1. subst. eauto.
  - right. split; [|intros l' r' Hq; injection Hq as <- <-; auto]. apply fresh_ok; auto. unfold hygienic in H1. destruct (hyg_ctx _); [discriminate|congruence].
Qed.
Lemma strict_refl_end : end_sound r_strict_refl (fun ra => strict_refl_side ra && (end_closed ra && no_disch ra)).
Proof. apply step_to_end; [apply strict_refl_step|]. intros ra. split; reflexivity. Qed.

(** ** let *)
Lemma omap_Forall2 {A B} (f : A -> outcome B) l : forall r, omap f l = ROk r -> Forall2 (fun a b => f a = ROk b) l r.
Proof.
  induction l as [|a l IH]; cbn [omap]; intros r H; [injection H as <-; constructor|].
  apply obind_ok in H. destruct H as [b [Hb H]]. apply obind_ok in H. destruct H as [r' [Hr H]]. injection H as <-. constructor; auto.
Qed.
Lemma asg_map_gen l : forall m k t,
  sget (fold_left (fun m p => sins m (TVar (fst (asg_key p)) (snd (asg_key p))) (snd p)) l m) k = Some t ->
  sget m k = Some t \/ exists p, In p l /\ k = TVar (fst (asg_key p)) (snd (asg_key p)) /\ t = snd p.
Proof.
  induction l as [|p l IH]; cbn [fold_left]; intros m k t H; [auto|]. apply IH in H. destruct H as [H|[q [H1 H2]]].
  - rewrite sget_sins in H. destruct (term_eqb _ _) eqn:E in H; [|auto]. apply term_eqb_eq in E. right. exists p. split; [left; reflexivity|].
    split; [exact E|congruence].
  - right. exists q. split; [right; auto|auto].
Qed.
Lemma asg_map_get a k t : sget (asg_map a) k = Some t -> exists p, In p (assigns a) /\ k = TVar (fst (asg_key p)) (snd (asg_key p)) /\ t = snd p.
Proof. intros H. apply asg_map_gen in H. destruct H as [H|H]; [discriminate|exact H]. Qed.
Lemma sins_len m k t : sget m k = None -> List.length (sins m k t) = S (List.length m).
Proof.
  unfold sget, sins. induction m as [|[a b] m IH]; cbn [im_get im_insert]; [reflexivity|]. destruct (term_eqb k a) eqn:E; [discriminate|].
  intros H. cbn [List.length]. rewrite IH; auto.
Qed.
Lemma asg_map_len_gen l : forall m, NoDup (map asg_key l) -> (forall p, In p l -> sget m (TVar (fst (asg_key p)) (snd (asg_key p))) = None) ->
  List.length (fold_left (fun m p => sins m (TVar (fst (asg_key p)) (snd (asg_key p))) (snd p)) l m) = List.length m + List.length l.
Proof.
  induction l as [|p l IH]; cbn [fold_left map List.length]; intros m Hn Hm; [lia|]. apply NoDup_cons_iff in Hn. destruct Hn as [H1 H2].
  rewrite IH; auto.
  - rewrite sins_len by (apply Hm; left; reflexivity). lia.
  - intros q Hq. rewrite sget_sins. destruct (term_eqb _ _) eqn:E; [|apply Hm; right; auto]. apply term_eqb_eq in E. exfalso. apply H1.
    apply in_map_iff. exists q. split; [|auto]. destruct (asg_key q), (asg_key p). cbn in E. congruence.
Qed.
Lemma asg_map_len a : NoDup (map asg_key (assigns a)) -> List.length (asg_map a) = List.length (assigns a).
Proof. intros H. unfold asg_map. rewrite asg_map_len_gen; auto. Qed.
Lemma assigns_key a : forallb anchor_wt a = true -> forall p, In p (assigns a) -> asg_key p = fst p /\ wt (snd p) = true.
Proof.
  intros H p Hp. unfold assigns in Hp. apply in_flat_map in Hp. destruct Hp as [[v|[x s] t] [Hb Hp]]; [destruct Hp|]. destruct Hp as [<-|[]].
  rewrite forallb_forall in H. specialize (H _ Hb). cbn in H. apply andb_true_iff in H. destruct H as [H1 H2]. apply sort_eqb_eq in H2.
  unfold asg_key. cbn. rewrite H2. auto.
Qed.
Lemma map_asg_key a : forallb anchor_wt a = true -> map asg_key (assigns a) = map fst (assigns a).
Proof. intros H. apply map_ext_in. intros p Hp. apply (assigns_key a H p Hp). Qed.
Lemma decls_nil a : decls a = [] -> map bound_var a = map fst (assigns a).
Proof.
  induction a as [|[v|v t] a IH]; cbn; intros H; [reflexivity|discriminate|]. f_equal. auto.
Qed.
(** [t] mentions none of the variables of the anchor *)
Definition closed_term (a : list anchor) (t : term) : bool := forallb (fun b => free_of b t) a.
(** inside an anchor of assignments whose terms do not mention the assigned variables *)
Lemma asg_ext {I} a : forall E E' : env I, ext a E E' -> decls a = [] -> NoDup (map fst (assigns a)) ->
  forall U, incl a U -> (forall p, In p (assigns a) -> closed_term U (snd p) = true) ->
  forall x s t, In ((x, s), t) (assigns a) -> E' x s = eval t E.
Proof.
  induction a as [|[v|[y sy] t0] a IH]; intros E E' H Hd Hn U HU Hc x s t Hin; [destruct Hin|discriminate|].
  inversion H; subst. cbn in Hd, Hn, Hin. apply NoDup_cons_iff in Hn. destruct Hn as [Hn1 Hn2].
  destruct Hin as [Hq|Hin].
  - injection Hq as -> -> ->. match goal with He : ext a _ _ |- _ => rewrite (ext_notin _ _ _ He) end.
    + apply upd_same.
    + rewrite decls_nil by auto. exact Hn1.
  - match goal with He : ext a _ _ |- _ => rewrite (IH _ _ He Hd Hn2 U) with (t := t); auto end.
    + apply eval_agree. intros z sz Hf. apply upd_other. intros Hq. injection Hq as -> ->.
      assert (Hcl : closed_term U t = true) by (apply (Hc ((x, s), t)); right; exact Hin).
      unfold closed_term in Hcl. rewrite forallb_forall in Hcl. specialize (Hcl (AAssign (y, sy) t0) (HU _ (or_introl eq_refl))).
      unfold free_of in Hcl. cbn [bound_var fst snd] in Hcl. rewrite Hf in Hcl. discriminate.
    + intros b Hb. apply HU. right. exact Hb.
    + intros p Hp. apply Hc. right. exact Hp.
Qed.
Definition let_side (ra : rargs) : bool :=
  match ra_concl ra, ra_ctx ra with
  | [c], a :: _ =>
      match op2 OEquals c with
      | Some (TLet bs _, u') =>
          match decls a with [] => true | _ => false end &&
          nodup_sv (map fst (assigns a)) && nodup_sv (map (fun p => (fst p, sort_of (snd p))) bs) &&
          forallb (closed_term a) (u' :: map snd (assigns a) ++ map snd bs)
      | _ => false
      end
  | _, _ => false
  end.
Lemma as_let_ok t r : ok_or (as_let t) = ROk r -> t = TLet (fst r) (snd r).
Proof. destruct t; cbn; try discriminate. intros H. injection H as <-. reflexivity. Qed.
Lemma r_let_inv ra prev a cx : r_let ra = ROk tt -> ra_prev ra = Some prev -> ra_ctx ra = a :: cx ->
  exists bs u u' prs, prev = [tEq u u'] /\ ra_concl ra = [tEq (TLet bs u) u'] /\ List.length bs = List.length (asg_map a) /\
    omap (let_pair (asg_map a)) bs = ROk prs /\
    forall st, In st prs -> fst st = snd st \/ exists p, In p (ra_prems ra) /\ (p = [tEq (fst st) (snd st)] \/ p = [tEq (snd st) (fst st)]).
Proof.
  unfold r_let. intros H Hp Hcx. rewrite Hp in H. cbn [ok_or obind] in H. apply obind_ok in H. destruct H as [[] [Hl H]].
  rewrite Hcx in H. cbn [last_ctx hd_error unwrap obind] in H.
  apply len_is_ok, len1 in Hl. destruct Hl as [c Hc]. rewrite Hc in *. cbn [idx nth_error unwrap obind] in H.
  apply obind_ok in H. destruct H as [[l r] [H1 H]]. apply m_op2_ok in H1. cbn [fst snd] in *. subst c.
  apply obind_ok in H. destruct H as [[bs u] [H1 H]]. apply as_let_ok in H1. cbn [fst snd] in H1. subst l.
  apply obind_ok in H. destruct H as [pt [H1 H]]. apply premise_term_ok in H1. subst prev.
  apply obind_ok in H. destruct H as [[p1 p2] [H1 H]]. apply m_op2_ok in H1. cbn [fst snd] in *. subst pt.
  apply obind_ok in H. destruct H as [[] [H1 H]]. apply teq_ok in H1. subst p1.
  apply obind_ok in H. destruct H as [[] [H1 H]]. apply teq_ok in H1. subst p2.
  apply obind_ok in H. destruct H as [[] [H1 H]]. apply rassert_ok, Nat.eqb_eq in H1.
  apply obind_ok in H. destruct H as [prs [H2 H]]. apply obind_ok in H. destruct H as [[] [H3 H]]. apply len_is_ok in H3.
  exists bs, u, r, prs. do 3 (split; [auto|]). split; [auto|]. intros st Hst. destruct (term_eqb (fst st) (snd st)) eqn:E; [left; apply term_eqb_eq; auto|].
  right. set (F := filter _ prs) in *. assert (Hf : In st F) by (apply filter_In; split; [auto|rewrite E; reflexivity]).
  assert (Hcomb : forall (ps : list clause) (fs : list (term * term)), List.length ps = List.length fs -> In st fs -> exists p, In p ps /\ In (p, st) (combine ps fs)).
  { clear. induction ps as [|p ps IH]; intros [|f fs] Hl Hin; try discriminate; [destruct Hin|]. destruct Hin as [->|Hin].
    - exists p. split; [left; auto|left; auto].
    - destruct (IH fs) as [q [Q1 Q2]]; auto. exists q. split; [right; auto|right; auto]. }
  destruct (Hcomb _ _ H3 Hf) as [p [P1 P2]]. exists p. split; [auto|].
  destruct (ofor_ok _ _ _ H _ P2) as [x Hj]. unfold justifies in Hj. cbn [fst snd] in Hj.
  apply obind_ok in Hj. destruct Hj as [t [J1 Hj]]. apply premise_term_ok in J1. subst p.
  apply obind_ok in Hj. destruct Hj as [[p1 p2] [J1 Hj]]. apply m_op2_ok in J1. cbn [fst snd] in *. subst t.
  apply rassert_ok in Hj. apply orb_true_iff in Hj. rewrite !andb_true_iff in Hj. destruct Hj as [[Q1 Q2]|[Q1 Q2]]; apply term_eqb_eq in Q1, Q2; subst; auto.
Qed.
Lemma let_end : end_sound r_let (fun ra => let_side ra && no_disch ra).
Proof.
  intros ra a cx prev H Hs Hw Hcx Hp I E HE Hin. apply andb_true_iff in Hs. destruct Hs as [Hs Hd].
  destruct (end_setup _ _ _ _ Hw Hcx Hp Hd) as [Wc [_ [Wa [Wcx [Wp Ed]]]]].
  destruct (r_let_inv _ _ _ _ H Hp Hcx) as [bs [u [u' [prs [-> [Ec [Hlen [Ho Hj]]]]]]]]. rewrite Ec in *.
  unfold let_side in Hs. rewrite Ec, Hcx, op2_tEq in Hs. rewrite !andb_true_iff in Hs. destruct Hs as [[[Hd0 N1] N2] Hcl].
  assert (Hdn : decls a = []) by (destruct (decls a); [reflexivity|discriminate]).
  apply nodup_sv_spec in N1, N2. rewrite forallb_forall in Hcl. cbn [In] in Hcl.
  pose proof (in_ctx_ok _ _ HE Wcx) as HEok. destruct (ext_exists a E HEok Wa) as [E' He].
  destruct (Hin E' He) as [Hps Hpe]; [rewrite Ed; intros id t []|]. apply tEq_holds in Hpe.
  assert (Hcl' : forall t, closed_term a t = true -> eval t E' = eval t E) by (intros t Ht; eapply ext_eval; eauto).
  assert (HA : forall x s t, In ((x, s), t) (assigns a) -> E' x s = eval t E).
  { apply (asg_ext a E E' He Hdn N1 a (incl_refl _)). intros p Hq. apply Hcl. right. apply in_or_app. left. apply in_map; auto. }
  apply omap_Forall2 in Ho.
  assert (HB : forall x t, In (x, t) bs -> exists s, In ((x, sort_of t), s) (assigns a) /\ eval s E = eval t E).
  { intros x t Hx. assert (Hst : exists st, In st prs /\ let_pair (asg_map a) (x, t) = ROk st).
    { clear -Ho Hx. induction Ho as [|p q l l' Hq Ho IH]; [destruct Hx|]. destruct Hx as [->|Hx]; [exists q; split; [left; auto|auto]|].
      destruct (IH Hx) as [st [S1 S2]]. exists st. split; [right; auto|auto]. }
    destruct Hst as [st [S1 S2]]. unfold let_pair in S2. cbn [fst snd] in S2. apply obind_ok in S2. destruct S2 as [s [S2 S3]]. injection S3 as <-.
    apply ok_or_ok in S2. apply asg_map_get in S2. destruct S2 as [p [P1 [P2 P3]]]. destruct (assigns_key a Wa p P1) as [K _]. rewrite K in P2.
    exists s. split.
    - destruct p as [[px ps] pt]. cbn [fst snd] in *. injection P2 as -> ->. subst. exact P1.
    - destruct (Hj _ S1) as [Hq|[q [Q1 Q2]]]; cbn [fst snd] in *; [congruence|].
      assert (C1 : closed_term a s = true) by (apply Hcl; right; apply in_or_app; left; subst s; apply in_map; auto).
      assert (C2 : closed_term a t = true) by (apply Hcl; right; apply in_or_app; right; apply (in_map snd) in Hx; exact Hx).
      rewrite <- (Hcl' s C1), <- (Hcl' t C2). apply Hps in Q1. destruct Q2 as [->| ->]; apply tEq_holds in Q1; auto. }
  apply holds_tEq. rewrite <- (Hcl' u') by (apply Hcl; left; reflexivity). rewrite <- Hpe. cbn [eval]. apply eval_ext.
  set (vs := map (fun p => (fst p, sort_of (snd p))) bs) in *. set (vals := map (fun p => eval (snd p) E) bs).
  assert (Hlv : List.length vs = List.length vals) by (unfold vs, vals; rewrite !map_length; reflexivity).
  assert (HI1 : incl vs (map fst (assigns a))).
  { intros v Hv. unfold vs in Hv. apply in_map_iff in Hv. destruct Hv as [[x t] [<- Hx]]. destruct (HB x t Hx) as [s [S1 _]].
    apply (in_map fst) in S1. exact S1. }
  assert (HI2 : incl (map fst (assigns a)) vs).
  { apply NoDup_length_incl; auto. unfold vs. rewrite !map_length, Hlen, asg_map_len; [lia|]. rewrite map_asg_key; auto. }
  intros x s. destruct (sv_index (x, s) vs) as [k|] eqn:Ek.
  - pose proof (upds_index vs E vals x s k N2 Hlv Ek) as Hn. apply sv_index_some in Ek. unfold vs in Ek.
    rewrite nth_error_map in Ek. destruct (nth_error bs k) as [[y t]|] eqn:Eb; [|discriminate]. cbn in Ek.
    assert (Hv : nth_error vals k = Some (eval t E)) by (unfold vals; rewrite nth_error_map, Eb; reflexivity).
    injection Ek as -> <-. apply nth_error_In in Eb. destruct (HB _ _ Eb) as [t' [T1 T2]].
    assert (Hu : upds E vs vals x (sort_of t) = eval t E) by congruence. rewrite Hu, <- T2. symmetry. apply HA. exact T1.
  - apply sv_index_none in Ek. rewrite upds_notin by auto. symmetry. apply (ext_notin _ _ _ He). rewrite decls_nil by auto. auto.
Qed.

(** ** bind_let *)
Definition let_vars (bs : list (string * term)) : list (string * sort) := map (fun p => (fst p, sort_of (snd p))) bs.
Definition bind_let_side (ra : rargs) : bool :=
  match ra_concl ra, ra_ctx ra with
  | [c], a :: _ =>
      match op2 OEquals c with
      | Some (TLet lb l, TLet rb r) =>
          let vs := let_vars lb in
          let cand := map bound_var a ++ vs in
          nodup_sv vs && same_meaning vs a cand vs l && same_meaning vs a cand vs r &&
          forallb (fun p => term_eqb (fst p) (snd p) || closed_term a (fst p) && closed_term a (snd p))
            (combine (map snd lb) (map snd rb))
      | _ => false
      end
  | _, _ => false
  end.
Lemma skip_to_In l r ps ps' : skip_to l r ps = Some ps' -> In (l, r) ps /\ incl ps' ps.
Proof.
  revert ps'. induction ps as [|[p q] ps IH]; cbn [skip_to fst snd]; intros ps' H; [discriminate|]. destruct (term_eqb p l && term_eqb q r) eqn:E.
  - injection H as <-. apply andb_true_iff in E. destruct E as [E1 E2]. apply term_eqb_eq in E1, E2. subst. split; [left; reflexivity|].
    intros x Hx. right. exact Hx.
  - destruct (IH _ H) as [H1 H2]. split; [right; auto|]. intros x Hx. right. auto.
Qed.
Lemma bind_let_pairs_ok lb : forall rb ps, bind_let_pairs lb rb ps = ROk tt -> List.length lb = List.length rb ->
  Forall2 (fun p q => fst p = fst q /\ (snd p = snd q \/ In (snd p, snd q) ps)) lb rb.
Proof.
  induction lb as [|[x v] lb IH]; intros [|[y w] rb] ps H Hl; try discriminate; [constructor|]. cbn [bind_let_pairs] in H.
  apply obind_ok in H. destruct H as [[] [H1 H]]. apply rassert_ok, String.eqb_eq in H1. subst y. injection Hl as Hl. destruct (term_eqb v w) eqn:E.
  - apply term_eqb_eq in E. subst. constructor; [auto|]. apply IH; auto.
  - destruct (skip_to v w ps) as [ps'|] eqn:Es; [|discriminate]. apply skip_to_In in Es. destruct Es as [S1 S2]. constructor; [auto|].
    apply IH in H; auto. revert H. clear -S2. induction 1 as [|p q l l' [H1 H2] H IH]; constructor; auto. split; [auto|]. destruct H2; auto.
Qed.
Lemma r_bind_let_inv ra prev : r_bind_let ra = ROk tt -> ra_prev ra = Some prev ->
  exists lb l rb r, prev = [tEq l r] /\ ra_concl ra = [tEq (TLet lb l) (TLet rb r)] /\
    Forall2 (fun p q => fst p = fst q /\ (snd p = snd q \/ In [tEq (snd p) (snd q)] (ra_prems ra))) lb rb.
Proof.
  unfold r_bind_let. intros H Hp. rewrite Hp in H. cbn [ok_or obind] in H. apply obind_ok in H. destruct H as [[] [Hl H]].
  apply len_is_ok, len1 in Hl. destruct Hl as [c Hc]. rewrite Hc in *. cbn [idx nth_error unwrap obind] in H.
  apply obind_ok in H. destruct H as [pt [H1 H]]. apply premise_term_ok in H1. subst prev.
  apply obind_ok in H. destruct H as [[p1 p2] [H1 H]]. apply m_op2_ok in H1. cbn [fst snd] in *. subst pt.
  apply obind_ok in H. destruct H as [[l r] [H1 H]]. apply m_op2_ok in H1. cbn [fst snd] in *. subst c.
  apply obind_ok in H. destruct H as [[lb u] [H1 H]]. apply as_let_ok in H1. cbn [fst snd] in H1. subst l.
  apply obind_ok in H. destruct H as [[rb u'] [H1 H]]. apply as_let_ok in H1. cbn [fst snd] in H1. subst r.
  apply obind_ok in H. destruct H as [[] [H1 H]]. apply len_is_ok in H1.
  apply obind_ok in H. destruct H as [ps [H2 H]]. apply obind_ok in H. destruct H as [[] [H3 H]].
  apply obind_ok in H. destruct H as [[] [H4 H]]. apply teq_ok in H4, H. subst.
  exists lb, p1, rb, p2. do 2 (split; [reflexivity|]). apply bind_let_pairs_ok in H3; auto.
  assert (Hps : forall v w, In (v, w) ps -> In [tEq v w] (ra_prems ra)).
  { apply omap_Forall2 in H2. clear -H2. induction H2 as [|p q l l' H H2 IH]; [intros v w []|]. intros v w [->|Hin]; [|right; auto].
    apply obind_ok in H. destruct H as [t [T1 T2]]. apply premise_term_ok in T1. apply m_op2_ok in T2. cbn [fst snd] in T2. subst. left. reflexivity. }
  revert H3. clear -Hps. induction 1 as [|p q l l' [H1 H2] H IH]; constructor; auto. split; [auto|]. destruct H2; auto.
Qed.
Lemma bind_let_end : end_sound r_bind_let (fun ra => bind_let_side ra && no_disch ra).
Proof.
  intros ra a cx prev H Hs Hw Hcx Hp I E HE Hin. apply andb_true_iff in Hs. destruct Hs as [Hs Hd].
  destruct (end_setup _ _ _ _ Hw Hcx Hp Hd) as [Wc [Wps [Wa [Wcx [Wp Ed]]]]].
  destruct (r_bind_let_inv _ _ H Hp) as [lb [l [rb [r [-> [Ec HF]]]]]]. rewrite Ec in *.
  unfold bind_let_side in Hs. rewrite Ec, Hcx, op2_tEq in Hs. rewrite !andb_true_iff in Hs. destruct Hs as [[[N M1] M2] Hcl].
  apply nodup_sv_spec in N. pose proof (in_ctx_ok _ _ HE Wcx) as HEok. set (vs := let_vars lb) in *. set (vals := map (fun p => eval (snd p) E) lb).
  assert (Wl : forall p, In p lb -> wt (snd p) = true).
  { apply clause_wt_one, eq_wt in Wc. destruct Wc as [Wl _]. cbn [wt] in Wl. rewrite !andb_true_iff in Wl. destruct Wl as [Wl _]. rewrite forallb_forall in Wl. intros p Hq. apply Wl; auto. }
  assert (Hv : doms I (map snd vs) vals).
  { unfold vs, vals, let_vars. rewrite map_map. cbn [snd]. clear -Wl HEok. induction lb as [|p lb IH]; cbn; constructor; [apply eval_dom; [apply Wl; left; auto|auto]|apply IH; intros; apply Wl; right; auto]. }
  destruct (sim E vs vals Hv a [] E (known_nil E vals) HEok Wa) as [E' [He Hk]].
  destruct (Hin E' He) as [Hps Hpe]; [rewrite Ed; intros id t []|]. apply tEq_holds in Hpe.
  assert (L : List.length vs = List.length vals) by (unfold vs, vals, let_vars; rewrite !map_length; auto).
  pose proof (meaning E vs vals a E' vs l He Hk N L _ (incl_appl _ (incl_refl _)) (incl_appr _ (incl_refl _)) M1) as El.
  pose proof (meaning E vs vals a E' vs r He Hk N L _ (incl_appl _ (incl_refl _)) (incl_appr _ (incl_refl _)) M2) as Er.
  assert (HR : let_vars rb = vs /\ map (fun p => eval (snd p) E) rb = vals).
  { unfold vs, vals. clear -HF Hcl Hps Wps He. revert Hcl. induction HF as [|[x v] [y w] lb rb [H1 H2] HF IH]; [auto|]. cbn [fst snd] in *. subst y.
    cbn [map combine forallb]. rewrite andb_true_iff. intros [Hc Hcl]. destruct (IH Hcl) as [I1 I2].
    assert (HQ : sort_of w = sort_of v /\ eval w E = eval v E).
    { destruct H2 as [->|H2]; [auto|]. rewrite forallb_forall in Wps. pose proof (Wps _ H2) as W. apply clause_wt_one, eq_wt in W. destruct W as [_ [_ W]].
      split; [auto|]. apply orb_true_iff in Hc. destruct Hc as [Hc|Hc]; [apply term_eqb_eq in Hc; cbn in Hc; congruence|].
      apply andb_true_iff in Hc. cbn [fst snd] in Hc. destruct Hc as [C1 C2]. apply Hps, tEq_holds in H2. rewrite <- (ext_eval a E E' w He C2), <- (ext_eval a E E' v He C1). auto. }
    destruct HQ as [Q1 Q2]. unfold let_vars in *. cbn [map fst snd]. rewrite I1, I2, Q1, Q2. auto. }
  destruct HR as [R1 R2]. apply holds_tEq. cbn [eval]. fold (let_vars lb) (let_vars rb). rewrite R1, R2. fold vs vals. rewrite <- El, <- Er. exact Hpe.
Qed.

(** ** sko_ex and sko_forall *)
(** [t] may be put under the binders [bs]: the anchors [cx] neither assign nor mention the variables [bs] *)
Definition hyg_under (cx : list (list anchor)) (bs : list (string * sort)) (t : term) : bool :=
  match hyg_ctx cx with
  | Some h => avoids_b (hnames h) t && forallb (fun v => negb (svmem v (fst h)) && unused v h) bs
  | None => false
  end.
Lemma sub_env_under h P S bs : lv_ok h P S -> forallb (fun v => negb (svmem v (fst h)) && unused v h) bs = true ->
  forall (I : interp) (E : env I) vals, P I E -> forall x s, sub_env (sm S) (upds E bs vals) x s = upds E bs vals x s.
Proof.
  intros [_ [_ [H3 H4]]] Hb I E vals HE x s. rewrite forallb_forall in Hb. pose proof (H4 I E HE x s) as Hx. unfold sub_env in *.
  destruct (sget (sm S) (TVar x s)) as [v|] eqn:Ev; [|reflexivity]. destruct (H3 _ _ Ev) as [->|[Hsup [x' [s' [Hq Hin]]]]]; [reflexivity|].
  injection Hq as <- <-. rewrite (upds_notin bs vals E x s).
  - rewrite <- Hx. apply Hsup. intros y sy t Ht Hf. apply upds_notin. intros Hi. apply Hb in Hi. apply andb_true_iff in Hi. destruct Hi as [_ Hi].
    apply unused_spec with (t := t) in Hi; auto. cbn [fst snd] in Hi. congruence.
  - intros Hi. apply Hb in Hi. apply andb_true_iff in Hi. destruct Hi as [Hi _]. apply negb_true_iff in Hi.
    assert (svmem (x, s) (fst h) = true) by (apply svmem_In; auto). congruence.
Qed.
Lemma apply_prev_under a b cx t t' st bs : ctx_apply_prev (fresh_stack (a :: b :: cx)) t = ROk (t', st) ->
  forallb (forallb anchor_wt) (b :: cx) = true -> wt t = true -> hyg_under (b :: cx) bs t = true ->
  wt t' = true /\ sort_of t' = sort_of t /\
  forall (I : interp) (E : env I) vals, in_ctx (b :: cx) E -> eval t' (upds E bs vals) = eval t (upds E bs vals).
Proof.
  intros H Ww Wt Hh. unfold hyg_under in Hh. destruct (hyg_ctx (b :: cx)) as [h|] eqn:Eh; [|discriminate].
  apply andb_true_iff in Hh. destruct Hh as [Ha Hb]. apply avoids_b_spec in Ha.
  assert (Hst : stk_ok (b :: cx) (fresh_stack (b :: cx))) by (apply fresh_ok; [congruence|auto]).
  destruct (catch_up_ok _ _ Hst) as [st1 [C1 [C2 C3]]].
  unfold ctx_apply_prev in H. cbn [fresh_stack map] in H. fold (fresh_stack cx) in H.
  change (catch_up (mkLv a None :: mkLv b None :: fresh_stack cx)) with
    (do r' <- catch_up (fresh_stack (b :: cx)) ; do x <- add_args (top_sub r') a ; ROk (mkLv a (Some (fst x)) :: r')) in H.
  rewrite C1 in H. cbn [obind] in H. destruct (add_args (top_sub st1) a) as [[sg ok]| |]; cbn [obind fst] in H; try discriminate.
  destruct st1 as [|[b1 [S1|]] st1]; cbn [stk_ok] in C2; try contradiction.
  destruct C2 as [-> [_ [_ [h' [Hh' [HL _]]]]]]. rewrite Eh in Hh'. injection Hh' as <-.
  destruct HL as [L1 [L2 [L3 L4]]]. destruct (apply_names (tsize t) _ S1 t (le_n _) Ha L2) as [t1 [S' [HA [Hm [N1 N2]]]]].
  destruct (apply_sound _ _ _ _ _ _ L1 Wt HA) as [I1 [R1 [R2 R3]]]. unfold sub_apply in H. rewrite HA in H. cbn [obind] in H. injection H as <- <-.
  split; [auto|]. split; [auto|]. intros I E vals HE. rewrite R3. apply eval_ext.
  apply (sub_env_under h (ctx_env (b :: cx)) S1 bs); auto. split; [auto|]. split; [auto|]. split; auto.
Qed.

(** nothing is captured when the substitution [m] is applied to [t] (the flag of Subst.v) *)
Definition subst_flag (m : smap) (t : term) : bool := match sub_apply (sub_of m) t with ROk (_, _, ok) => ok | _ => false end.
Fixpoint sko_ok (q : binder) (m : smap) (bs : list (string * sort)) (phi : term) : bool :=
  match bs with
  | [] => true
  | x :: rest =>
      match sget m (TVar (fst x) (snd x)) with
      | Some t =>
          alpha_ok t (sko_expected q x rest phi) && no_let t && subst_flag [(TVar (fst x) (snd x), t)] phi &&
          match subst [(TVar (fst x) (snd x), t)] phi with ROk phi' => sko_ok q m rest phi' | _ => false end
      | None => false
      end
  end.
Definition sko_side (ra : rargs) : bool :=
  match ra_concl ra, ra_ctx ra with
  | [c], a :: cx =>
      match op2 OEquals c with
      | Some (TBind q bs phi, psi) =>
          match decls a with [] => true | _ => false end &&
          nodup_sv (map fst (assigns a)) && nodup_sv bs && forallb (fun v => svmem v bs) (map fst (assigns a)) &&
          forallb (closed_term a) (psi :: map snd (assigns a)) &&
          match cx with [] => true | _ => hyg_under cx bs phi end &&
          match ctx_apply_prev (fresh_stack (ra_ctx ra)) phi with ROk (phi0, _) => sko_ok q (asg_map a) bs phi0 | _ => false end
      | _ => false
      end
  | _, _ => false
  end.
Section Sko.
  Context {I : interp}.
  (** the choice of a counterexample *)
  Lemma choice_iall s (g : value I -> bool) : let c := ichoice I s (fun v => negb (g v)) in iall I s g = g c.
  Proof.
    cbv zeta. set (c := ichoice I s (fun v => negb (g v))). destruct (iall I s g) eqn:E1.
    - symmetry. apply (proj1 (iall_spec I s g) E1). unfold c. apply ichoice_dom.
    - destruct (g c) eqn:E2; [|reflexivity]. rewrite <- E1. apply iall_spec. intros v Hv. destruct (g v) eqn:E3; [reflexivity|].
      assert (H : negb (g c) = true) by (apply (ichoice_spec I s (fun v => negb (g v)) v Hv); rewrite E3; reflexivity). rewrite E2 in H. discriminate.
  Qed.
  Definition sgn (q : binder) (b : bool) : bool := if binder_beq q BForall then b else negb b.
  Lemma eval_quant q vs phi (E : env I) : q = BForall \/ q = BExists ->
    eval (TBind q vs phi) E = VB (sgn q (eval_all vs (fun E' => sgn q (holds E' phi)) E)).
  Proof. intros [-> | ->]; reflexivity. Qed.
  Lemma eval_expected q x s rest phi (E : env I) : q = BForall \/ q = BExists ->
    eval (sko_expected q (x, s) rest phi) E = ichoice I s (fun v => negb (eval_all rest (fun E' => sgn q (holds E' phi)) (upd E x s v))).
  Proof.
    intros Hq. unfold sko_expected. cbn [eval eval_bind]. apply ichoice_ext. intros v Hv.
    set (F := upd E x s v). assert (Hi : truth (eval (match rest with [] => phi | _ => TBind q rest phi end) F) = sgn q (eval_all rest (fun E' => sgn q (holds E' phi)) F)).
    { destruct rest as [|r rest]; [|rewrite eval_quant by auto; reflexivity]. cbn [eval_all]. unfold sgn, holds. destruct (binder_beq q BForall); [reflexivity|]. rewrite negb_involutive. reflexivity. }
    unfold sgn in Hi. destruct Hq as [-> | ->]; cbn [binder_beq] in *.
    - change (truth (eval (tNot ?u) F)) with (holds F (tNot u)). rewrite holds_not. unfold holds at 1. rewrite Hi. reflexivity.
    - exact Hi.
  Qed.
End Sko.
Lemma sko_expected_wt q x rest phi : (q = BForall \/ q = BExists) -> bool_term phi = true -> wt (sko_expected q x rest phi) = true.
Proof.
  intros Hq Hb.
  assert (Hi : bool_term (match rest with [] => phi | _ => TBind q rest phi end) = true).
  { destruct rest as [|r rest]; [exact Hb|]. unfold bool_term in *. apply andb_true_iff in Hb. destruct Hb as [H1 H2].
    destruct Hq as [-> | ->]; cbn [wt sort_of]; rewrite H1, H2; reflexivity. }
  unfold sko_expected.
  assert (Hi' : bool_term (if binder_beq q BForall then tNot (match rest with [] => phi | _ => TBind q rest phi end) else match rest with [] => phi | _ => TBind q rest phi end) = true).
  { destruct (binder_beq q BForall); [rewrite bool_term_not|]; exact Hi. }
  unfold bool_term in Hi'. apply andb_true_iff in Hi'. destruct Hi' as [H1 H2]. cbn [wt]. rewrite H1, H2. reflexivity.
Qed.
(** one link of the chain *)
Lemma subst_one x s t phi phi' : wt t = true -> sort_of t = s -> no_let t = true -> wt phi = true -> subst_flag [(TVar x s, t)] phi = true ->
  subst [(TVar x s, t)] phi = ROk phi' ->
  wt phi' = true /\ sort_of phi' = sort_of phi /\ forall (I : interp) (E : env I), eval phi' E = eval phi (upd E x s (eval t E)).
Proof.
  intros Wt Ws Wl Wp Ha Hs.
  assert (Hg : good_map [(TVar x s, t)]).
  { intros k v Hk. unfold sget in Hk. cbn [im_get] in Hk. destruct (term_eqb k (TVar x s)) eqn:E; [|discriminate]. apply term_eqb_eq in E. injection Hk as <-.
    exists x, s. split; [auto|]. split; [auto|]. split; [auto|]. intros y s'. apply fvars_spec. exact Wl. }
  unfold subst_flag in Ha. unfold subst in Hs. destruct (sub_apply (sub_of [(TVar x s, t)]) phi) as [[[p S'] ok]| |] eqn:HA; try discriminate.
  cbn [obind fst] in Hs. injection Hs as ->. subst ok. unfold sub_apply in HA.
  apply (apply_sound _ [(TVar x s, t)]) in HA; auto; [|apply inv_s_of; auto]. destruct HA as [_ [H2 [H3 H4]]]. split; [auto|]. split; [auto|].
  intros I E. rewrite H4. apply eval_ext. intros y sy. unfold sub_env, sget. cbn [im_get].
  destruct (term_eqb (TVar y sy) (TVar x s)) eqn:E1.
  - apply term_eqb_eq in E1. injection E1 as -> ->. rewrite upd_same. reflexivity.
  - rewrite upd_other; [reflexivity|]. intros Hq. injection Hq as -> ->. rewrite (proj2 (term_eqb_eq _ _) eq_refl) in E1. discriminate.
Qed.
Lemma upds_pt {I} vs : forall vals (E E' : env I), (forall x s, E x s = E' x s) -> forall x s, upds E vs vals x s = upds E' vs vals x s.
Proof.
  induction vs as [|[y sy] r IH]; intros [|v vals] E E' H x s; cbn [upds]; auto. apply IH. intros z sz. unfold upd.
  destruct (String.eqb z y && sort_eqb sz sy); auto.
Qed.
Lemma upd_upds {I} vs : forall vals (E : env I) x s c, ~ In (x, s) vs -> forall y sy, upd (upds E vs vals) x s c y sy = upds (upd E x s c) vs vals y sy.
Proof.
  induction vs as [|[z sz] r IH]; intros [|v vals] E x s c Hn y sy; cbn [upds]; auto.
  rewrite IH by (intros Hi; apply Hn; right; auto). apply upds_pt. intros w sw.
  destruct (svar_eqb (w, sw) (x, s)) eqn:E1.
  - apply svar_eqb_eq in E1. injection E1 as -> ->. rewrite upd_same, upd_other, upd_same; [reflexivity|]. intros Hq. apply Hn. left. congruence.
  - assert (Hw : (w, sw) <> (x, s)) by (intros Hq; rewrite Hq in E1; rewrite (proj2 (svar_eqb_eq _ _) eq_refl) in E1; discriminate).
    rewrite upd_other by auto. unfold upd at 2 3. unfold upd at 1. destruct (String.eqb w z && sort_eqb sw sz); [reflexivity|].
    symmetry. apply (upd_other E x s c w sw Hw).
Qed.
Section SkoMain.
  Context {I : interp}.
  Variables (q : binder) (m : smap) (all : list (string * sort)).
  Hypothesis Hq : q = BForall \/ q = BExists.
  Hypothesis Hm : forall x s t, sget m (TVar x s) = Some t -> wt t = true /\ sort_of t = s /\ forall y sy, In (y, sy) all -> free_in y sy t = false.
  Definition sko_val (E : env I) (v : string * sort) : value I :=
    match sget m (TVar (fst v) (snd v)) with Some t => eval t E | None => VB true end.
  Lemma sko_main : forall bs phi (E : env I), env_ok E -> bool_term phi = true -> NoDup bs -> incl bs all ->
    sko_ok q m bs phi = true -> sko_chain q m bs phi = ROk tt ->
    eval_all bs (fun E' => sgn q (holds E' phi)) E = sgn q (holds (upds E bs (map (sko_val E) bs)) phi).
  Proof.
    induction bs as [|[x s] rest IH]; intros phi E HE Hb Hn Hi Hok Hc; [reflexivity|].
    cbn [sko_ok sko_chain fst snd] in Hok, Hc. cbn [map]. unfold sko_val at 1. cbn [fst snd].
    destruct (sget m (TVar x s)) as [t|] eqn:Et; [|discriminate]. cbn [ok_or obind] in Hc.
    rewrite !andb_true_iff in Hok. destruct Hok as [[[Ha Hl] Hav] Hok].
    destruct (alpha_equiv t (sko_expected q (x, s) rest phi)) as [e| |] eqn:Ee; try discriminate. cbn [obind] in Hc.
    apply obind_ok in Hc. destruct Hc as [[] [He Hc]]. apply rassert_ok in He. subst e.
    apply obind_ok in Hc. destruct Hc as [sg [Hsg Hc]]. unfold subst_new in Hsg. apply obind_ok in Hsg. destruct Hsg as [u [_ Hsg]]. injection Hsg as <-.
    destruct (subst [(TVar x s, t)] phi) as [phi'| |] eqn:Es; try discriminate. cbn [obind] in Hc.
    destruct (Hm _ _ _ Et) as [Wt [Ws Wf]].
    assert (Hb' := Hb). unfold bool_term in Hb'. apply andb_true_iff in Hb'. destruct Hb' as [Wp Wps].
    destruct (subst_one x s t phi phi' Wt Ws Hl Wp Hav Es) as [S1 [S2 S3]].
    pose proof (alpha_ok_sound _ _ Ee Wt (sko_expected_wt q (x, s) rest phi Hq Hb) Ha I E HE) as Hcv.
    rewrite eval_expected in Hcv by auto. apply NoDup_cons_iff in Hn. destruct Hn as [Hn1 Hn2].
    assert (Hr : incl rest all) by (intros v Hv; apply Hi; right; auto).
    assert (Hph : forall vals, holds (upds E rest vals) phi' = holds (upds (upd E x s (eval t E)) rest vals) phi).
    { intros vals. unfold holds. rewrite S3. f_equal. apply eval_ext.
      assert (Ht : eval t (upds E rest vals) = eval t E).
      { apply eval_agree. intros y sy Hf. apply upds_notin. intros Hin. rewrite (Wf y sy (Hr _ Hin)) in Hf. discriminate. }
      rewrite Ht. intros y sy. apply upd_upds. exact Hn1. }
    cbn [eval_all]. rewrite choice_iall. cbn beta. rewrite <- Hcv.
    rewrite <- (eval_all_ext2 rest rest (fun E' => sgn q (holds E' phi')) (fun E' => sgn q (holds E' phi)) E (upd E x s (eval t E)) eq_refl).
    - rewrite IH; auto; [|unfold bool_term; rewrite S1, S2; exact Wps]. rewrite Hph. reflexivity.
    - intros vals _. cbn beta. rewrite Hph. reflexivity.
  Qed.
End SkoMain.
Lemma sko_ok_get q m : forall bs phi, sko_ok q m bs phi = true -> forall x s, In (x, s) bs -> exists t, sget m (TVar x s) = Some t.
Proof.
  induction bs as [|v rest IH]; intros phi H x s Hin; [destruct Hin|]. cbn [sko_ok] in H.
  destruct (sget m (TVar (fst v) (snd v))) as [t|] eqn:Et; [|discriminate]. rewrite !andb_true_iff in H. destruct H as [_ H].
  destruct Hin as [->|Hin]; [exists t; exact Et|]. destruct (subst _ phi) as [phi'| |]; try discriminate. eapply IH; eauto.
Qed.
Lemma r_sko_inv q ra prev a cx : r_sko q ra = ROk tt -> ra_prev ra = Some prev -> ra_ctx ra = a :: cx ->
  exists bs phi psi phi0 st, prev = [tEq phi psi] /\ ra_concl ra = [tEq (TBind q bs phi) psi] /\ (q = BForall \/ q = BExists) /\
    ctx_apply_prev (fresh_stack (a :: cx)) phi = ROk (phi0, st) /\ sko_chain q (asg_map a) bs phi0 = ROk tt.
Proof.
  unfold r_sko. intros H Hp Hcx. rewrite Hp in H. cbn [ok_or obind] in H. apply obind_ok in H. destruct H as [[] [Hl H]].
  rewrite Hcx in H. apply len_is_ok, len1 in Hl. destruct Hl as [c Hc]. rewrite Hc in *. cbn [idx nth_error unwrap obind] in H.
  apply obind_ok in H. destruct H as [[l r] [H1 H]]. apply m_op2_ok in H1. cbn [fst snd] in *. subst c.
  apply obind_ok in H. destruct H as [[[q' bs] phi] [H1 H]].
  assert (Hl : l = TBind q' bs phi /\ (q' = BForall \/ q' = BExists)).
  { apply ok_or_ok in H1. unfold as_quant in H1. destruct l; try discriminate.
    match type of H1 with match ?b with _ => _ end = _ => destruct b end; try discriminate; injection H1 as <- <- <-; auto. }
  clear H1. destruct Hl as [-> Hq]. apply obind_ok in H. destruct H as [[] [H1 H]]. apply rassert_ok, binder_beq_eq in H1. subst q'.
  apply obind_ok in H. destruct H as [pt [H1 H]]. apply premise_term_ok in H1. subst prev.
  apply obind_ok in H. destruct H as [[p1 p2] [H1 H]]. apply m_op2_ok in H1. cbn [fst snd] in *. subst pt.
  apply obind_ok in H. destruct H as [[] [H1 H]]. apply teq_ok in H1. subst p1.
  apply obind_ok in H. destruct H as [[] [H1 H]]. apply teq_ok in H1. subst p2.
  apply obind_ok in H. destruct H as [[phi0 st] [H1 H]]. cbn [last_ctx hd_error unwrap obind fst] in H.
  exists bs, phi, r, phi0, st. auto 6.
Qed.
Lemma sko_end q : end_sound (r_sko q) (fun ra => sko_side ra && no_disch ra).
Proof.
  intros ra a cx prev H Hs Hw Hcx Hp I E HE Hin. apply andb_true_iff in Hs. destruct Hs as [Hs Hd].
  destruct (end_setup _ _ _ _ Hw Hcx Hp Hd) as [Wc [_ [Wa [Wcx [Wp Ed]]]]].
  destruct (r_sko_inv _ _ _ _ _ H Hp Hcx) as [bs [phi [psi [phi0 [st [-> [Ec [Hq [Hap Hch]]]]]]]]]. rewrite Ec in *.
  unfold sko_side in Hs. rewrite Ec, Hcx, op2_tEq, Hap in Hs. rewrite !andb_true_iff in Hs.
  destruct Hs as [[[[[[Hd0 N1] N2] Hsub] Hcl] Hhy] Hok].
  assert (Hdn : decls a = []) by (destruct (decls a); [reflexivity|discriminate]).
  apply nodup_sv_spec in N1, N2. rewrite forallb_forall in Hcl, Hsub.
  pose proof (in_ctx_ok _ _ HE Wcx) as HEok. destruct (ext_exists a E HEok Wa) as [E' He].
  destruct (Hin E' He) as [_ Hpe]; [rewrite Ed; intros id t []|]. apply tEq_holds in Hpe.
  assert (Hcl' : forall t, closed_term a t = true -> eval t E' = eval t E) by (intros t Ht; eapply ext_eval; eauto).
  assert (HA : forall x s t, In ((x, s), t) (assigns a) -> E' x s = eval t E).
  { apply (asg_ext a E E' He Hdn N1 a (incl_refl _)). intros p Hpa. apply Hcl. right. apply in_map; auto. }
  assert (HG : forall x s t, sget (asg_map a) (TVar x s) = Some t -> In ((x, s), t) (assigns a)).
  { intros x s t Ht. apply asg_map_get in Ht. destruct Ht as [p [P1 [P2 P3]]]. destruct (assigns_key a Wa p P1) as [K _]. rewrite K in P2.
    destruct p as [[px ps] pt]. cbn [fst snd] in *. injection P2 as -> ->. subst. exact P1. }
  assert (HM : forall x s t, sget (asg_map a) (TVar x s) = Some t -> wt t = true /\ sort_of t = s /\ forall y sy, In (y, sy) bs -> free_in y sy t = false).
  { intros x s t Ht. pose proof (HG _ _ _ Ht) as Hi. destruct (assigns_key a Wa _ Hi) as [K1 K2]. cbn [snd fst] in *.
    unfold asg_key in K1. cbn [fst snd] in K1. split; [auto|]. split; [congruence|]. intros y sy Hy.
    destruct (sko_ok_get _ _ _ _ Hok _ _ Hy) as [t' Ht']. apply HG in Ht'.
    assert (Hc : closed_term a t = true) by (apply Hcl; right; apply (in_map snd) in Hi; exact Hi).
    destruct (free_in y sy t) eqn:Ef; [|reflexivity]. exfalso. apply (free_of_spec _ _ Hc _ _ Ef).
    apply (in_map fst) in Ht'. cbn [fst] in Ht'. rewrite <- decls_nil in Ht' by auto. exact Ht'. }
  apply clause_wt_one in Wp. assert (Wpe := bool_term_wt _ Wp). destruct (eq_args_wt _ _ Wpe) as [Wphi [Wpsi Wsrt]].
  apply clause_wt_one in Wc. assert (Wce := bool_term_wt _ Wc). destruct (eq_args_wt _ _ Wce) as [Wqb [_ Wqs]].
  assert (Hbp : bool_term phi = true).
  { destruct Hq as [-> | ->]; cbn [wt] in Wqb; unfold bool_term; rewrite Wphi; cbn in Wqb; rewrite !andb_true_iff in Wqb; tauto. }
  assert (Hp0 : wt phi0 = true /\ sort_of phi0 = sort_of phi /\ forall vals, eval phi0 (upds E bs vals) = eval phi (upds E bs vals)).
  { destruct cx as [|b cx].
    - cbn in Hap. injection Hap as <- <-. auto.
    - destruct (apply_prev_under _ _ _ _ _ _ _ Hap Wcx Wphi Hhy) as [A1 [A2 A3]]. split; [auto|]. split; [auto|]. intros vals. apply A3. exact HE. }
  destruct Hp0 as [P1 [P2 P3]].
  assert (Hb0 : bool_term phi0 = true) by (unfold bool_term in *; rewrite P1, P2; apply andb_true_iff in Hbp; tauto).
  pose proof (sko_main (I := I) q (asg_map a) bs Hq HM bs phi0 E HEok Hb0 N2 (incl_refl _) Hok Hch) as Hmain.
  apply holds_tEq. rewrite eval_quant by auto.
  rewrite (eval_all_ext2 bs bs _ (fun E1 => sgn q (holds E1 phi0)) E E eq_refl).
  2:{ intros vals _. unfold holds. rewrite P3. reflexivity. }
  rewrite Hmain. unfold holds. rewrite P3.
  assert (Hpt : forall x s, upds E bs (map (sko_val (asg_map a) E) bs) x s = E' x s).
  { intros x s. destruct (sv_index (x, s) bs) as [k|] eqn:Ek.
    - pose proof (upds_index bs E (map (sko_val (asg_map a) E) bs) x s k N2 (eq_sym (map_length _ _)) Ek) as Hn. apply sv_index_some in Ek.
      rewrite nth_error_map, Ek in Hn. cbn in Hn. assert (Hn' : upds E bs (map (sko_val (asg_map a) E) bs) x s = sko_val (asg_map a) E (x, s)) by congruence.
      rewrite Hn'. apply nth_error_In in Ek. destruct (sko_ok_get _ _ _ _ Hok _ _ Ek) as [t Ht]. unfold sko_val. cbn [fst snd]. rewrite Ht.
      symmetry. apply HA. apply HG. exact Ht.
    - apply sv_index_none in Ek. rewrite upds_notin by auto. symmetry. apply (ext_notin _ _ _ He). rewrite decls_nil by auto.
      intros Hi. apply Ek. apply Hsub in Hi. apply svmem_In in Hi. exact Hi. }
  rewrite (eval_ext phi _ _ Hpt), Hpe. rewrite <- (Hcl' psi) by (apply Hcl; left; reflexivity).
  assert (Hee : exists b, eval psi E' = VB b).
  { rewrite <- Hpe. exists (holds E' phi). apply eval_bool; auto. eapply ext_ok; eauto. }
  destruct Hee as [b ->]. cbn [truth]. unfold sgn. destruct (binder_beq q BForall); [reflexivity|]. rewrite negb_involutive. reflexivity.
Qed.
