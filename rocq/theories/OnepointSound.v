(** Conditions under which the rule onepoint is sound. *)
From Coq Require Import List String ZArith Bool Arith Lia.
From Verif Require Import Base Term Field Sem Sorting Rules Utils Polyeq Std PolyeqSound R_Simp Subst SubstSound SubstClean AlphaSound
  Checker CheckerSound CheckerSem Context ContextSound R_Binder BinderSound.
Import ListNotations.
Local Open Scope nat_scope.
Local Notation doms I := (Forall2 (fun s v => idom I s v = true)).

(** ** The points hold where the body has the value of the polarity *)
Section Points.
  Context {I : interp}.
  Lemma eval_all_witness vs : forall (f : env I -> bool) E, exists vals, doms I (map snd vs) vals /\ f (upds E vs vals) = eval_all vs f E.
  Proof.
    induction vs as [|[x s] r IH]; intros f E; cbn [map snd eval_all]; [exists []; split; [constructor|reflexivity]|].
    rewrite choice_iall. cbn beta. set (c := ichoice I s _). destruct (IH f (upd E x s c)) as [vals [H1 H2]].
    exists (c :: vals). split; [constructor; auto; apply ichoice_dom|exact H2].
  Qed.
  Lemma point_in x v a b : In (x, v) ((match a with TVar x _ => [(x, b)] | _ => [] end) ++ (match b with TVar x _ => [(x, a)] | _ => [] end)) ->
    (exists s, a = TVar x s /\ v = b) \/ (exists s, b = TVar x s /\ v = a).
  Proof.
    intros H. apply in_app_or in H. destruct H as [H|H]; [left; destruct a|right; destruct b]; try (destruct H; fail); destruct H as [H|[]]; injection H as <- <-; eauto.
  Qed.
  Lemma points_hold t : forall pol (E : env I), env_ok E -> bool_term t = true -> holds E t = pol ->
    forall x v, In (x, v) (find_points pol t) -> ~ In x (bnames t) -> (forall y s, free_in y s v = true -> ~ In y (bnames t)) ->
    E x (sort_of v) = eval v E.
  Proof.
    induction t using term_ind'; intros pol E HE Hb Hh x' v Hin Hx Hv; try (destruct Hin; fail).
    - cbn [find_points] in Hin. cbn [bnames] in Hx, Hv.
      assert (Harg : forall a, In a args -> ~ In x' (bnames a) /\ forall y s, free_in y s v = true -> ~ In y (bnames a)).
      { intros a Ha. split; [intros Hi; apply Hx|intros y s Hf Hi; apply (Hv y s Hf)]; apply in_flat_map; eauto. }
      rewrite Forall_forall in H. clear Hx Hv.
      destruct (op_eqb o ONot) eqn:E1.
      { apply op_eqb_eq in E1. subst o. destruct args as [|a [|]]; try (destruct Hin; fail).
        destruct (Harg a (or_introl eq_refl)). apply (H a (or_introl eq_refl) (negb pol) E HE) with (x := x'); auto.
        - rewrite <- bool_term_not. exact Hb.
        - change (holds E (tNot a) = pol) in Hh. rewrite holds_not in Hh. rewrite <- Hh, negb_involutive. reflexivity. }
      destruct pol.
      + destruct (op_eqb o OEquals) eqn:E2.
        { apply op_eqb_eq in E2. subst o. destruct args as [|a [|b [|]]]; try (destruct Hin; fail); fold (tEq a b) in *.
          apply bool_term_wt, eq_args_wt in Hb. destruct Hb as [_ [_ Hs]]. apply holds_eq_iff in Hh.
          apply point_in in Hin. destruct Hin as [[s [-> ->]]|[s [-> ->]]]; cbn [sort_of eval] in *; subst; auto. }
        destruct (op_eqb o OAnd) eqn:E3; [|destruct Hin]. apply op_eqb_eq in E3. subst o.
        apply in_flat_map in Hin. destruct Hin as [a [Ha Hin]]. destruct (Harg a Ha). rewrite holds_and, forallb_forall in Hh.
        eapply (H a Ha true E); eauto. eapply bool_args; [|exact Hb|exact Ha]; auto.
      + destruct (op_eqb o OImplies) eqn:E2.
        { apply op_eqb_eq in E2. subst o. destruct args as [|a [|b [|]]]; try (destruct Hin; fail).
          rewrite holds_implies in Hh. destruct (holds E a) eqn:Ea, (holds E b) eqn:Eb; try discriminate.
          assert (Ba : forall c, In c [a; b] -> bool_term c = true) by (intros c Hc; eapply bool_args; [|exact Hb|exact Hc]; auto).
          assert (Ia : In a [a; b]) by (left; auto). assert (Ib : In b [a; b]) by (right; left; auto).
          destruct (Harg a Ia), (Harg b Ib). apply in_app_or in Hin. destruct Hin as [Hin|Hin]; [eapply (H a Ia true E)|eapply (H b Ib false E)]; eauto. }
        destruct (op_eqb o OOr) eqn:E3; [|destruct Hin]. apply op_eqb_eq in E3. subst o.
        apply in_flat_map in Hin. destruct Hin as [a [Ha Hin]]. destruct (Harg a Ha). rewrite holds_or in Hh.
        assert (Hfa : holds E a = false).
        { destruct (holds E a) eqn:Ea; [|reflexivity]. rewrite <- Hh. symmetry. apply existsb_exists. eauto. }
        eapply (H a Ha false E); eauto. eapply bool_args; [|exact Hb|exact Ha]; auto.
    - cbn [bnames] in Hx, Hv.
      assert (Hq : (b = BForall \/ b = BExists) /\ In (x', v) (find_points pol t)) by (destruct b; cbn [find_points] in Hin; try (destruct Hin; fail); auto).
      destruct Hq as [Hq Hi]. unfold holds in Hh. rewrite eval_quant in Hh by auto. cbn [truth] in Hh.
      destruct (eval_all_witness vs (fun E' => sgn b (holds E' t)) E) as [vals [Hd Hw]]. rewrite <- Hw in Hh.
      assert (Hb' : bool_term t = true).
      { unfold bool_term in *. apply andb_true_iff in Hb. destruct Hb as [Hb _]. destruct Hq as [-> | ->]; cbn [wt] in Hb; rewrite !andb_true_iff in *; tauto. }
      assert (Hh' : holds (upds E vs vals) t = pol).
      { rewrite <- Hh. unfold sgn. destruct (binder_beq b BForall); [reflexivity|]. rewrite negb_involutive. reflexivity. }
      assert (Hn : forall y s, ~ In y (map fst vs ++ bnames t) -> upds E vs vals y s = E y s).
      { intros y s Hy. apply upds_notin. intros Hc. apply Hy. apply in_or_app. left. apply (in_map fst) in Hc. exact Hc. }
      rewrite <- (Hn x' (sort_of v) Hx).
      rewrite (IHt pol (upds E vs vals) (env_ok_upds _ _ _ HE Hd) Hb' Hh' x' v Hi).
      + apply eval_agree. intros y s Hf. apply Hn. apply (Hv y s Hf).
      + intros Hc. apply Hx. apply in_or_app. right. exact Hc.
      + intros y s Hf Hc. apply (Hv y s Hf). apply in_or_app. right. exact Hc.
  Qed.
End Points.
Lemma points_wt t : forall pol, wt t = true -> forall x v, In (x, v) (find_points pol t) -> wt v = true.
Proof.
  induction t using term_ind'; intros pol Hw x' v Hin; try (destruct Hin; fail).
  - cbn [find_points] in Hin. cbn [wt] in Hw. apply andb_true_iff in Hw. destruct Hw as [Hw _]. rewrite forallb_forall in Hw. rewrite Forall_forall in H.
    assert (HF : forall p, In (x', v) (flat_map (find_points p) args) -> wt v = true).
    { intros p Hf. apply in_flat_map in Hf. destruct Hf as [a [Ha Hf]]. eapply H; eauto. }
    destruct (op_eqb o ONot).
    { destruct args as [|a [|]]; try (destruct Hin; fail). eapply (H a (or_introl eq_refl)); eauto. apply Hw. left; auto. }
    destruct pol.
    + destruct (op_eqb o OEquals); [|destruct (op_eqb o OAnd); [eauto|destruct Hin]].
      destruct args as [|a [|b [|]]]; try (destruct Hin; fail). apply point_in in Hin.
      destruct Hin as [[s [-> ->]]|[s [-> ->]]]; apply Hw; [right; left|left]; reflexivity.
    + destruct (op_eqb o OImplies); [|destruct (op_eqb o OOr); [eauto|destruct Hin]].
      destruct args as [|a [|b [|]]]; try (destruct Hin; fail). apply in_app_or in Hin.
      destruct Hin as [Hin|Hin]; [eapply (H a (or_introl eq_refl))|eapply (H b (or_intror (or_introl eq_refl)))]; eauto; apply Hw; [left|right; left]; reflexivity.
  - assert (Ht : wt t = true) by (cbn [wt] in Hw; destruct b; rewrite !andb_true_iff in Hw; tauto).
    destruct b; cbn [find_points] in Hin; try (destruct Hin; fail); eapply IHt; eauto.
Qed.

(** ** The points under the context *)
Lemma apply_points_ok cx : forall l st pts, stk_ok cx st -> (forall p, In p l -> wt (snd p) = true /\ hygienic cx (snd p) = true) ->
  apply_points st l = ROk pts ->
  Forall2 (fun p p' => fst p' = fst p /\ sort_of (snd p') = sort_of (snd p) /\ forall (I : interp) (E : env I), in_ctx cx E -> eval (snd p') E = eval (snd p) E) l pts.
Proof.
  induction l as [|[x t] l IH]; intros st pts Hst Hl H; cbn [apply_points] in H; [injection H as <-; constructor|].
  destruct (Hl (x, t) (or_introl eq_refl)) as [Hw Hh]. cbn [snd] in *. apply hygienic_spec in Hh.
  destruct (apply_top _ _ _ Hst Hw Hh) as [t' [st1 [A1 [A2 [A3 [A4 A5]]]]]]. rewrite A1 in H. cbn [obind] in H.
  apply obind_ok in H. destruct H as [r' [H1 H]]. injection H as <-. constructor.
  - cbn [fst snd]. auto.
  - eapply IH; eauto. intros p Hp. apply Hl. right; auto.
Qed.

(** ** An environment inside the anchor with chosen values of the variables *)
Fixpoint asg_fresh (a : list anchor) : bool :=
  match a with
  | [] => true
  | AVar _ :: r => asg_fresh r
  | AAssign v t :: r => negb (free_in (fst v) (snd v) t) && closed_term r t && asg_fresh r
  end.
Lemma ext_build {I} (V : env I) : env_ok V -> forall a (E : env I), NoDup (map bound_var a) -> asg_fresh a = true ->
  exists E', ext a E E' /\ (forall x s, In (x, s) (decls a) -> E' x s = V x s) /\
    (forall x s t, In ((x, s), t) (assigns a) -> E' x s = eval t E').
Proof.
  intros HV. induction a as [|[[x s]|[x s] t] a IH]; intros E Hn Hf; cbn [map bound_var asg_fresh] in *.
  - exists E. split; [constructor|]. split; intros x s; [intros []|intros t []].
  - apply NoDup_cons_iff in Hn. destruct Hn as [N1 N2]. destruct (IH (upd E x s (V x s)) N2 Hf) as [E' [He [H1 H2]]].
    exists E'. split; [apply (ext_var x s (V x s)); auto|]. split; [|exact H2]. intros y sy Hin. destruct Hin as [Hq|Hin]; [|auto].
    injection Hq as <- <-. rewrite (ext_notin _ _ _ He) by auto. apply upd_same.
  - apply NoDup_cons_iff in Hn. destruct Hn as [N1 N2]. rewrite !andb_true_iff in Hf. destruct Hf as [[F1 F2] F3].
    destruct (IH (upd E x s (eval t E)) N2 F3) as [E' [He [H1 H2]]].
    exists E'. split; [apply ext_asg; auto|]. split; [exact H1|]. intros y sy t' Hin. destruct Hin as [Hq|Hin]; [|auto].
    injection Hq as <- <- <-. rewrite (ext_eval _ _ _ t He F2), (ext_notin _ _ _ He) by auto. rewrite upd_same.
    apply eval_agree. intros z sz Hz. symmetry. apply upd_other. intros Hq. injection Hq as -> ->. cbn [fst snd] in F1. rewrite Hz in F1. discriminate.
Qed.

(** ** The side condition *)
(** the assigned variables can be read off the points one after the other, starting from the variables [seen] *)
Fixpoint pts_order (lb seen : list (string * sort)) (prs : list ((string * term) * (string * term))) (l : list ((string * sort) * term)) : bool :=
  match l with
  | [] => true
  | (v, t) :: r =>
      forallb (fun pp => negb (point_eqb (fst v, t) (snd pp)) ||
                         forallb (fun y => negb (svmem y lb) || svmem y seen) (fvars (snd (fst pp)))) prs &&
      pts_order lb (v :: seen) prs r
  end.
Definition point_free (u : term) (p : string * term) : bool :=
  negb (smem (fst p) (bnames u)) && forallb (fun v => negb (smem (fst v) (bnames u))) (fvars (snd p)).
Definition onepoint_side (ra : rargs) : bool :=
  match ra_concl ra, ra_ctx ra with
  | [c], a :: cx =>
      match op2 OEquals c with
      | Some (TBind q lb u, w) =>
          let u' := match as_quant w with Some (_, _, w') => w' | None => w end in
          let raw := find_points (binder_beq q BExists) u in
          nodup_sv (map bound_var a) && asg_fresh a &&
          forallb (fun p => hygienic (a :: cx) (snd p) && point_free u p) raw &&
          forallb (fun p => negb (free_in (fst (fst p)) (snd (fst p)) u')) (assigns a) &&
          match apply_points (fresh_stack (a :: cx)) raw with
          | ROk pts => pts_order lb (decls a) (combine raw pts) (assigns a)
          | _ => false
          end
      | _ => false
      end
  | _, _ => false
  end.
Lemma point_eqb_eq a b : point_eqb a b = true <-> a = b.
Proof.
  destruct a as [x t], b as [y u]. unfold point_eqb. cbn [fst snd]. rewrite andb_true_iff, String.eqb_eq, term_eqb_eq. split; [intros [-> ->]; reflexivity|].
  intros H. injection H as -> ->. auto.
Qed.
Lemma pts_order_ok {I} (E1 E' : env I) lb prs : (forall y s, ~ In (y, s) lb -> E' y s = E1 y s) ->
  (forall pp, In pp prs -> no_let (snd (fst pp)) = true) ->
  forall l seen, pts_order lb seen prs l = true -> (forall y s, In (y, s) seen -> E' y s = E1 y s) ->
  (forall x s t, In ((x, s), t) l -> exists pp, In pp prs /\ snd pp = (x, t) /\ E1 x s = eval (snd (fst pp)) E1 /\ E' x s = eval (snd (fst pp)) E') ->
  forall x s t, In ((x, s), t) l -> E' x s = E1 x s.
Proof.
  intros Ho Hnl. induction l as [|[[x s] t] r IH]; intros seen Hp Hs Hl x' s' t' Hin; [destruct Hin|].
  cbn [pts_order] in Hp. apply andb_true_iff in Hp. destruct Hp as [Hp1 Hp2]. rewrite forallb_forall in Hp1.
  assert (Hx : E' x s = E1 x s).
  { destruct (Hl x s t (or_introl eq_refl)) as [pp [P1 [P2 [P3 P4]]]]. rewrite P3, P4. apply eval_agree. intros y sy Hf.
    apply fvars_spec in Hf; [|auto]. specialize (Hp1 _ P1). apply orb_true_iff in Hp1. destruct Hp1 as [Hp1|Hp1].
    { rewrite P2 in Hp1. cbn [fst] in Hp1. rewrite (proj2 (point_eqb_eq _ _) eq_refl) in Hp1. discriminate. }
    rewrite forallb_forall in Hp1. specialize (Hp1 _ Hf). apply orb_true_iff in Hp1. destruct Hp1 as [Hp1|Hp1].
    - apply Ho. intros Hi. apply svmem_In in Hi. rewrite Hi in Hp1. discriminate.
    - apply Hs. apply svmem_In. exact Hp1. }
  destruct Hin as [Hq|Hin]; [injection Hq as <- <- <-; exact Hx|].
  eapply (IH ((x, s) :: seen)); eauto.
  - intros y sy [Hq|Hi]; [injection Hq as <- <-; exact Hx|auto].
  - intros y sy ty Hi. apply Hl. right; auto.
Qed.
Lemma r_onepoint_inv ra prev a cx : r_onepoint ra = ROk tt -> ra_prev ra = Some prev -> ra_ctx ra = a :: cx ->
  exists q lb u w rb u' pts, ra_concl ra = [tEq (TBind q lb u) w] /\ (q = BForall \/ q = BExists) /\
    (as_quant w = Some (q, rb, u') \/ as_quant w = None /\ rb = [] /\ u' = w) /\
    (prev = [tEq u u'] \/ prev = [tEq u' u]) /\
    apply_points (fresh_stack (a :: cx)) (find_points (binder_beq q BExists) u) = ROk pts /\
    (forall p, In p (assigns a) -> In (fst (fst p), snd p) pts) /\ decls a = rb /\
    (forall v, In v lb <-> In v (decls a ++ map asg_key (assigns a))).
Proof.
  unfold r_onepoint. intros H Hp Hcx. rewrite Hp in H. cbn [ok_or obind] in H. apply obind_ok in H. destruct H as [[] [Hl H]].
  rewrite Hcx in H. apply len_is_ok, len1 in Hl. destruct Hl as [c Hc]. rewrite Hc in *. cbn [idx nth_error unwrap obind] in H.
  apply obind_ok in H. destruct H as [[l w] [H1 H]]. apply m_op2_ok in H1. cbn [fst snd] in *. subst c.
  apply obind_ok in H. destruct H as [[[q lb] u] [H1 H]].
  assert (Hl : l = TBind q lb u /\ (q = BForall \/ q = BExists)).
  { apply ok_or_ok in H1. unfold as_quant in H1. destruct l; try discriminate.
    match type of H1 with match ?b with _ => _ end = _ => destruct b end; try discriminate; injection H1 as <- <- <-; auto. }
  clear H1. destruct Hl as [-> Hq]. apply obind_ok in H. destruct H as [[rb u'] [H1 H]].
  assert (Hw : as_quant w = Some (q, rb, u') \/ as_quant w = None /\ rb = [] /\ u' = w).
  { destruct (as_quant w) as [[[q' rb'] u1]|]; [left|right; injection H1 as <- <-; auto].
    apply obind_ok in H1. destruct H1 as [[] [H0 H1]]. apply rassert_ok, binder_beq_eq in H0. injection H1 as <- <-. subst. reflexivity. }
  clear H1. apply obind_ok in H. destruct H as [pt [H1 H]]. apply premise_term_ok in H1. subst prev.
  apply obind_ok in H. destruct H as [[p1 p2] [H1 H]]. apply m_op2_ok in H1. cbn [fst snd] in *. subst pt.
  apply obind_ok in H. destruct H as [[] [H1 H]]. apply rassert_ok in H1.
  apply obind_ok in H. destruct H as [pts [H2 H]]. cbn [last_ctx hd_error unwrap obind] in H.
  apply obind_ok in H. destruct H as [[] [H3 H]]. apply rassert_ok in H3. rewrite forallb_forall in H3.
  apply obind_ok in H. destruct H as [[] [H4 H]]. apply rassert_ok, binds_eqb_eq in H4.
  apply rassert_ok in H. apply andb_true_iff in H. destruct H as [H5 H6]. rewrite forallb_forall in H5, H6.
  exists q, lb, u, w, rb, u', pts. do 3 (split; [auto|]). split.
  { apply orb_true_iff in H1. rewrite !andb_true_iff, !term_eqb_eq in H1. destruct H1 as [[-> ->]|[-> ->]]; auto. }
  split; [auto|]. split.
  { intros p Hpa. apply H3 in Hpa. apply existsb_exists in Hpa. destruct Hpa as [x [X1 X2]]. apply point_eqb_eq in X2. subst x. exact X1. }
  split; [auto|]. intros v. split; intros Hv; apply svmem_In; auto.
Qed.
Lemma bound_split a v : In v (map bound_var a) <-> In v (decls a) \/ In v (map fst (assigns a)).
Proof.
  induction a as [|[w|w t] a IH]; cbn; [tauto|rewrite IH; tauto|]. rewrite IH. tauto.
Qed.
Lemma upds_self {I} (E' : env I) vs : forall E x s, In (x, s) vs \/ E x s = E' x s -> upds E vs (map (fun v => E' (fst v) (snd v)) vs) x s = E' x s.
Proof.
  induction vs as [|[y sy] r IH]; intros E x s H; cbn [map upds fst snd]; [destruct H as [[]|H]; exact H|].
  apply IH. destruct H as [[Hq|H]|H].
  - injection Hq as -> ->. right. apply upd_same.
  - left; auto.
  - right. unfold upd. destruct (String.eqb x y && sort_eqb s sy) eqn:Eq; [|exact H]. apply andb_true_iff in Eq. destruct Eq as [Q1 Q2].
    apply String.eqb_eq in Q1. apply sort_eqb_eq in Q2. subst. reflexivity.
Qed.
Lemma doms_self {I} (E' : env I) vs : env_ok E' -> doms I (map snd vs) (map (fun v => E' (fst v) (snd v)) vs).
Proof. intros H. induction vs as [|v r IH]; cbn [map]; constructor; auto. Qed.
Lemma as_quant_eval {I} q rb u' w (E : env I) : (q = BForall \/ q = BExists) -> env_ok E -> bool_term w = true ->
  (as_quant w = Some (q, rb, u') \/ as_quant w = None /\ rb = [] /\ u' = w) ->
  eval w E = VB (sgn q (eval_all rb (fun E' => sgn q (holds E' u')) E)).
Proof.
  intros Hq HE Hb [H|[_ [-> ->]]].
  - unfold as_quant in H. destruct w; try discriminate. match type of H with match ?b with _ => _ end = _ => destruct b end; try discriminate;
      injection H as <- <- <-; apply eval_quant; auto.
  - cbn [eval_all]. rewrite (eval_bool w E Hb HE). unfold sgn. destruct (binder_beq q BForall); [reflexivity|]. rewrite negb_involutive. reflexivity.
Qed.
Lemma sgn_pol q b : (q = BForall \/ q = BExists) -> (sgn q b = false <-> b = binder_beq q BExists).
Proof. intros [-> | ->]; unfold sgn; cbn; destruct b; cbn; intuition congruence. Qed.
Lemma eval_all_false {I} vs (f : env I -> bool) E vals : doms I (map snd vs) vals -> f (upds E vs vals) = false -> eval_all vs f E = false.
Proof.
  intros Hd Hf. destruct (eval_all vs f E) eqn:Ea; [|reflexivity]. apply eval_all_true with (vals := vals) in Ea; auto. congruence.
Qed.
Lemma onepoint_end : end_sound r_onepoint (fun ra => onepoint_side ra && no_disch ra).
Proof.
  intros ra a cx prev H Hs Hw Hcx Hp I E HE Hin. apply andb_true_iff in Hs. destruct Hs as [Hs Hd].
  destruct (end_setup _ _ _ _ Hw Hcx Hp Hd) as [Wc [_ [Wa [Wcx [Wp Ed]]]]].
  destruct (r_onepoint_inv _ _ _ _ H Hp Hcx) as [q [lb [u [w [rb [u' [pts [Ec [Hq [Hw' [Hpr [Hpts [Hasg [Hrb Hlb]]]]]]]]]]]]]].
  rewrite Ec in *. unfold onepoint_side in Hs. rewrite Ec, Hcx, op2_tEq, Hpts in Hs. rewrite !andb_true_iff in Hs.
  destruct Hs as [[[[N1 Hfr] Hhy] Hnf] Hord].
  assert (Hu' : match as_quant w with Some (_, _, w') => w' | None => w end = u') by (destruct Hw' as [-> |[-> [_ ->]]]; reflexivity).
  rewrite Hu' in Hnf. clear Hu'. apply nodup_sv_spec in N1. rewrite forallb_forall in Hhy, Hnf.
  pose proof (in_ctx_ok _ _ HE Wcx) as HEok.
  apply clause_wt_one in Wc. assert (Wce := bool_term_wt _ Wc). destruct (eq_args_wt _ _ Wce) as [Wqb [Ww Wqs]].
  assert (Hbu : bool_term u = true).
  { unfold bool_term. destruct Hq as [-> | ->]; cbn [wt] in Wqb; rewrite !andb_true_iff in Wqb; rewrite andb_true_iff; tauto. }
  assert (Hbw : bool_term w = true).
  { unfold bool_term. rewrite Ww. rewrite <- Wqs. destruct Hq as [-> | ->]; reflexivity. }
  assert (Wu := bool_term_wt _ Hbu).
  set (raw := find_points (binder_beq q BExists) u) in *. set (pol := binder_beq q BExists) in *.
  assert (HF : Forall2 (fun p p' => fst p' = fst p /\ sort_of (snd p') = sort_of (snd p) /\
                 forall (I : interp) (E : env I), in_ctx (a :: cx) E -> eval (snd p') E = eval (snd p) E) raw pts).
  { destruct raw as [|p0 raw0] eqn:Er.
    { cbn [apply_points] in Hpts. injection Hpts as <-. constructor. }
    rewrite <- Er in *. eapply apply_points_ok; eauto.
    - apply fresh_ok; [|cbn [forallb]; rewrite Wa, Wcx; reflexivity].
      assert (H0 : In p0 raw) by (rewrite Er; left; reflexivity). apply Hhy in H0. apply andb_true_iff in H0. destruct H0 as [H0 _].
      apply hygienic_spec in H0. destruct H0 as [h [H0 _]]. congruence.
    - intros [x v] Hx. split; [eapply points_wt; eauto|]. apply Hhy in Hx. apply andb_true_iff in Hx. tauto. }
  assert (HA : forall x s t, In ((x, s), t) (assigns a) -> exists v, In (x, v) raw /\ In ((x, v), (x, t)) (combine raw pts) /\ sort_of v = s /\
                 forall E' : env I, in_ctx (a :: cx) E' -> eval t E' = eval v E').
  { intros x s t Ha. pose proof (Hasg _ Ha) as Hpt. cbn [fst snd] in Hpt. destruct (assigns_key a Wa _ Ha) as [K1 _].
    unfold asg_key in K1. cbn [fst snd] in K1. assert (Ks : sort_of t = s) by congruence. clear -HF Hpt Ks.
    induction HF as [|[y v] [y' t'] l l' [F1 [F2 F3]] HF IH]; [destruct Hpt|]. cbn [fst snd] in *. destruct Hpt as [Hq|Hpt].
    - injection Hq as -> ->. subst y. exists v. split; [left; reflexivity|]. split; [left; reflexivity|]. split; [congruence|]. intros E' HE'. apply F3. exact HE'.
    - destruct (IH Hpt) as [v0 [V1 [V2 V3]]]. exists v0. split; [right; auto|]. split; [right; auto|]. exact V3. }
  assert (Hbv : forall v, In v lb <-> In v (map bound_var a)).
  { intros v. rewrite Hlb, bound_split, in_app_iff, map_asg_key by auto. reflexivity. }
  assert (Hnl : forall pp, In pp (combine raw pts) -> no_let (snd (fst pp)) = true).
  { intros [[x v] p'] Hpp. apply in_combine_l in Hpp. apply Hhy in Hpp. apply andb_true_iff in Hpp. destruct Hpp as [Hpp _].
    apply hygienic_spec in Hpp. destruct Hpp as [h [_ [Hpp _]]]. exact Hpp. }
  (* where the body has the polarity, the environment is one of those inside the anchor *)
  assert (HK : forall E1 : env I, env_ok E1 -> holds E1 u = pol -> (forall y s, ~ In (y, s) lb -> E1 y s = E y s) ->
           forall E', ext a E E' -> (forall x s, In (x, s) (decls a) -> E' x s = E1 x s) ->
           (forall x s t, In ((x, s), t) (assigns a) -> E' x s = eval t E') -> forall x s, E' x s = E1 x s).
  { intros E1 H1 Hh1 Ho E' He Hd' Ha'.
    assert (Hout : forall y s, ~ In (y, s) lb -> E' y s = E1 y s).
    { intros y s Hy. rewrite Ho by auto. apply (ext_notin _ _ _ He). rewrite <- Hbv. exact Hy. }
    intros x s. destruct (svmem (x, s) (map bound_var a)) eqn:Ev.
    2:{ apply Hout. rewrite Hbv, <- svmem_In. congruence. }
    apply svmem_In in Ev. apply bound_split in Ev. destruct Ev as [Ev|Ev]; [auto|].
    apply in_map_iff in Ev. destruct Ev as [[[x1 s1] t] [Hq' Ev]]. cbn [fst] in Hq'. injection Hq' as -> ->.
    eapply (pts_order_ok E1 E' lb (combine raw pts) Hout Hnl (assigns a) (decls a) Hord Hd'); [|exact Ev].
    intros y sy ty Hy. destruct (HA _ _ _ Hy) as [v [V1 [V2 [V3 V4]]]]. exists ((y, v), (y, ty)). split; [auto|]. split; [reflexivity|]. cbn [fst snd]. split.
    - assert (Hpf : point_free u (y, v) = true) by (apply Hhy in V1; apply andb_true_iff in V1; tauto).
      unfold point_free in Hpf. cbn [fst snd] in Hpf. apply andb_true_iff in Hpf. destruct Hpf as [G1 G2]. rewrite forallb_forall in G2.
      rewrite <- V3. apply (points_hold u pol E1 H1 Hbu Hh1 y v V1).
      + intros Hi. apply smem_In in Hi. rewrite Hi in G1. discriminate.
      + intros z sz Hz Hi. apply fvars_spec in Hz; [|apply (Hnl _ V2)]. apply G2 in Hz. cbn [fst] in Hz. apply smem_In in Hi. rewrite Hi in Hz. discriminate.
    - rewrite (Ha' _ _ _ Hy). apply V4. econstructor; eauto. }
  assert (Hprev : forall E', ext a E E' -> eval u E' = eval u' E').
  { intros E' He. destruct (Hin E' He) as [_ Hpe]; [rewrite Ed; intros id t []|]. destruct Hpr as [-> | ->]; apply tEq_holds in Hpe; auto. }
  assert (Hfu' : forall E2 E' : env I, ext a E E' -> (forall x s, In (x, s) (decls a) -> E' x s = E2 x s) ->
           (forall y s, ~ In (y, s) (decls a) -> E2 y s = E y s) -> eval u' E' = eval u' E2).
  { intros E2 E' He Hd' Ho. apply eval_agree. intros y s Hf. destruct (svmem (y, s) (decls a)) eqn:Ev; [apply svmem_In in Ev; auto|].
    assert (Hn : ~ In (y, s) (decls a)) by (rewrite <- svmem_In; congruence). rewrite Ho by auto. apply (ext_notin _ _ _ He).
    rewrite bound_split. intros [Hi|Hi]; [auto|]. apply in_map_iff in Hi. destruct Hi as [[v t] [Hq' Hi]]. cbn [fst] in Hq'. subst v.
    apply Hnf in Hi. cbn [fst snd] in Hi. rewrite Hf in Hi. discriminate. }
  apply holds_tEq. rewrite eval_quant by auto. rewrite (as_quant_eval q rb u' w E Hq HEok Hbw Hw').
  f_equal. f_equal. set (f := fun E0 : env I => sgn q (holds E0 u)). set (g := fun E0 : env I => sgn q (holds E0 u')).
  assert (D1 : eval_all lb f E = false -> eval_all rb g E = false).
  { intros Hf. destruct (eval_all_witness lb f E) as [vals [V1 V2]]. rewrite Hf in V2. unfold f in V2. apply sgn_pol in V2; auto.
    set (E1 := upds E lb vals) in *. assert (H1 : env_ok E1) by (apply env_ok_upds; auto).
    destruct (ext_build E1 H1 a E N1 Hfr) as [E' [He [B1 B2]]].
    assert (Ho : forall y s, ~ In (y, s) lb -> E1 y s = E y s) by (intros; apply upds_notin; auto).
    pose proof (HK E1 H1 V2 Ho E' He B1 B2) as Hk.
    apply (eval_all_false rb g E (map (fun v => E1 (fst v) (snd v)) rb)); [apply doms_self; auto|].
    unfold g. apply sgn_pol; auto. rewrite <- V2. unfold holds. rewrite <- (eval_ext u _ _ Hk), (Hprev E' He). f_equal. symmetry.
    apply Hfu'; auto; subst rb; intros x s Hx.
    - rewrite B1 by auto. symmetry. apply upds_self. auto.
    - apply upds_notin. auto. }
  assert (D2 : eval_all rb g E = false -> eval_all lb f E = false).
  { intros Hg. destruct (eval_all_witness rb g E) as [vals [V1 V2]]. rewrite Hg in V2. unfold g in V2. apply sgn_pol in V2; auto.
    set (E2 := upds E rb vals) in *. assert (H2 : env_ok E2) by (apply env_ok_upds; auto).
    destruct (ext_build E2 H2 a E N1 Hfr) as [E' [He [B1 B2]]].
    assert (HE' : env_ok E') by (eapply ext_ok; eauto).
    apply (eval_all_false lb f E (map (fun v => E' (fst v) (snd v)) lb)); [apply doms_self; auto|].
    unfold f. apply sgn_pol; auto. rewrite <- V2. unfold holds.
    rewrite (eval_ext u _ E').
    - rewrite (Hprev E' He). f_equal. apply Hfu'; auto. intros y s Hy. apply upds_notin. subst rb. exact Hy.
    - intros x s. apply upds_self. destruct (svmem (x, s) lb) eqn:Ev; [left; apply svmem_In; auto|right].
      symmetry. apply (ext_notin _ _ _ He). rewrite <- Hbv, <- svmem_In. congruence. }
  destruct (eval_all lb f E) eqn:X1, (eval_all rb g E) eqn:X2; try reflexivity; [discriminate (D2 eq_refl)|discriminate (D1 eq_refl)].
Qed.
