(** Soundness of the string rules of R_Str.v. *)
From Coq Require Import List String ZArith NArith QArith Bool Arith Lia.
From Verif Require Import Term Field Sem Sorting Base Rules Num Polyeq R_CP CPSound SubstSound BinderSound QuantSound BfunSound CheckerSem R_Str.
Import ListNotations.
Local Open Scope nat_scope.
Local Open Scope list_scope.

(** ** Values of flattened and expanded terms *)
Section Val.
  Context {I : interp}.
  Implicit Types E : env I.
  Definition sval E (t : term) : list N := str (eval t E).
  Definition sv E (l : list term) : list N := List.concat (map (sval E) l).
  Lemma sv_app E a b : sv E (a ++ b) = sv E a ++ sv E b.
  Proof. unfold sv. rewrite map_app, concat_app. reflexivity. Qed.
  Lemma sv_cons E a l : sv E (a :: l) = sval E a ++ sv E l.
  Proof. reflexivity. Qed.
  Lemma sv_nil E : sv E [] = [].
  Proof. reflexivity. Qed.
  Lemma sval_cat E l : sval E (TOp OStrConcat l) = sv E l.
  Proof. unfold sval, sv. cbn [eval eval_op str]. rewrite map_map. reflexivity. Qed.
  Lemma flat_val E t : sv E (flat t) = sval E t.
  Proof.
    induction t using term_ind'; cbn [flat]; try (rewrite sv_cons, sv_nil, app_nil_r; reflexivity).
    - destruct c as [z|q|s|v w]; try (cbn [flat]; rewrite sv_cons, sv_nil, app_nil_r; reflexivity). cbn [flat]. unfold sv, sval. cbn [eval eval_const str].
      rewrite map_map. cbn [eval eval_const str tStr]. induction s as [|c s IH]; cbn; [reflexivity|]. f_equal. exact IH.
    - destruct (op_eqb o OStrConcat) eqn:Ho; [|rewrite sv_cons, sv_nil, app_nil_r; reflexivity]. apply op_eqb_eq in Ho. subst o. rewrite sval_cat.
      induction H as [|a l Ha Hl IH]; cbn [flat_map]; [reflexivity|]. rewrite sv_app, sv_cons, IH, Ha. reflexivity.
  Qed.
  Lemma cat_val E l : sval E (cat l) = sv E l.
  Proof. destruct l as [|a [|b l]]; [reflexivity|cbn [cat]; rewrite sv_cons, sv_nil, app_nil_r; reflexivity|]. apply sval_cat. Qed.
  Lemma expand_const t : as_const_nat (expand t) = as_const_nat t.
  Proof.
    destruct t as [c| | |o l| | | |]; try reflexivity.
    - destruct c as [z|q|s|v w]; try reflexivity. destruct s as [|a [|b s]]; reflexivity.
    - cbn [expand]. destruct (op_eqb o OStrConcat); reflexivity.
  Qed.
  Lemma expand_sort t : sort_of (expand t) = sort_of t.
  Proof.
    induction t using term_ind'; cbn [expand]; try reflexivity.
    - destruct c as [z|q|s|v w]; try reflexivity. destruct s as [|a [|b s]]; reflexivity.
    - destruct (op_eqb o OStrConcat) eqn:Ho.
      + apply op_eqb_eq in Ho. subst o. reflexivity.
      + assert (Hm : map sort_of (map expand args) = map sort_of args).
        { rewrite map_map. apply map_ext_in. rewrite Forall_forall in H. auto. }
        destruct o; cbn [sort_of]; rewrite ?Hm; try reflexivity.
        (* bit-vector constants look at their arguments *)
        destruct args as [|a [|b [|? ?]]]; cbn [map]; rewrite ?expand_const; reflexivity.
    - destruct b; cbn [sort_of]; rewrite ?IHt; reflexivity.
    - cbn [sort_of]. exact IHt.
    - cbn [sort_of]. rewrite map_map. f_equal. apply map_ext_in. rewrite Forall_forall in H0. auto.
  Qed.
  Lemma expand_val t : forall E, eval (expand t) E = eval t E.
  Proof.
    induction t using term_ind'; intros E; cbn [expand]; try reflexivity.
    - destruct c as [z|q|s|v w]; try reflexivity. cbn [eval eval_const].
      assert (Hs : exists w, eval (cat (map (fun c => tStr [c]) s)) E = VS w) by (destruct s as [|a [|b s]]; eexists; reflexivity).
      destruct Hs as [w Hw]. pose proof (cat_val E (map (fun c => tStr [c]) s)) as H. unfold sval in H. rewrite Hw in *. cbn [str] in H. subst w.
      f_equal. exact (flat_val E (TConst (CStr s))).
    - cbn [eval]. f_equal. rewrite map_map. apply map_ext_in. rewrite Forall_forall in H. intros a Ha. apply H. exact Ha.
    - destruct (op_eqb o OStrConcat) eqn:Ho; cbn [eval].
      + apply op_eqb_eq in Ho. subst o. cbn [eval_op]. f_equal. rewrite !map_map. change (sv E (flat_map flat args) = sv E args). clear H.
        induction args as [|a l IH]; cbn [flat_map]; [reflexivity|]. rewrite sv_app, sv_cons, IH, flat_val. reflexivity.
      + f_equal. rewrite map_map. apply map_ext_in. rewrite Forall_forall in H. intros a Ha. apply H. exact Ha.
    - cbn [eval]. rewrite expand_sort. apply eval_bind_ext2; [reflexivity|]. intros vals _. apply IHt.
    - cbn [eval]. apply IHt.
    - cbn [eval]. f_equal. rewrite map_map. apply map_ext_in. rewrite Forall_forall in H0. intros a Ha. apply H0. exact Ha.
  Qed.
  (** two terms that expand to the same term have the same value *)
  Lemma expand_eq a b E : expand a = expand b -> eval a E = eval b E.
  Proof. intros H. rewrite <- (expand_val a E), H. apply expand_val. Qed.
End Val.


(** ** Sorts and goodness of the flat form *)
Lemma good_str s : good (tStr s).
Proof. split; reflexivity. Qed.
Lemma flat_good t : good t -> Forall good (flat t).
Proof.
  induction t using term_ind'; intros G; cbn [flat]; try (constructor; [exact G|constructor]).
  - destruct c as [z|q|s|v w]; try (constructor; [exact G|constructor]). apply Forall_forall. intros x Hx. apply in_map_iff in Hx.
    destruct Hx as [c [<- _]]. apply good_str.
  - destruct (op_eqb o OStrConcat); [|constructor; [exact G|constructor]]. apply Forall_forall. intros x Hx. apply in_flat_map in Hx.
    destruct Hx as [a [Ha Hx]]. rewrite Forall_forall in H. pose proof (H a Ha (good_op _ _ _ G Ha)) as K. rewrite Forall_forall in K. auto.
Qed.
Definition str_term (t : term) : Prop := wt t = true /\ sort_of t = SString.
Lemma str_concat_args l : wt (TOp OStrConcat l) = true -> Forall str_term l.
Proof.
  intros H. apply R_AC.wt_op_args in H. destruct H as [H1 H2]. cbn [op_wt] in H2. apply andb_true_iff in H2. destruct H2 as [_ H2].
  rewrite forallb_forall in H1, H2. apply Forall_forall. intros a Ha. split; [auto|]. symmetry. apply sort_eqb_eq. apply H2. apply in_map. exact Ha.
Qed.
Lemma flat_str t : str_term t -> Forall str_term (flat t).
Proof.
  induction t using term_ind'; intros G; cbn [flat]; try (constructor; [exact G|constructor]).
  - destruct c as [z|q|s|v w]; try (constructor; [exact G|constructor]). apply Forall_forall. intros x Hx. apply in_map_iff in Hx.
    destruct Hx as [c [<- _]]. split; reflexivity.
  - destruct (op_eqb o OStrConcat) eqn:Ho; [|constructor; [exact G|constructor]]. apply op_eqb_eq in Ho. subst o.
    destruct G as [G _]. apply str_concat_args in G. apply Forall_forall. intros x Hx. apply in_flat_map in Hx.
    destruct Hx as [a [Ha Hx]]. rewrite Forall_forall in G, H. pose proof (H a Ha (G a Ha)) as K. rewrite Forall_forall in K. auto.
Qed.
Lemma flat_other t : sort_of t <> SString -> flat t = [t].
Proof.
  destruct t as [c| | |o l| | | |]; intros H; cbn [flat]; try reflexivity.
  - destruct c; try reflexivity. contradiction H. reflexivity.
  - destruct (op_eqb o OStrConcat) eqn:Ho; [|reflexivity]. apply op_eqb_eq in Ho. subst o. contradiction H. reflexivity.
Qed.
Lemma len_str t : wt (tLen t) = true -> str_term t.
Proof.
  intros H. apply R_AC.wt_op_args in H. destruct H as [H1 H2]. cbn [forallb] in H1. rewrite andb_true_r in H1. split; [exact H1|].
  cbn [op_wt map] in H2. unfold sorts_are in H2. cbn in H2. rewrite andb_true_r in H2. apply sort_eqb_eq. exact H2.
Qed.

Section Rules1.
  Context {I : interp}.
  Implicit Types E : env I.
  Lemma str_val E t : env_ok E -> str_term t -> eval t E = VS (sval E t).
  Proof.
    intros HE [Hw Hs]. pose proof (eval_dom t E Hw HE) as D. rewrite Hs in D. apply dom_string in D. destruct D as [s Hv].
    unfold sval. rewrite Hv. reflexivity.
  Qed.
  Lemma cat_str E l : env_ok E -> Forall str_term l -> eval (cat l) E = VS (sv E l).
  Proof.
    intros HE H. pose proof (cat_val E l) as V. destruct l as [|a [|b l]]; cbn [cat] in *.
    - reflexivity.
    - inversion H; subst. rewrite str_val by auto. f_equal. exact V.
    - rewrite <- V. reflexivity.
  Qed.
  Lemma sval_eq E a b : eval a E = eval b E -> sval E a = sval E b.
  Proof. unfold sval. congruence. Qed.
  Lemma sv_ext E p q : Forall2 (fun a b => eval a E = eval b E) p q -> sv E p = sv E q.
  Proof. induction 1 as [|a b p q H _ IH]; [reflexivity|]. rewrite !sv_cons, IH, (sval_eq E a b H). reflexivity. Qed.
  Lemma sv_rev_if E rv l : sv E (rev_if rv l) = if rv then sv E (rev l) else sv E l.
  Proof. destruct rv; reflexivity. Qed.

  Lemma prefix_loop_ok p t u : prefix_loop p t = ROk u -> Forall good p -> Forall good t ->
    exists q r, t = q ++ r /\ forall E, env_ok E -> Forall2 (fun a b => eval a E = eval b E) p q.
  Proof.
    revert t. induction p as [|a p IH]; intros t H Gp Gt; cbn [prefix_loop] in H.
    - exists [], t. split; [reflexivity|]. constructor.
    - destruct t as [|b t]; [discriminate|]. apply obind_ok in H. destruct H as [v [Ha H]]. apply assert_polyeq_ok in Ha.
      inversion Gp; subst. inversion Gt; subst. destruct (IH t H) as [q [r [-> Hq]]]; auto.
      exists (b :: q), r. split; [reflexivity|]. intros E HE. constructor; auto. apply polyeq_good; auto.
  Qed.
  Lemma Forall_rev_if (P : term -> Prop) rv l : Forall P l -> Forall P (rev_if rv l).
  Proof. destruct rv; [apply Forall_rev|auto]. Qed.
  Lemma prefix_ok t p rv l : is_prefix_or_suffix t p rv = ROk l -> good t -> good p ->
    l = flat p /\ forall E, env_ok E -> exists r, sval E t = if rv then r ++ sval E p else sval E p ++ r.
  Proof.
    unfold is_prefix_or_suffix. intros H Gt Gp. destruct (Nat.ltb _ _); [discriminate|]. apply obind_ok in H. destruct H as [u [Hl H]].
    injection H as <-. split; [destruct rv; cbn [rev_if]; rewrite ?rev_involutive; reflexivity|].
    apply flat_good in Gt, Gp.
    destruct (prefix_loop_ok _ _ _ Hl (Forall_rev_if _ rv _ Gp) (Forall_rev_if _ rv _ Gt)) as [q [r [Hq Hv]]].
    intros E HE. specialize (Hv E HE). rewrite <- !flat_val. destruct rv; cbn [rev_if] in *.
    - exists (sv E (rev r)). rewrite <- (rev_involutive (flat t)), Hq, rev_app_distr, sv_app. f_equal. symmetry. apply sv_ext.
      clear - Hv. rewrite <- (rev_involutive (flat p)). remember (rev (flat p)) as p'. clear Heqp'. induction Hv; cbn [rev]; [constructor|].
      apply Forall2_app; auto.
    - exists (sv E r). rewrite Hq, sv_app. f_equal. symmetry. apply sv_ext. exact Hv.
  Qed.
  Lemma polyeq_refl a : polyeq a a = ROk true.
  Proof.
    unfold polyeq, peq, eq_rc. assert (Ha : term_eqb a a = true) by (apply term_eqb_eq; reflexivity). rewrite Ha. reflexivity.
  Qed.
  Definition heads_differ (s t : list term) : Prop := match s, t with a :: _, b :: _ => polyeq a b = ROk false | _, _ => True end.
  Lemma strip_loop_ok s t r : strip_loop s t = ROk r -> Forall good s -> Forall good t ->
    heads_differ (fst r) (snd r) /\
    exists p q, s = p ++ fst r /\ t = q ++ snd r /\ forall E, env_ok E -> Forall2 (fun a b => eval a E = eval b E) p q.
  Proof.
    revert t r. induction s as [|a s IH]; intros t r H Gs Gt; cbn [strip_loop] in H.
    - injection H as <-. cbn [fst snd]. split; [exact Logic.I|]. exists [], []. repeat split; auto.
    - destruct t as [|b t].
      + injection H as <-. cbn [fst snd]. split; [exact Logic.I|]. exists [], []. repeat split; auto.
      + apply obind_ok in H. destruct H as [e [He H]]. destruct e.
        * inversion Gs; subst. inversion Gt; subst. destruct (IH t r H) as [Hh [p [q [-> [-> Hv]]]]]; auto. split; [exact Hh|].
          exists (a :: p), (b :: q). repeat split. intros E HE. constructor; auto. apply polyeq_good; auto.
        * injection H as <-. cbn [fst snd]. split; [exact He|]. exists [], []. repeat split; auto.
  Qed.
  Lemma strip_ok s t rv r : strip s t rv = ROk r -> good s -> good t ->
    heads_differ (rev_if rv (fst r)) (rev_if rv (snd r)) /\
    exists p q, flat s = (if rv then fst r ++ p else p ++ fst r) /\ flat t = (if rv then snd r ++ q else q ++ snd r) /\
      forall E, env_ok E -> sv E p = sv E q.
  Proof.
    unfold strip. intros H Gs Gt. apply flat_good in Gs, Gt. apply (Forall_rev_if _ rv) in Gs, Gt.
    assert (H' : (do r <- strip_loop (rev_if rv (flat s)) (rev_if rv (flat t)) ; ROk (rev_if rv (fst r), rev_if rv (snd r))) = ROk r).
    { destruct (rev_if rv (flat s)); [discriminate|]. destruct (rev_if rv (flat t)); [discriminate|]. exact H. }
    clear H. apply obind_ok in H'. destruct H' as [x [Hx H]]. injection H as <-. cbn [fst snd].
    destruct (strip_loop_ok _ _ _ Hx Gs Gt) as [Hh [p [q [Hp [Hq Hv]]]]]. destruct rv; cbn [rev_if] in *.
    - rewrite !rev_involutive. split; [exact Hh|]. exists (rev p), (rev q).
      rewrite <- !rev_app_distr, <- Hp, <- Hq, !rev_involutive. repeat split. intros E HE. specialize (Hv E HE). apply sv_ext.
      clear - Hv. induction Hv; cbn [rev]; [constructor|]. apply Forall2_app; auto.
    - split; [exact Hh|]. exists p, q. repeat split; auto. intros E HE. apply sv_ext. auto.
  Qed.
End Rules1.

(** ** The rules.  The condition: the premises contain no negative numerals and no n-ary divisions and their let-bound names are
    used with one sort, so that the comparison [polyeq] of parts of the premises is sound (PolyeqSound.v). *)
Definition str_ok (c : clause) (ps : list clause) (args : list term) : bool := forallb (forallb std_term) ps.
Lemma good_prem ps h : str_ok [] ps [] = true -> forallb clause_wt ps = true -> In [h] ps -> good h.
Proof.
  unfold str_ok. rewrite !forallb_forall. intros H1 H2 Hh. specialize (H1 _ Hh). specialize (H2 _ Hh). cbn [forallb] in H1.
  rewrite andb_true_r in H1. split; [|exact H1]. apply clause_wt_one in H2. apply bool_term_wt. exact H2.
Qed.
Lemma good_eq_l a b : good (TOp OEquals [a; b]) -> good a.
Proof. intros H. eapply good_op; [exact H|left; reflexivity]. Qed.
Lemma good_eq_r a b : good (TOp OEquals [a; b]) -> good b.
Proof. intros H. eapply good_op; [exact H|right; left; reflexivity]. Qed.
Lemma good_not a : good (tNot a) -> good a.
Proof. intros H. eapply good_op; [exact H|left; reflexivity]. Qed.

Lemma list_app_split {A} (a b c d : list A) : a ++ b = c ++ d -> List.length a = List.length c -> a = c /\ b = d.
Proof.
  revert c. induction a as [|x a IH]; intros [|y c] H HL; try discriminate; cbn in *; [auto|].
  injection H as -> H. destruct (IH c H) as [-> ->]; [lia|]. auto.
Qed.
Lemma list_app_split_r {A} (a b c d : list A) : a ++ b = c ++ d -> List.length b = List.length d -> a = c /\ b = d.
Proof.
  intros H HL. apply list_app_split; [exact H|]. assert (List.length (a ++ b) = List.length (c ++ d)) by congruence. rewrite !app_length in *. lia.
Qed.
(** the expected equality and the conclusion agree *)
Lemma eq_concl {I} (E : env I) a b g : tEq a b = expand g -> eval a E = eval b E -> holds E g = true.
Proof.
  intros H V. unfold holds. rewrite <- (expand_val g E), <- H. fold (holds E (tEq a b)). apply holds_eq_iff. exact V.
Qed.

Ltac shape H := cbn [len_is rassert List.length Nat.eqb obind idx nth_error unwrap premise_term] in H.
Ltac one_prem H c ps g h :=
  destruct ps as [|[|h [|? ?]] [|? ?]]; try discriminate H; destruct c as [|g [|? ?]]; try discriminate H; shape H.
Ltac two_prem H c ps g h h1 :=
  destruct ps as [|[|h [|? ?]] [|[|h1 [|? ?]] [|? ?]]]; try discriminate H; destruct c as [|g [|? ?]]; try discriminate H; shape H.
Ltac bool_arg H args a rv :=
  destruct args as [|a [|? ?]]; try discriminate H; shape H; destruct (as_bool a) as [rv|]; [|discriminate H]; cbn [ok_or obind] in H.

Theorem concat_eq_sound : rule_sound_if r_concat_eq str_ok.
Proof.
  intros c ps args H Hok Hw Hwp. unfold r_concat_eq in H.
  destruct ps as [|p [|? ?]]; try discriminate H. destruct args as [|a [|? ?]]; try discriminate H. destruct c as [|g [|? ?]]; try discriminate H. shape H.
  ostepn H x Hx. destruct p as [|h [|? ?]]; try discriminate H. shape H. destruct (as_bool a) as [rv|]; [|discriminate H]. cbn [ok_or obind] in H.
  ostepn H st Hst. ostepn H r Hr. apply teq_ok in H. apply m_op2_ok in Hst. destruct st as [s t]. cbn [fst snd] in *. subst h.
  intros I E HE Hp. apply one_holds. specialize (Hp _ (or_introl eq_refl)). apply (proj1 (one_holds _ _)), (proj1 (holds_eq_iff _ _ _)) in Hp.
  assert (G : good (TOp OEquals [s; t])) by (eapply good_prem; [exact Hok|exact Hwp|left; reflexivity]).
  pose proof (good_eq_l _ _ G) as Gs. pose proof (good_eq_r _ _ G) as Gt.
  destruct (strip_ok (I := I) _ _ _ _ Hr Gs Gt) as [_ [p [q [Fs [Ft V]]]]]. specialize (V E HE).
  assert (Hs : sort_of s = sort_of t) by (destruct G as [G _]; apply eq_args_wt in G; tauto).
  apply (eq_concl E _ _ _ H).
  destruct (sort_eqb (sort_of s) SString) eqn:Es.
  - apply sort_eqb_eq in Es. pose proof (flat_str s (conj (proj1 Gs) Es)) as Ss.
    pose proof (flat_str t (conj (proj1 Gt) (eq_trans (eq_sym Hs) Es))) as St.
    rewrite Fs in Ss. rewrite Ft in St.
    assert (Hc : sv E (fst r) = sv E (snd r)).
    { apply sval_eq in Hp. rewrite <- !flat_val, Fs, Ft in Hp. destruct rv; rewrite !sv_app, V in Hp.
      - apply app_inv_tail in Hp. exact Hp.
      - apply app_inv_head in Hp. exact Hp. }
    rewrite !cat_str; auto; [f_equal; exact Hc|..]; destruct rv; apply Forall_app in Ss, St; tauto.
  - assert (Ns : sort_of s <> SString) by (intros K; apply sort_eqb_eq in K; congruence).
    rewrite flat_other in Fs by exact Ns. rewrite flat_other in Ft by congruence.
    unfold strip in Hr. rewrite !flat_other in Hr by congruence.
    replace (rev_if rv [s]) with [s] in Hr by (destruct rv; reflexivity). replace (rev_if rv [t]) with [t] in Hr by (destruct rv; reflexivity).
    cbn [strip_loop] in Hr. destruct (polyeq s t) as [[|]| |]; try discriminate Hr; cbn [obind fst snd] in Hr; injection Hr as <-;
      destruct rv; cbn; try reflexivity; exact Hp.
Qed.

Lemma m_len_pair_ok o t p : m_len_pair o t = ROk p -> t = TOp o [tLen (fst p); tLen (snd p)].
Proof.
  unfold m_len_pair. intros H. ostepn H xy Hxy. ostepn H x Hx. ostepn H y Hy. injection H as <-. apply m_op2_ok in Hxy. destruct xy as [a b].
  apply m_op1_ok in Hx, Hy. cbn [fst snd] in *. subst. reflexivity.
Qed.
Lemma m_not_len0_ok t x : m_not_len0 t = ROk x -> exists z, t = tNot (tEq (tLen x) z) /\ is_numb 0 z = true.
Proof.
  unfold m_not_len0. intros H. ostepn H e He. ostepn H lz Hlz. ostepn H y Hy. ostepn H u Hu. injection H as <-. apply rassert_ok in Hu.
  apply rm_neg_ok in He. apply m_op2_ok in Hlz. destruct lz as [a b]. cbn [fst snd] in *. apply m_op1_ok in Hy. subst. exists b. auto.
Qed.
Lemma str_eq_args a b : str_term a -> wt (tEq a b) = true -> str_term b.
Proof. intros [_ H] Hw. apply eq_args_wt in Hw. split; [tauto|]. destruct Hw as [_ [_ Hs]]. congruence. Qed.
Lemma good_len_pair o x y : good (TOp o [tLen x; tLen y]) -> (good x /\ str_term x) /\ (good y /\ str_term y).
Proof.
  intros G. assert (Gx : good (tLen x)) by (eapply good_op; [exact G|left; reflexivity]).
  assert (Gy : good (tLen y)) by (eapply good_op; [exact G|right; left; reflexivity]).
  split.
  - split; [eapply good_op; [exact Gx|left; reflexivity]|apply len_str; apply Gx].
  - split; [eapply good_op; [exact Gy|left; reflexivity]|apply len_str; apply Gy].
Qed.

Section Vals.
  Context {I : interp}.
  Implicit Types E : env I.
  Definition zval E (t : term) : Z := ofloor (num (eval t E)).
  Definition slen E (t : term) : Z := Z.of_nat (List.length (sval E t)).
  Lemma eval_len E t : eval (tLen t) E = vint (slen E t).
  Proof. reflexivity. Qed.
  Lemma eval_int E z : eval (tInt z) E = vint z.
  Proof. reflexivity. Qed.
  Lemma eval_minus E a b x y : eval a E = vint x -> eval b E = vint y -> eval (tMinus a b) E = vint (x - y).
  Proof. intros Ha Hb. unfold tMinus. cbn [eval map eval_op fold_left]. rewrite Ha, Hb. cbn [num vint]. unfold vint. rewrite inj_sub. reflexivity. Qed.
  Lemma eval_substr E u i n x y : eval i E = vint x -> eval n E = vint y ->
    eval (TOp OSubstring [u; i; n]) E = VS (substr (sval E u) x y).
  Proof. intros Hi Hn. cbn [eval map eval_op]. rewrite Hi, Hn. cbn [num vint]. rewrite !floor_inj. reflexivity. Qed.
  Lemma eval_prefix E u n y : eval n E = vint y -> eval (sk_prefix u n) E = VS (substr (sval E u) 0 y).
  Proof. intros H. apply eval_substr; [reflexivity|exact H]. Qed.
  Lemma eval_suffix_rem E u n y : eval n E = vint y -> eval (sk_suffix_rem u n) E = VS (substr (sval E u) y (slen E u - y)).
  Proof. intros H. apply eval_substr; [exact H|]. apply eval_minus; [reflexivity|exact H]. Qed.
  Lemma eval_suffix E u n y : eval n E = vint y -> eval (sk_suffix u n) E = VS (substr (sval E u) (slen E u - y) y).
  Proof. intros H. apply eval_substr; [|exact H]. apply eval_minus; [reflexivity|exact H]. Qed.
  Lemma eval_cat2 E a b : eval (tCat a b) E = VS (sval E a ++ sval E b).
  Proof. unfold tCat. cbn [eval map eval_op List.concat]. rewrite app_nil_r. reflexivity. Qed.
  Lemma sval_of E t s : eval t E = VS s -> sval E t = s.
  Proof. unfold sval. intros ->. reflexivity. Qed.
  Lemma holds_len_eq E x y : holds E (TOp OEquals [tLen x; tLen y]) = Z.eqb (slen E x) (slen E y).
  Proof. rewrite holds_eq', !eval_len. unfold veqb, vint. cbn [veqb_]. apply inj_eqb. Qed.
  Lemma holds_len_gt E x y : holds E (TOp OGt [tLen x; tLen y]) = Z.ltb (slen E y) (slen E x).
  Proof.
    unfold holds. cbn [eval map eval_op chain truth num]. fold (slen E x). change (num (vint ?z)) with (@inj (iF I) z). unfold oltb. rewrite andb_true_r.
    change (negb (oleb (inj (slen E x) : iF I) (inj (slen E y))) = (slen E y <? slen E x)%Z). rewrite inj_leb. rewrite Z.ltb_antisym. reflexivity.
  Qed.
  Lemma holds_len_ge E x y : holds E (TOp OGe [tLen x; tLen y]) = Z.leb (slen E y) (slen E x).
  Proof.
    unfold holds. cbn [eval map eval_op chain truth]. rewrite andb_true_r.
    change (oleb (inj (slen E y) : iF I) (inj (slen E x)) = (slen E y <=? slen E x)%Z). apply inj_leb.
  Qed.
  Lemma holds_len0 E x z : is_numb 0 z = true -> holds E (tEq (tLen x) z) = true -> sval E x = [].
  Proof.
    intros Hz H. apply (proj1 (holds_eq_iff _ _ _)) in H. apply (is_numb_val E) in Hz. unfold R_LA.nval in Hz. rewrite <- H, eval_len in Hz.
    cbn [num vint] in Hz. apply inj_inj in Hz. unfold slen in Hz. destruct (sval E x); [reflexivity|discriminate].
  Qed.
  Lemma holds_len0' E x z : is_numb 0 z = true -> wt (tEq (tLen x) z) = true -> env_ok E -> holds E (tEq (tLen x) z) = false -> sval E x <> [].
  Proof.
    intros Hz Hw HE H Hn. assert (K : holds E (tEq (tLen x) z) = true); [|congruence]. apply holds_eq_iff. rewrite eval_len. unfold slen. rewrite Hn.
    apply (is_numb_val E) in Hz. unfold R_LA.nval in Hz. apply eq_args_wt in Hw. destruct Hw as [_ [Hw Hs]].
    pose proof (eval_dom z E Hw HE) as D. rewrite <- Hs in D. apply dom_int in D. destruct D as [k Hk]. rewrite Hk in *. cbn [num vint] in Hz.
    unfold vint. rewrite Hz. reflexivity.
  Qed.
End Vals.

(** ** str.substr *)
Lemma substr_prefix s n : (0 <= n)%Z -> substr s 0 n = firstn (Z.to_nat n) s.
Proof.
  intros Hn. unfold substr. cbn [Z.ltb Z.compare orb]. destruct (Z.leb_spec (Z.of_nat (List.length s)) 0).
  - cbn [orb]. destruct s; [rewrite firstn_nil; reflexivity|cbn in H; lia].
  - destruct (Z.leb_spec n 0); [replace n with 0%Z by lia; reflexivity|reflexivity].
Qed.
Lemma substr_rest s n : (0 <= n)%Z -> substr s n (Z.of_nat (List.length s) - n) = skipn (Z.to_nat n) s.
Proof.
  intros Hn. unfold substr. destruct (Z.ltb_spec n 0); [lia|]. cbn [orb]. destruct (Z.leb_spec (Z.of_nat (List.length s)) n); cbn [orb].
  - rewrite skipn_all2 by lia. reflexivity.
  - destruct (Z.leb_spec (Z.of_nat (List.length s) - n) 0); [lia|]. apply firstn_all2. rewrite skipn_length. lia.
Qed.
Lemma substr_suffix s n : (0 <= n <= Z.of_nat (List.length s))%Z ->
  substr s (Z.of_nat (List.length s) - n) n = skipn (List.length s - Z.to_nat n) s.
Proof.
  intros Hn. replace (List.length s - Z.to_nat n) with (Z.to_nat (Z.of_nat (List.length s) - n)) by lia.
  rewrite <- substr_rest by lia. f_equal. lia.
Qed.
Lemma substr_neg s i n : (i < 0)%Z -> substr s i n = [].
Proof. intros H. unfold substr. destruct (Z.ltb_spec i 0); [reflexivity|lia]. Qed.
Lemma substr_none s i n : (n <= 0)%Z -> substr s i n = [].
Proof. intros H. unfold substr. destruct (Z.leb_spec n 0); [|lia]. rewrite orb_true_r. reflexivity. Qed.

Theorem concat_unify_sound : rule_sound_if r_concat_unify str_ok.
Proof.
  intros c ps args H Hok Hw Hwp. unfold r_concat_unify in H.
  destruct ps as [|p [|p1 [|? ?]]]; try discriminate H. destruct args as [|a [|? ?]]; try discriminate H. destruct c as [|g [|? ?]]; try discriminate H. shape H.
  ostepn H x Hx. destruct p as [|h [|? ?]]; try discriminate H. destruct p1 as [|h1 [|? ?]]; try discriminate H. shape H.
  destruct (as_bool a) as [rv|]; [|discriminate H]. cbn [ok_or obind] in H.
  ostepn H st Hst. ostepn H xy Hxy. ostepn H s1 Hs1. ostepn H t1 Ht1. apply teq_ok in H. apply m_op2_ok in Hst. apply m_len_pair_ok in Hxy.
  destruct st as [s t], xy as [y z]. cbn [fst snd] in *. subst h h1.
  intros I E HE Hp. apply one_holds.
  pose proof (Hp _ (or_introl eq_refl)) as H0. apply (proj1 (one_holds _ _)), (proj1 (holds_eq_iff _ _ _)) in H0.
  pose proof (Hp _ (or_intror (or_introl eq_refl))) as H1. apply (proj1 (one_holds _ _)) in H1. rewrite holds_len_eq in H1. apply Z.eqb_eq in H1.
  assert (G : good (TOp OEquals [s; t])) by (eapply good_prem; [exact Hok|exact Hwp|left; reflexivity]).
  assert (G1 : good (TOp OEquals [tLen y; tLen z])) by (eapply good_prem; [exact Hok|exact Hwp|right; left; reflexivity]).
  destruct (good_len_pair _ _ _ G1) as [[Gy Sy] [Gz Sz]]. pose proof (good_eq_l _ _ G) as Gs. pose proof (good_eq_r _ _ G) as Gt.
  destruct (prefix_ok (I := I) _ _ _ _ Hs1 Gs Gy) as [-> P1]. destruct (prefix_ok (I := I) _ _ _ _ Ht1 Gt Gz) as [-> P2].
  destruct (P1 E HE) as [r1 V1]. destruct (P2 E HE) as [r2 V2]. apply (eq_concl E _ _ _ H).
  rewrite !cat_str by (auto using flat_str). f_equal. rewrite !flat_val. apply sval_eq in H0. rewrite V1, V2 in H0. unfold slen in H1.
  destruct rv.
  - apply list_app_split_r in H0; [tauto|lia].
  - apply list_app_split in H0; [tauto|lia].
Qed.

Lemma utf8_one s : utf8_len s = 1 -> exists c, s = [c].
Proof.
  destruct s as [|a [|b s]]; intros H; [discriminate|eauto|]. exfalso. unfold utf8_len in H. cbn in H.
  assert (K : forall c, 1 <= utf8_len1 c).
  { intros c. unfold utf8_len1. destruct (N.ltb c 128); [lia|]. destruct (N.ltb c 2048); [lia|]. destruct (N.ltb c 65536); lia. }
  pose proof (K a). pose proof (K b). lia.
Qed.
Lemma len_one_ok t u : len_one t = ROk u -> exists c, t = tStr [c].
Proof.
  destruct t as [c| | | | | | |]; try discriminate. destruct c as [z|q|s|v w]; try discriminate. intros H. apply rassert_ok, Nat.eqb_eq in H.
  apply utf8_one in H. destruct H as [c ->]. exists c. reflexivity.
Qed.
Lemma as_bool_false {I} (E : env I) g : as_bool g = Some false -> wt g = true -> holds E g = false.
Proof.
  destruct g as [| | |o l| | | |]; try discriminate. cbn [as_bool]. destruct (op_eqb o OTrue); [discriminate|].
  destruct (op_eqb o OFalse) eqn:Ho; [|discriminate]. apply op_eqb_eq in Ho. subst o. reflexivity.
Qed.
Lemma strip_val {I} (E : env I) s t rv r : strip s t rv = ROk r -> good s -> good t -> env_ok E -> sval E s = sval E t ->
  sv E (fst r) = sv E (snd r).
Proof.
  intros Hr Gs Gt HE Hv. destruct (strip_ok (I := I) _ _ _ _ Hr Gs Gt) as [_ [p [q [Fs [Ft V]]]]]. specialize (V E HE).
  rewrite <- !flat_val, Fs, Ft in Hv. destruct rv; rewrite !sv_app, V in Hv; [apply app_inv_tail in Hv|apply app_inv_head in Hv]; exact Hv.
Qed.
Theorem concat_conflict_sound : rule_sound_if r_concat_conflict str_ok.
Proof.
  intros c ps args H Hok Hw Hwp. unfold r_concat_conflict in H.
  destruct ps as [|p [|? ?]]; try discriminate H. destruct args as [|a [|? ?]]; try discriminate H. destruct c as [|g [|? ?]]; try discriminate H. shape H.
  destruct p as [|h [|? ?]]; try discriminate H. shape H. destruct (as_bool a) as [rv|]; [|discriminate H]. cbn [ok_or obind] in H.
  destruct (as_bool g) as [b|] eqn:Eg; [|discriminate H]. cbn [ok_or obind] in H. destruct b; [discriminate H|].
  ostepn H st Hst. ostepn H r Hr. apply m_op2_ok in Hst. destruct st as [s t]. cbn [fst snd] in *. subst h.
  intros I E HE Hp. exfalso. specialize (Hp _ (or_introl eq_refl)). apply (proj1 (one_holds _ _)), (proj1 (holds_eq_iff _ _ _)) in Hp.
  assert (G : good (TOp OEquals [s; t])) by (eapply good_prem; [exact Hok|exact Hwp|left; reflexivity]).
  pose proof (good_eq_l _ _ G) as Gs. pose proof (good_eq_r _ _ G) as Gt.
  destruct (strip_ok (I := I) _ _ _ _ Hr Gs Gt) as [Hd _]. pose proof (strip_val E _ _ _ _ Hr Gs Gt HE (sval_eq E _ _ Hp)) as V. clear Hr.
  assert (V' : sv E (rev_if rv (rev_if rv (fst r))) = sv E (rev_if rv (rev_if rv (snd r)))) by (destruct rv; cbn [rev_if]; rewrite ?rev_involutive; exact V).
  clear V. revert Hd V' H. generalize (rev_if rv (fst r)) (rev_if rv (snd r)). intros l k Hd V H.
  assert (K : forall c l, sv E (rev_if rv (tStr [c] :: l)) = if rv then sv E (rev l) ++ [c] else c :: sv E l).
  { intros c m. destruct rv; cbn [rev_if rev]; [rewrite sv_app|]; reflexivity. }
  destruct l as [|x l], k as [|y k].
  - discriminate H.
  - apply len_one_ok in H. destruct H as [c ->]. rewrite K in V. destruct rv; [symmetry in V; apply app_eq_nil in V; destruct V; discriminate|discriminate].
  - apply len_one_ok in H. destruct H as [c ->]. rewrite K in V. destruct rv; [apply app_eq_nil in V; destruct V; discriminate|discriminate].
  - ostepn H u Hu. apply len_one_ok in Hu, H. destruct Hu as [c ->], H as [d ->]. rewrite !K in V. cbn [heads_differ] in Hd.
    assert (c = d) as ->; [|rewrite polyeq_refl in Hd; discriminate].
    destruct rv; [apply app_inj_tail in V; tauto|congruence].
Qed.

Theorem csplit_prefix_sound : rule_sound_if r_csplit_prefix str_ok.
Proof.
  intros c ps args H Hok Hw Hwp. unfold r_csplit_prefix in H.
  destruct ps as [|p [|p1 [|? ?]]]; try discriminate H. destruct c as [|g [|? ?]]; try discriminate H. shape H.
  ostepn H x Hx. destruct p as [|h [|? ?]]; try discriminate H. destruct p1 as [|h1 [|? ?]]; try discriminate H. shape H.
  ostepn H ts Hts. ostepn H t1 Ht1. ostepn H u Hu. clear Hu u. apply m_op2_ok in Hts. destruct ts as [t s]. cbn [fst snd] in *. subst h.
  apply m_not_len0_ok in Ht1. destruct Ht1 as [z [-> Hz]].
  destruct (flat s) as [|ch fs] eqn:Fs; [discriminate H|]. ostepn H l Hl. ostepn H u Hu. apply len_one_ok in Hu. destruct Hu as [k ->]. apply teq_ok in H.
  intros I E HE Hp. apply one_holds.
  pose proof (Hp _ (or_introl eq_refl)) as H0. apply (proj1 (one_holds _ _)), (proj1 (holds_eq_iff _ _ _)) in H0. apply sval_eq in H0.
  pose proof (Hp _ (or_intror (or_introl eq_refl))) as H1. apply (proj1 (one_holds _ _)) in H1. unfold tNot in H1. rewrite holds_not' in H1. apply negb_true_iff in H1.
  assert (G : good (TOp OEquals [t; s])) by (eapply good_prem; [exact Hok|exact Hwp|left; reflexivity]).
  assert (G1 : good (tNot (tEq (tLen t1) z))) by (eapply good_prem; [exact Hok|exact Hwp|right; left; reflexivity]). apply good_not in G1.
  apply holds_len0' in H1; auto; [|apply G1]. apply good_eq_l in G1. pose proof (len_str _ (proj1 G1)) as St1.
  assert (Gt1 : good t1) by (eapply good_op; [exact G1|left; reflexivity]).
  destruct (prefix_ok (I := I) _ _ _ _ Hl (good_eq_l _ _ G) Gt1) as [_ P]. destruct (P E HE) as [r V]. apply (eq_concl E _ _ _ H).
  rewrite expand_val, (str_val E t1 HE St1). cbn [cat]. change (TOp OStrConcat [?a; ?b]) with (tCat a b). rewrite eval_cat2. f_equal.
  rewrite (sval_of _ _ _ (eval_suffix_rem E t1 (tInt 1) 1 eq_refl)). unfold slen. rewrite substr_rest by lia.
  change (sval E (tStr [k])) with [k]. rewrite <- (flat_val E s), Fs, sv_cons in H0. change (sval E (tStr [k])) with [k] in H0. rewrite V in H0.
  destruct (sval E t1) as [|k' w]; [congruence|]. cbn in H0. injection H0 as -> _. reflexivity.
Qed.
Theorem csplit_suffix_sound : rule_sound_if r_csplit_suffix str_ok.
Proof.
  intros c ps args H Hok Hw Hwp. unfold r_csplit_suffix in H.
  destruct ps as [|p [|p1 [|? ?]]]; try discriminate H. destruct c as [|g [|? ?]]; try discriminate H. shape H.
  ostepn H x Hx. destruct p as [|h [|? ?]]; try discriminate H. destruct p1 as [|h1 [|? ?]]; try discriminate H. shape H.
  ostepn H ts Hts. ostepn H t1 Ht1. ostepn H u Hu. clear Hu u. apply m_op2_ok in Hts. destruct ts as [t s]. cbn [fst snd] in *. subst h.
  apply m_not_len0_ok in Ht1. destruct Ht1 as [z [-> Hz]].
  destruct (rev (flat s)) as [|ch fs] eqn:Fs; [discriminate H|]. ostepn H l Hl. ostepn H u Hu. apply len_one_ok in Hu. destruct Hu as [k ->]. apply teq_ok in H.
  intros I E HE Hp. apply one_holds.
  pose proof (Hp _ (or_introl eq_refl)) as H0. apply (proj1 (one_holds _ _)), (proj1 (holds_eq_iff _ _ _)) in H0. apply sval_eq in H0.
  pose proof (Hp _ (or_intror (or_introl eq_refl))) as H1. apply (proj1 (one_holds _ _)) in H1. unfold tNot in H1. rewrite holds_not' in H1. apply negb_true_iff in H1.
  assert (G : good (TOp OEquals [t; s])) by (eapply good_prem; [exact Hok|exact Hwp|left; reflexivity]).
  assert (G1 : good (tNot (tEq (tLen t1) z))) by (eapply good_prem; [exact Hok|exact Hwp|right; left; reflexivity]). apply good_not in G1.
  apply holds_len0' in H1; auto; [|apply G1]. apply good_eq_l in G1. pose proof (len_str _ (proj1 G1)) as St1.
  assert (Gt1 : good t1) by (eapply good_op; [exact G1|left; reflexivity]).
  destruct (prefix_ok (I := I) _ _ _ _ Hl (good_eq_l _ _ G) Gt1) as [_ P]. destruct (P E HE) as [r V]. apply (eq_concl E _ _ _ H).
  rewrite expand_val, (str_val E t1 HE St1). cbn [cat]. change (TOp OStrConcat [?a; ?b]) with (tCat a b). rewrite eval_cat2. f_equal.
  rewrite (sval_of _ _ _ (eval_prefix E t1 _ (slen E t1 - 1) (eval_minus E (tLen t1) (tInt 1) (slen E t1) 1 (eval_len E t1) eq_refl))). unfold slen.
  change (sval E (tStr [k])) with [k].
  assert (Fs' : flat s = rev fs ++ [tStr [k]]) by (rewrite <- (rev_involutive (flat s)), Fs; reflexivity).
  rewrite <- (flat_val E s), Fs', sv_app in H0. change (sv E [tStr [k]]) with [k] in H0. rewrite V in H0.
  destruct (exists_last H1) as [w [k' Hw']]. rewrite Hw' in *. rewrite app_assoc in H0. apply app_inj_tail in H0. destruct H0 as [_ ->].
  rewrite app_length. cbn [List.length]. rewrite substr_prefix by lia. f_equal.
  replace (Z.to_nat _) with (List.length w) by lia. rewrite firstn_app, firstn_all, Nat.sub_diag, app_nil_r. reflexivity.
Qed.

(** ** Splitting: of two prefixes of a string one is a prefix of the other *)
Lemma prefixes {A} (a b c d : list A) : a ++ c = b ++ d -> List.length b <= List.length a -> a = b ++ skipn (List.length b) a.
Proof.
  revert b. induction a as [|x a IH]; intros [|y b] H HL; cbn in *; try lia; try reflexivity. injection H as -> H. f_equal. apply IH; auto. lia.
Qed.
Lemma suffixes {A} (a b c d : list A) : c ++ a = d ++ b -> List.length b <= List.length a -> a = firstn (List.length a - List.length b) a ++ b.
Proof.
  intros H HL. rewrite <- (firstn_skipn (List.length a - List.length b) a) at 1. f_equal.
  rewrite <- (firstn_skipn (List.length a - List.length b) a), app_assoc in H. apply list_app_split_r in H; [tauto|].
  rewrite skipn_length. lia.
Qed.
Section Split.
  Context {I : interp}.
  Implicit Types E : env I.
  Lemma split_prefix_val E t s :
    sval E (sk_split_prefix t s) = if Z.leb (slen E s) (slen E t) then skipn (List.length (sval E s)) (sval E t) else skipn (List.length (sval E t)) (sval E s).
  Proof.
    apply sval_of. unfold sk_split_prefix. rewrite eval_ite. fold (holds E (TOp OGe [tLen t; tLen s])). rewrite holds_len_ge.
    rewrite !(eval_suffix_rem E _ _ _ (eval_len E _)). unfold slen. destruct (Z.leb _ _); rewrite substr_rest, Nat2Z.id by lia; reflexivity.
  Qed.
  Lemma split_suffix_val E t s :
    sval E (sk_split_suffix t s) = if Z.leb (slen E s) (slen E t) then firstn (List.length (sval E t) - List.length (sval E s)) (sval E t)
      else firstn (List.length (sval E s) - List.length (sval E t)) (sval E s).
  Proof.
    apply sval_of. unfold sk_split_suffix. rewrite eval_ite. fold (holds E (TOp OGe [tLen t; tLen s])). rewrite holds_len_ge.
    rewrite !(eval_prefix E _ _ _ (eval_minus E _ _ _ _ (eval_len E _) (eval_len E _))). unfold slen.
    destruct (Z.leb_spec (Z.of_nat (List.length (sval E s))) (Z.of_nat (List.length (sval E t)))); rewrite substr_prefix by lia; f_equal; f_equal; lia.
  Qed.
  (** the remainder is not empty *)
  Lemma nonempty_part_ok E r : env_ok E -> eval r E = VS (sval E r) -> sval E r <> [] -> forallb (holds E) (nonempty_part r) = true.
  Proof.
    intros HE Hv Hn. unfold nonempty_part. cbn [forallb]. rewrite andb_true_r. apply andb_true_iff. split.
    - unfold tNot. rewrite holds_not'. apply negb_true_iff. destruct (holds E (tEq r tEmpty)) eqn:K; [|reflexivity]. exfalso.
      apply (proj1 (holds_eq_iff _ _ _)) in K. rewrite Hv in K. apply Hn. cbn in K. congruence.
    - unfold holds. cbn [eval map eval_op chain truth]. rewrite andb_true_r.
      change (oltb (inj 0 : iF I) (inj (slen E r)) = true). unfold oltb. rewrite inj_leb. unfold slen.
      destruct (sval E r); [congruence|]. reflexivity.
  Qed.
End Split.

Lemma expand_holds {I} (E : env I) a b : expand a = expand b -> holds E a = holds E b.
Proof. intros H. unfold holds. rewrite <- (expand_val a E), <- (expand_val b E), H. reflexivity. Qed.
Lemma holds_len_neq {I} (E : env I) y z : holds E (tNot (TOp OEquals [tLen y; tLen z])) = true -> slen E y <> slen E z.
Proof. unfold tNot. rewrite holds_not', holds_len_eq. intros H. apply negb_true_iff, Z.eqb_neq in H. exact H. Qed.
Lemma eval_ite_str {I} (E : env I) c a b : (exists x, eval a E = VS x) -> (exists x, eval b E = VS x) -> eval (TOp OIte [c; a; b]) E = VS (sval E (TOp OIte [c; a; b])).
Proof. intros [x Ha] [y Hb]. unfold sval. rewrite eval_ite. match goal with |- context [if ?b then _ else _] => destruct b end; [rewrite Ha|rewrite Hb]; reflexivity. Qed.
Lemma split_str {I} (E : env I) (rv : bool) t s : let r := if rv then sk_split_suffix t s else sk_split_prefix t s in eval r E = VS (sval E r).
Proof.
  destruct rv; cbn zeta iota; apply eval_ite_str; eexists.
  all: try apply (eval_prefix E _ _ _ (eval_minus E _ _ _ _ (eval_len E _) (eval_len E _))).
  all: apply (eval_suffix_rem E _ _ _ (eval_len E _)).
Qed.
(** the longer of two prefixes (suffixes) is the shorter one with a non-empty remainder *)
Lemma split_val {I} (E : env I) (rv : bool) t s x y : env_ok E -> str_term t -> str_term s ->
  (if rv then x ++ sval E t = y ++ sval E s else sval E t ++ x = sval E s ++ y) -> slen E t <> slen E s ->
  let t1 := expand t in let s1 := expand s in
  let r := if rv then sk_split_suffix t1 s1 else sk_split_prefix t1 s1 in
  sval E r <> [] /\
  (if Z.leb (slen E s) (slen E t) then holds E (tEq t1 (if rv then tCat r s1 else tCat s1 r)) = true
   else holds E (tEq s1 (if rv then tCat r t1 else tCat t1 r)) = true).
Proof.
  intros HE Ht Hs Hv Hn t1 s1 r.
  assert (Vt : eval t1 E = VS (sval E t)) by (unfold t1; rewrite expand_val; apply str_val; assumption).
  assert (Vs : eval s1 E = VS (sval E s)) by (unfold s1; rewrite expand_val; apply str_val; assumption).
  assert (Wt : sval E t1 = sval E t) by (apply sval_of; exact Vt). assert (Ws : sval E s1 = sval E s) by (apply sval_of; exact Vs).
  assert (Vr : sval E r = if Z.leb (slen E s) (slen E t)
     then (if rv then firstn (List.length (sval E t) - List.length (sval E s)) (sval E t) else skipn (List.length (sval E s)) (sval E t))
     else (if rv then firstn (List.length (sval E s) - List.length (sval E t)) (sval E s) else skipn (List.length (sval E t)) (sval E s))).
  { unfold r. destruct rv; [rewrite split_suffix_val|rewrite split_prefix_val]; unfold slen; rewrite Wt, Ws; reflexivity. }
  unfold slen in *. destruct (Z.leb_spec (Z.of_nat (List.length (sval E s))) (Z.of_nat (List.length (sval E t)))) as [L|L].
  - split.
    + intros K. rewrite Vr in K. apply (f_equal (@List.length N)) in K. cbn [List.length] in K. destruct rv; [rewrite firstn_length in K|rewrite skipn_length in K]; lia.
    + apply holds_eq_iff. destruct rv; rewrite eval_cat2, Vt, Vr, Ws; f_equal.
      * eapply suffixes; [exact Hv|lia].
      * eapply prefixes; [exact Hv|lia].
  - split.
    + intros K. rewrite Vr in K. apply (f_equal (@List.length N)) in K. cbn [List.length] in K. destruct rv; [rewrite firstn_length in K|rewrite skipn_length in K]; lia.
    + apply holds_eq_iff. destruct rv; rewrite eval_cat2, Vs, Vr, Wt; f_equal.
      * eapply suffixes; [symmetry; exact Hv|lia].
      * eapply prefixes; [symmetry; exact Hv|lia].
Qed.
Theorem split_sound rv : rule_sound_if (r_split rv) str_ok.
Proof.
  intros c ps args H Hok Hw Hwp. unfold r_split in H.
  destruct ps as [|p [|p1 [|? ?]]]; try discriminate H. destruct c as [|g [|? ?]]; try discriminate H. shape H.
  ostepn H x Hx. destruct p as [|h [|? ?]]; try discriminate H. destruct p1 as [|h1 [|? ?]]; try discriminate H. shape H.
  ostepn H ts Hts. ostepn H e He. ostepn H xy Hxy. ostepn H u Hu. clear Hu u. ostepn H u Hu. clear Hu u. ostepn H t1 Ht1. ostepn H s1 Hs1. apply teq_ok in H.
  apply m_op2_ok in Hts. apply m_len_pair_ok in Hxy. apply rm_neg_ok in He. destruct ts as [t s], xy as [y z]. cbn [fst snd] in *. subst h e h1.
  intros I E HE Hp. apply one_holds.
  pose proof (Hp _ (or_introl eq_refl)) as H0. apply (proj1 (one_holds _ _)), (proj1 (holds_eq_iff _ _ _)) in H0. apply sval_eq in H0.
  pose proof (Hp _ (or_intror (or_introl eq_refl))) as H1. apply (proj1 (one_holds _ _)), holds_len_neq in H1.
  assert (G : good (TOp OEquals [t; s])) by (eapply good_prem; [exact Hok|exact Hwp|left; reflexivity]).
  assert (G1 : good (tNot (TOp OEquals [tLen y; tLen z]))) by (eapply good_prem; [exact Hok|exact Hwp|right; left; reflexivity]). apply good_not in G1.
  destruct (good_len_pair _ _ _ G1) as [[Gy Sy] [Gz Sz]].
  destruct (prefix_ok (I := I) _ _ _ _ Ht1 (good_eq_l _ _ G) Gy) as [_ P1]. destruct (prefix_ok (I := I) _ _ _ _ Hs1 (good_eq_r _ _ G) Gz) as [_ P2].
  destruct (P1 E HE) as [r1 V1]. destruct (P2 E HE) as [r2 V2]. rewrite V1, V2 in H0.
  rewrite (expand_holds E _ _ H).
  destruct (split_val E rv y z r1 r2 HE Sy Sz) as [N K]; [destruct rv; exact H0|exact H1|].
  rewrite holds_and. cbn [forallb]. apply andb_true_iff. split; [|apply nonempty_part_ok; [exact HE|apply split_str|exact N]].
  rewrite holds_or. cbn [existsb]. rewrite orb_false_r. apply orb_true_iff. destruct (Z.leb _ _); auto.
Qed.
Theorem lprop_sound rv : rule_sound_if (r_lprop rv) str_ok.
Proof.
  intros c ps args H Hok Hw Hwp. unfold r_lprop in H.
  destruct ps as [|p [|p1 [|? ?]]]; try discriminate H. destruct c as [|g [|? ?]]; try discriminate H. shape H.
  ostepn H x Hx. destruct p as [|h [|? ?]]; try discriminate H. destruct p1 as [|h1 [|? ?]]; try discriminate H. shape H.
  ostepn H ts Hts. ostepn H xy Hxy. ostepn H u Hu. clear Hu u. ostepn H u Hu. clear Hu u. ostepn H t1 Ht1. ostepn H s1 Hs1. apply teq_ok in H.
  apply m_op2_ok in Hts. apply m_len_pair_ok in Hxy. destruct ts as [t s], xy as [y z]. cbn [fst snd] in *. subst h h1.
  intros I E HE Hp. apply one_holds.
  pose proof (Hp _ (or_introl eq_refl)) as H0. apply (proj1 (one_holds _ _)), (proj1 (holds_eq_iff _ _ _)) in H0. apply sval_eq in H0.
  pose proof (Hp _ (or_intror (or_introl eq_refl))) as H1. apply (proj1 (one_holds _ _)) in H1. rewrite holds_len_gt in H1. apply Z.ltb_lt in H1.
  assert (G : good (TOp OEquals [t; s])) by (eapply good_prem; [exact Hok|exact Hwp|left; reflexivity]).
  assert (G1 : good (TOp OGt [tLen y; tLen z])) by (eapply good_prem; [exact Hok|exact Hwp|right; left; reflexivity]).
  destruct (good_len_pair _ _ _ G1) as [[Gy Sy] [Gz Sz]].
  destruct (prefix_ok (I := I) _ _ _ _ Ht1 (good_eq_l _ _ G) Gy) as [_ P1]. destruct (prefix_ok (I := I) _ _ _ _ Hs1 (good_eq_r _ _ G) Gz) as [_ P2].
  destruct (P1 E HE) as [r1 V1]. destruct (P2 E HE) as [r2 V2]. rewrite V1, V2 in H0.
  rewrite (expand_holds E _ _ H).
  destruct (split_val E rv y z r1 r2 HE Sy Sz) as [N K]; [destruct rv; exact H0|lia|].
  rewrite holds_and. cbn [forallb]. apply andb_true_iff. split; [|apply nonempty_part_ok; [exact HE|apply split_str|exact N]].
  destruct (Z.leb_spec (slen E z) (slen E y)); [exact K|lia].
Qed.

(** ** concat_cprop: the overlap of two constants *)
Definition chars (l : list N) : list term := map (fun c => tStr [c]) l.
Definition lit1 (t : term) : bool := match t with TConst (CStr [_]) => true | _ => false end.
Lemma lits l : forallb lit1 l = true -> exists cs, l = chars cs.
Proof.
  induction l as [|t l IH]; cbn [forallb]; intros H; [exists []; reflexivity|]. apply andb_true_iff in H. destruct H as [Ht Hl].
  destruct (IH Hl) as [cs ->]. destruct t as [[z|q|[|c [|? ?]]|v w]| | | | | | |]; try discriminate Ht. exists (c :: cs). reflexivity.
Qed.
Lemma sv_chars {I} (E : env I) l : sv E (chars l) = l.
Proof. induction l as [|c l IH]; [reflexivity|]. cbn [chars map]. rewrite sv_cons. fold (chars l). rewrite IH. reflexivity. Qed.
Lemma compatible_chars a b x y : a ++ x = b ++ y -> is_compatible (chars a) (chars b) = true.
Proof.
  revert b. induction a as [|c a IH]; intros [|d b] H; try reflexivity. cbn in H. injection H as -> H.
  cbn [chars map is_compatible]. rewrite (proj2 (term_eqb_eq _ _) eq_refl). apply (IH b H).
Qed.
Lemma overlap_le s t k : k < List.length s -> is_compatible (skipn k s) t = true -> overlap s t <= k.
Proof.
  revert k. induction s as [|a s IH]; intros k HL H; [cbn in HL; lia|]. destruct s as [|b s]; [cbn; lia|].
  assert (E : overlap (a :: b :: s) t = if is_compatible (a :: b :: s) t then 0 else 1 + overlap (b :: s) t) by reflexivity. rewrite E.
  destruct (is_compatible (a :: b :: s) t) eqn:K; [lia|]. destruct k as [|k]; [cbn [skipn] in H; congruence|].
  cbn in HL. assert (overlap (b :: s) t <= k) by (apply IH; [cbn; lia|exact H]). lia.
Qed.
Lemma overlap_len s t : s <> [] -> 1 + overlap s t <= List.length s.
Proof.
  induction s as [|a s IH]; intros H; [congruence|]. destruct s as [|b s]; [cbn; lia|].
  assert (E : overlap (a :: b :: s) t = if is_compatible (a :: b :: s) t then 0 else 1 + overlap (b :: s) t) by reflexivity. rewrite E.
  assert (1 + overlap (b :: s) t <= List.length (b :: s)) by (apply IH; congruence). destruct (is_compatible _ _); cbn [List.length] in *; lia.
Qed.
Lemma skipn_map' {A B} (f : A -> B) n l : skipn n (map f l) = map f (skipn n l).
Proof. revert l. induction n as [|n IH]; intros [|a l]; cbn; auto. Qed.
(** the first character of [a] and the part of it that cannot overlap with [t2] are a prefix of [t1] *)
Lemma overlap_prefix (t1 t2 x a y : list N) c : t1 <> [] -> t1 ++ t2 ++ x = (c :: a) ++ y ->
  1 + overlap (chars a) (chars t2) <= List.length t1.
Proof.
  intros H1 H. destruct t1 as [|c' t1]; [congruence|]. cbn in H. injection H as _ H. cbn [List.length]. apply le_n_S.
  destruct (Nat.lt_ge_cases (List.length t1) (List.length a)) as [L|L].
  - apply overlap_le; [unfold chars; rewrite map_length; exact L|]. unfold chars at 1. rewrite skipn_map'. apply (compatible_chars _ _ y x).
    rewrite <- (firstn_skipn (List.length t1) a) in H. rewrite <- app_assoc in H.
    symmetry in H. apply list_app_split in H; [tauto|]. rewrite firstn_length. lia.
  - destruct a as [|b a]; [cbn; lia|]. pose proof (overlap_len (chars (b :: a)) (chars t2)) as K.
    assert (Hl : List.length (chars (b :: a)) = S (List.length a)) by (unfold chars; rewrite map_length; reflexivity).
    rewrite Hl in K. cbn [List.length] in L. assert (chars (b :: a) <> []) by discriminate. specialize (K H0). lia.
Qed.
(** the condition under which the cprop rules are right: at most two parts in the constant, or only literals in it and in the middle
    part; for the suffix variant moreover only two parts on the right *)
Definition cprop_cond (rv : bool) (t s : term) : bool :=
  match t, cprop_args s rv with
  | TOp _ [t1; t2; t3], ROk ss =>
      match nth_error ss (if rv then 1 else 0) with
      | Some s0 => (Nat.leb (List.length (flat s0)) 2 || (forallb lit1 (flat s0) && forallb lit1 (flat t2))) &&
                   (if rv then Nat.eqb (List.length ss) 2 else true)
      | None => false
      end
  | _, _ => false
  end.
Definition cprop_ok (rv : bool) (c : clause) (ps : list clause) (args : list term) : bool :=
  match ps with [TOp _ [t; s]] :: _ => cprop_cond rv t s | _ => false end.
Lemma cprop_args_val {I} (E : env I) s rv ss : cprop_args s rv = ROk ss -> sval E s = sv E ss.
Proof.
  destruct s as [[z|q|l|v w]| | |o l| | | |]; try discriminate.
  - destruct l as [|c l]; [discriminate|]. cbn [cprop_args]. destruct rv; intros H; injection H as <-; rewrite !sv_cons, sv_nil, ?app_nil_r; reflexivity.
  - cbn [cprop_args]. destruct (op_eqb o OStrConcat) eqn:Ho; [|discriminate]. apply op_eqb_eq in Ho. subst o. intros H. injection H as <-.
    apply sval_cat.
Qed.
Lemma prefix_of {A} (p x a y : list A) n : p ++ x = a ++ y -> n <= List.length p -> n <= List.length a -> firstn n a = firstn n p.
Proof.
  intros H Hp Ha. assert (E : firstn n (p ++ x) = firstn n (a ++ y)) by (rewrite H; reflexivity). rewrite !firstn_app in E.
  replace (n - List.length p) with 0 in E by lia. replace (n - List.length a) with 0 in E by lia. cbn in E. rewrite !app_nil_r in E. auto.
Qed.

Lemma prefix_rest {A} (p x a y : list A) n : p ++ x = a ++ y -> n <= List.length p -> p = firstn n a ++ skipn (List.length (firstn n a)) p.
Proof.
  intros H Hp. rewrite firstn_length. assert (E : firstn n a = firstn (Nat.min n (List.length a)) p).
  { rewrite <- (prefix_of p x a y); [|assumption|lia|lia]. destruct (Nat.le_ge_cases n (List.length a)); [rewrite Nat.min_l by lia; reflexivity|].
    rewrite Nat.min_r by lia. rewrite !firstn_all2 by lia. reflexivity. }
  rewrite E at 1. symmetry. apply firstn_skipn.
Qed.
Definition rif {A} (rv : bool) (l : list A) : list A := if rv then rev l else l.
Lemma overlap_short s t : List.length s <= 1 -> overlap s t = 0.
Proof. destruct s as [|a [|b s]]; cbn; intros; try reflexivity; lia. Qed.
(** the number of characters the rules take *)
Lemma cprop_count {I} (E : env I) rv (s0 t2 : term) tl t1 x y : t1 <> [] ->
  tail_of (rev_if rv (flat s0)) = ROk tl ->
  (Nat.leb (List.length (flat s0)) 2 || (forallb lit1 (flat s0) && forallb lit1 (flat t2))) = true ->
  (if rv then x ++ sval E t2 ++ t1 = y ++ sval E s0 else t1 ++ sval E t2 ++ x = sval E s0 ++ y) ->
  let v := 1 + overlap tl (rev_if rv (flat t2)) in
  v <= List.length t1 /\ (v = 1 \/ v <= List.length (sval E s0)).
Proof.
  intros H1 Ht Hc Hv v. apply orb_true_iff in Hc. destruct Hc as [Hc|Hc].
  - apply Nat.leb_le in Hc. assert (v = 1) as ->.
    { unfold v. rewrite overlap_short; [reflexivity|]. destruct (rev_if rv (flat s0)) as [|a l] eqn:R; [discriminate|]. injection Ht as <-.
      assert (List.length (a :: l) = List.length (flat s0)) by (rewrite <- R; destruct rv; cbn [rev_if]; [apply rev_length|reflexivity]). cbn in H. lia. }
    split; [destruct t1; [congruence|cbn; lia]|auto].
  - apply andb_true_iff in Hc. destruct Hc as [Ha Hb]. apply lits in Ha, Hb. destruct Ha as [a Ha], Hb as [b Hb].
    assert (Va : sval E s0 = a) by (rewrite <- flat_val, Ha; apply sv_chars). assert (Vb : sval E t2 = b) by (rewrite <- flat_val, Hb; apply sv_chars).
    rewrite Va, Vb in *. assert (Rv : forall l, rev_if rv (chars l) = chars (rif rv l)) by (intros l; destruct rv; cbn [rev_if rif]; unfold chars; rewrite ?map_rev; reflexivity).
    unfold v. rewrite Ha, Rv in Ht. rewrite Hb, Rv. clear v.
    assert (Hv' : exists x' y', rif rv t1 ++ rif rv b ++ x' = rif rv a ++ y').
    { destruct rv; cbn [rev_if rif]; [|eauto]. exists (rev x), (rev y). apply (f_equal (@rev N)) in Hv. rewrite !rev_app_distr in Hv. rewrite <- app_assoc in Hv. exact Hv. }
    destruct Hv' as [x' [y' Hv']].
    replace (List.length t1) with (List.length (rif rv t1)) by (destruct rv; cbn [rev_if rif]; [apply rev_length|reflexivity]).
    replace (List.length a) with (List.length (rif rv a)) by (destruct rv; cbn [rev_if rif]; [apply rev_length|reflexivity]).
    assert (H1' : rif rv t1 <> []).
    { destruct rv; cbn [rev_if rif]; [|exact H1]. intros K. apply H1. apply (f_equal (@rev N)) in K. rewrite rev_involutive in K. exact K. }
    destruct (rif rv a) as [|c a']; [discriminate|]. cbn [chars map tail_of] in Ht. injection Ht as <-. fold (chars a').
    split; [eapply overlap_prefix; eassumption|].
    destruct a' as [|d a']; [left; reflexivity|right]. pose proof (overlap_len (chars (d :: a')) (chars (rif rv b))) as K.
    assert (Hl : List.length (chars (d :: a')) = S (List.length a')) by (unfold chars; rewrite map_length; reflexivity).
    rewrite Hl in K. assert (chars (d :: a') <> []) by discriminate. specialize (K H). cbn [List.length]. lia.
Qed.
Lemma concat3_str a b c : wt (TOp OStrConcat [a; b; c]) = true -> str_term a /\ str_term b /\ str_term c.
Proof. intros H. apply str_concat_args in H. rewrite Forall_forall in H. repeat split; apply H; cbn; auto. Qed.

Theorem cprop_prefix_sound : rule_sound_if r_cprop_prefix (cprop_ok false).
Proof.
  intros c ps args H Hok Hw Hwp. unfold r_cprop_prefix in H.
  destruct ps as [|p [|p1 [|? ?]]]; try discriminate H. destruct c as [|g [|? ?]]; try discriminate H. shape H.
  ostepn H x Hx. ostepn H u Hu. clear u Hu. destruct p as [|h [|? ?]]; try discriminate H. destruct p1 as [|h1 [|? ?]]; try discriminate H. shape H.
  ostepn H ts Hts. ostepn H t1 Ht1. ostepn H at_ Hat. ostepn H u Hu. apply teq_ok in Hu. ostepn H ss Hss. ostepn H s0 Hs0. ostepn H sc Htl. apply teq_ok in H.
  apply m_op2_ok in Hts. destruct ts as [t s]. cbn [fst snd] in *. subst h. apply m_not_len0_ok in Ht1. destruct Ht1 as [z [-> Hz]].
  apply m_op3_ok in Hat. destruct at_ as [[a1 t2] t3]. cbn [fst snd] in *. subst t a1.
  cbn [cprop_ok cprop_cond] in Hok. rewrite Hss in Hok. destruct ss as [|s0' ss]; [discriminate Hs0|]. injection Hs0 as ->. cbn [nth_error] in Hok. rewrite andb_true_r in Hok.
  intros I E HE Hp. apply one_holds.
  pose proof (Hp _ (or_introl eq_refl)) as H0. apply (proj1 (one_holds _ _)), (proj1 (holds_eq_iff _ _ _)) in H0. apply sval_eq in H0.
  pose proof (Hp _ (or_intror (or_introl eq_refl))) as H1. apply (proj1 (one_holds _ _)) in H1. unfold tNot in H1. rewrite holds_not' in H1. apply negb_true_iff in H1.
  cbn [forallb] in Hwp. apply andb_true_iff in Hwp. destruct Hwp as [W0 W1]. rewrite andb_true_r in W1. apply clause_wt_one, bool_term_wt in W0, W1.
  apply eq_args_wt in W0. destruct W0 as [W0 [_ _]]. apply concat3_str in W0. destruct W0 as [S1 [S2 S3]].
  assert (W1' : wt (tEq (tLen t1) z) = true) by (eapply R_LA.wt_arg; [exact W1|left; reflexivity]).
  apply holds_len0' in H1; auto.
  rewrite sval_cat, (cprop_args_val E _ _ _ Hss) in H0. rewrite !sv_cons, sv_nil, app_nil_r in H0.
  destruct (cprop_count E false s0 t2 sc _ _ _ H1 Htl Hok H0) as [K _]. cbn [rev_if] in K.
  rewrite (expand_holds E _ _ H). set (v := 1 + overlap sc (flat t2)) in *. apply holds_eq_iff. rewrite eval_cat2, (str_val E t1 HE S1). f_equal.
  rewrite (sval_of _ _ _ (eval_suffix_rem E t1 _ _ (eval_len E _))). unfold slen. rewrite substr_rest, Nat2Z.id by lia.
  rewrite (sval_of _ _ _ (eval_prefix E s0 _ _ (eval_int E _))). rewrite substr_prefix, Nat2Z.id by lia.
  eapply prefix_rest; [exact H0|exact K].
Qed.
Lemma suffix_rest {A} (p x a y : list A) n : x ++ p = y ++ a -> n <= List.length p -> n <= List.length a ->
  p = firstn (List.length p - n) p ++ skipn (List.length a - n) a.
Proof.
  intros H Hp Ha. rewrite <- (firstn_skipn (List.length p - n) p) at 1. f_equal.
  rewrite <- (firstn_skipn (List.length p - n) p), <- (firstn_skipn (List.length a - n) a), !app_assoc in H.
  apply list_app_split_r in H; [tauto|]. rewrite !skipn_length. lia.
Qed.
Theorem cprop_suffix_sound : rule_sound_if r_cprop_suffix (cprop_ok true).
Proof.
  intros c ps args H Hok Hw Hwp. unfold r_cprop_suffix in H.
  destruct ps as [|p [|p1 [|? ?]]]; try discriminate H. destruct c as [|g [|? ?]]; try discriminate H. shape H.
  ostepn H x Hx. ostepn H u Hu. clear u Hu. destruct p as [|h [|? ?]]; try discriminate H. destruct p1 as [|h1 [|? ?]]; try discriminate H. shape H.
  ostepn H ts Hts. ostepn H t1 Ht1. ostepn H at_ Hat. ostepn H u Hu. apply teq_ok in Hu. ostepn H ss Hss. ostepn H s0 Hs0. ostepn H sc Htl. apply teq_ok in H.
  apply m_op2_ok in Hts. destruct ts as [t s]. cbn [fst snd] in *. subst h. apply m_not_len0_ok in Ht1. destruct Ht1 as [z [-> Hz]].
  apply m_op3_ok in Hat. destruct at_ as [[t3 t2] a1]. cbn [fst snd] in *. subst t a1.
  cbn [cprop_ok cprop_cond] in Hok. rewrite Hss in Hok. destruct ss as [|s3 [|s0' ss]]; try discriminate Hs0. injection Hs0 as ->. cbn [nth_error] in Hok.
  apply andb_true_iff in Hok. destruct Hok as [Hok Hlen]. destruct ss as [|? ?]; [|discriminate Hlen].
  intros I E HE Hp. apply one_holds.
  pose proof (Hp _ (or_introl eq_refl)) as H0. apply (proj1 (one_holds _ _)), (proj1 (holds_eq_iff _ _ _)) in H0. apply sval_eq in H0.
  pose proof (Hp _ (or_intror (or_introl eq_refl))) as H1. apply (proj1 (one_holds _ _)) in H1. unfold tNot in H1. rewrite holds_not' in H1. apply negb_true_iff in H1.
  cbn [forallb] in Hwp. apply andb_true_iff in Hwp. destruct Hwp as [W0 W1]. rewrite andb_true_r in W1. apply clause_wt_one, bool_term_wt in W0, W1.
  apply eq_args_wt in W0. destruct W0 as [W0 [_ _]]. apply concat3_str in W0. destruct W0 as [S3 [S2 S1]].
  assert (W1' : wt (tEq (tLen t1) z) = true) by (eapply R_LA.wt_arg; [exact W1|left; reflexivity]).
  apply holds_len0' in H1; auto.
  rewrite sval_cat, (cprop_args_val E _ _ _ Hss) in H0. rewrite !sv_cons, sv_nil, !app_nil_r in H0.
  destruct (cprop_count E true s0 t2 sc _ _ _ H1 Htl Hok H0) as [K K']. cbn [rev_if] in K, K'.
  rewrite (expand_holds E _ _ H). set (v := 1 + overlap sc (rev (flat t2))) in *. apply holds_eq_iff. rewrite eval_cat2, (str_val E t1 HE S1). f_equal.
  rewrite (sval_of _ _ _ (eval_prefix E t1 _ _ (eval_minus E _ _ _ _ (eval_len E _) (eval_len E _)))).
  unfold slen. rewrite (sval_of _ _ _ (eval_suffix E s0 _ _ (eval_int E _))). unfold slen.
  destruct (Nat.le_gt_cases v (List.length (sval E s0))) as [L|L].
  - rewrite substr_suffix, Nat2Z.id by lia. rewrite skipn_length. rewrite substr_prefix by lia.
    replace (Z.to_nat _) with (List.length (sval E t1) - v) by lia. rewrite app_assoc in H0. eapply suffix_rest; eauto.
  - rewrite (substr_neg (sval E s0)) by lia. cbn [List.length]. rewrite substr_prefix by lia. rewrite app_nil_r, firstn_all2 by lia. reflexivity.
Qed.
