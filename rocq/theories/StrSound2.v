(** Soundness of the string rules of R_Str.v, continued: lengths, decomposition and regular expressions. *)
From Coq Require Import List String ZArith NArith QArith Bool Arith Lia.
From Verif Require Import Term Field Sem Sorting Base Rules Num Polyeq R_CP CPSound SubstSound BinderSound QuantSound BfunSound CheckerSem R_Str StrSound.
Import ListNotations.
Local Open Scope nat_scope.
Local Open Scope list_scope.

Lemma good_clause g : forallb std_term [g] = true -> clause_wt [g] = true -> good g.
Proof. cbn [forallb]. rewrite andb_true_r. intros H Hw. split; [apply bool_term_wt, clause_wt_one, Hw|exact H]. Qed.
Lemma is_empty_val {I} (E : env I) t : is_empty_string t = true -> eval t E = VS [].
Proof. destruct t as [[z|q|[|? ?]|v w]| | | | | | |]; try discriminate. reflexivity. Qed.
Lemma numb0 {I} (E : env I) z : is_numb 0 z = true -> num (eval z E) = inj 0.
Proof. intros Hz. apply (is_numb_val E) in Hz. exact Hz. Qed.
Lemma holds_pos {I} (E : env I) x z : is_numb 0 z = true -> holds E (TOp OGt [tLen x; z]) = negb (Nat.eqb (List.length (sval E x)) 0).
Proof.
  intros Hz. unfold holds. cbn [eval map eval_op chain truth]. rewrite andb_true_r, (numb0 E z Hz).
  change (oltb (inj 0 : iF I) (inj (slen E x)) = negb (Nat.eqb (List.length (sval E x)) 0)). unfold oltb. rewrite inj_leb. unfold slen.
  destruct (sval E x); reflexivity.
Qed.

(** ** Lengths *)
Definition len_pos_ok (c : clause) (ps : list clause) (args : list term) : bool :=
  forallb std_term c && forallb (fun a => wt a && std_term a) args.
Definition len_ne_ok (c : clause) (ps : list clause) (args : list term) : bool :=
  forallb std_term c && forallb (forallb std_term) ps.
(** a non-negative number by its form *)
Definition nonneg_form (n : term) : bool := match n with TConst (CInt z) => Z.leb 0 z | TOp OStrLen [_] => true | _ => false end.
Definition decompose_ok (c : clause) (ps : list clause) (args : list term) : bool :=
  forallb std_term c &&
  match ps, args with
  | [[TOp OGe [TOp OStrLen [t]; n]]], [a] =>
      match as_bool a with Some rv => negb rv && std_term (decomposed t n rv) | None => false end && nonneg_form n
  | _, _ => false
  end.

Theorem length_non_empty_sound : rule_sound_if r_length_non_empty len_ne_ok.
Proof.
  intros c ps args H Hok Hw Hwp. unfold r_length_non_empty in H.
  destruct ps as [|p [|? ?]]; try discriminate H. destruct c as [|g [|? ?]]; try discriminate H. shape H. destruct p as [|h [|? ?]]; try discriminate H. shape H.
  ostepn H t Ht. ostepn H tc Htc. apply assert_polyeq_ok in H. apply m_not_len0_ok in Htc. destruct Htc as [z [-> Hz]].
  unfold m_not_empty in Ht. ostepn Ht e He. ostepn Ht xe Hxe. ostepn Ht u Hu. apply rassert_ok in Hu. injection Ht as <-. apply rm_neg_ok in He. subst h.
  apply m_op2_ok in Hxe. destruct xe as [t em]. cbn [fst snd] in *. subst e.
  unfold len_ne_ok in Hok. apply andb_true_iff in Hok. destruct Hok as [Oc Op]. cbn [forallb] in Op, Hwp. rewrite andb_true_r in Op, Hwp.
  apply good_clause in Oc; [|exact Hw]. apply good_clause in Op; [|exact Hwp]. apply good_not in Oc, Op.
  assert (Gt : good t) by exact (good_eq_l _ _ Op). assert (Gl : good (tLen tc)) by exact (good_eq_l _ _ Oc).
  assert (Gtc : good tc) by (eapply good_op; [exact Gl|left; reflexivity]).
  intros I E HE Hp. apply one_holds. specialize (Hp _ (or_introl eq_refl)). apply (proj1 (one_holds _ _)) in Hp. unfold tNot in *. rewrite holds_not' in *.
  apply negb_true_iff. apply negb_true_iff in Hp. destruct (holds E (tEq (tLen tc) z)) eqn:K; [|reflexivity]. exfalso.
  apply holds_len0 in K; [|exact Hz]. pose proof (polyeq_good _ _ H Gtc Gt I E HE) as V.
  assert (K' : holds E (tEq t em) = true); [|unfold tEq in K'; congruence]. apply holds_eq_iff. rewrite <- V, (is_empty_val E _ Hu). rewrite (str_val E tc HE (len_str _ (proj1 Gl))), K. reflexivity.
Qed.
Theorem length_pos_sound : rule_sound_if r_length_pos len_pos_ok.
Proof.
  intros c ps args H Hok Hw Hwp. unfold r_length_pos in H.
  destruct args as [|a [|? ?]]; try discriminate H. destruct c as [|g [|? ?]]; try discriminate H. shape H.
  ostepn H o Ho. ostepn H an Han. ostepn H e1 He1. ostepn H t1 Ht1. ostepn H u Hu. apply rassert_ok in Hu. clear u. ostepn H e2 He2. ostepn H u Hu2. apply rassert_ok in Hu2. clear u.
  ostepn H t3 Ht3. ostepn H u P1. ostepn H u2 P2. apply assert_polyeq_ok in P1, P2, H. clear u u2.
  unfold m_len_pos in Ht3. ostepn Ht3 lz Hlz. ostepn Ht3 x Hx. ostepn Ht3 u Hz. apply rassert_ok in Hz. injection Ht3 as ->. clear u.
  apply m_op2_ok in Ho, Han, He1, He2, Hlz. apply m_op1_ok in Ht1, Hx. destruct o as [o1' o2'], an as [a1 a2], e1 as [l1 z1], e2 as [t2 em], lz as [l3 z3].
  cbn [fst snd] in *. subst.
  unfold len_pos_ok in Hok. apply andb_true_iff in Hok. destruct Hok as [Oc Oa]. apply good_clause in Oc; [|exact Hw].
  cbn [forallb] in Oa. rewrite andb_true_r in Oa. apply andb_true_iff in Oa. destruct Oa as [Wa Sa]. assert (Ga : good a) by (split; assumption).
  assert (G3 : good (TOp OGt [TOp OStrLen [t3]; z3])) by (eapply good_op; [exact Oc|right; left; reflexivity]).
  assert (G2 : good (TOp OAnd [TOp OEquals [TOp OStrLen [t1]; z1]; TOp OEquals [t2; em]])) by (eapply good_op; [exact Oc|left; reflexivity]).
  assert (G1 : good (TOp OEquals [TOp OStrLen [t1]; z1])) by (eapply good_op; [exact G2|left; reflexivity]).
  assert (G4 : good (TOp OEquals [t2; em])) by (eapply good_op; [exact G2|right; left; reflexivity]).
  assert (Gl3 : good (TOp OStrLen [t3])) by (eapply good_op; [exact G3|left; reflexivity]).
  assert (Gt3 : good t3) by (eapply good_op; [exact Gl3|left; reflexivity]).
  assert (Gt1 : good t1) by (eapply good_op; [exact (good_eq_l _ _ G1)|left; reflexivity]).
  pose proof (good_eq_l _ _ G4) as Gt2.
  intros I E HE Hp. apply one_holds. pose proof (polyeq_good _ _ P1 Gt1 Ga I E HE) as V1. pose proof (polyeq_good _ _ P2 Gt2 Ga I E HE) as V2.
  pose proof (polyeq_good _ _ H Gt3 Ga I E HE) as V3. rewrite holds_or. cbn [existsb]. rewrite orb_false_r. fold (tLen t3). rewrite (holds_pos E t3 z3 Hz).
  destruct (Nat.eqb_spec (List.length (sval E t3)) 0) as [L|L]; [|apply orb_true_r]. cbn [negb]. rewrite orb_false_r.
  assert (Va : eval a E = VS []). { rewrite <- V3, (str_val E t3 HE (len_str _ (proj1 Gl3))). destruct (sval E t3); [reflexivity|discriminate]. }
  rewrite holds_and. cbn [forallb]. rewrite andb_true_r. apply andb_true_iff. split.
  - destruct (holds E (TOp OEquals [TOp OStrLen [t1]; z1])) eqn:K; [reflexivity|]. exfalso. apply (holds_len0' E t1 z1 Hu) in K; [|apply G1|exact HE].
    apply K. unfold sval. rewrite V1, Va. reflexivity.
  - apply holds_eq_iff. rewrite V2, Va, (is_empty_val E em); [reflexivity|assumption].
Qed.
Theorem decompose_sound : rule_sound_if r_decompose decompose_ok.
Proof.
  intros c ps args H Hok Hw Hwp. unfold r_decompose in H.
  destruct ps as [|p [|? ?]]; try discriminate H. destruct args as [|a [|? ?]]; try discriminate H. destruct c as [|g [|? ?]]; try discriminate H. shape H.
  destruct p as [|h [|? ?]]; try discriminate H. shape H. destruct (as_bool a) as [rv|] eqn:Ea; [|discriminate H]. cbn [ok_or obind] in H.
  ostepn H ln Hln. ostepn H t Ht. ostepn H x Hx. ostepn H u Hu. clear u Hu. ostepn H u Hu. clear u Hu. apply assert_polyeq_ok in H.
  apply m_op2_ok in Hln. apply m_op1_ok in Ht. destruct ln as [l n]. cbn [fst snd] in *. subst h l.
  unfold decompose_ok in Hok. rewrite Ea in Hok. apply andb_true_iff in Hok. destruct Hok as [Oc Hok]. apply andb_true_iff in Hok. destruct Hok as [Hok Hn].
  apply andb_true_iff in Hok. destruct Hok as [Hr Hs]. destruct rv; [discriminate Hr|]. apply good_clause in Oc; [|exact Hw].
  cbn [forallb] in Hwp. rewrite andb_true_r in Hwp. apply clause_wt_one, bool_term_wt in Hwp.
  assert (Wl : wt (tLen t) = true) by (eapply R_LA.wt_arg; [exact Hwp|left; reflexivity]).
  assert (Wn : wt n = true) by (eapply R_LA.wt_arg; [exact Hwp|right; left; reflexivity]).
  pose proof (len_str _ Wl) as St. assert (Sn : sort_of n = SInt).
  { destruct n as [[z|q|s|v w]| | |o [|b [|? ?]]| | | |]; try discriminate Hn; try (destruct o; discriminate Hn); [reflexivity|]. destruct o; try discriminate Hn. reflexivity. }
  assert (Wd : wt (decomposed t n false) = true).
  { destruct St as [Wt St]. unfold decomposed, sk_prefix, sk_suffix_rem, tMinus, tCat, tEq, tLen, tInt. cbn [wt forallb map sort_of op_wt]. rewrite Wt, Wn, St, Sn. reflexivity. }
  intros I E HE Hp. apply one_holds. specialize (Hp _ (or_introl eq_refl)). apply (proj1 (one_holds _ _)) in Hp.
  assert (Vn : exists z, (0 <= z)%Z /\ eval n E = vint z).
  { destruct n as [[z|q|s|v w]| | |o [|b [|? ?]]| | | |]; try discriminate Hn; try (destruct o; discriminate Hn).
    - exists z. split; [apply Z.leb_le; exact Hn|reflexivity].
    - destruct o; try discriminate Hn. exists (slen E b). split; [unfold slen; lia|reflexivity]. }
  destruct Vn as [z [Z0 Vn]].
  assert (Hz : (z <= slen E t)%Z).
  { unfold holds in Hp. cbn [eval map eval_op chain truth] in Hp. rewrite Vn, andb_true_r in Hp. change (oleb (inj z : iF I) (inj (slen E t)) = true) in Hp.
    rewrite inj_leb in Hp. apply Z.leb_le in Hp. exact Hp. }
  unfold holds. rewrite (polyeq_good _ _ H Oc (conj Wd Hs) I E HE). fold (holds E (decomposed t n false)). unfold decomposed. rewrite holds_and. cbn [forallb].
  rewrite andb_true_r. unfold slen in *. apply andb_true_iff. split.
  - apply holds_eq_iff. rewrite eval_cat2, (str_val E t HE St), (sval_of _ _ _ (eval_prefix E t n z Vn)), (sval_of _ _ _ (eval_suffix_rem E t n z Vn)). f_equal.
    unfold slen. rewrite substr_rest, substr_prefix by lia. symmetry. apply firstn_skipn.
  - apply holds_eq_iff. rewrite Vn, eval_len. unfold slen. rewrite (sval_of _ _ _ (eval_prefix E t n z Vn)), substr_prefix by lia.
    rewrite firstn_length. f_equal. lia.
Qed.

(** ** Regular expressions *)
Section Lang.
  Context {I : interp}.
  Implicit Types E : env I.
  (** the language of a term *)
  Definition lang E (r : term) (s : list N) : bool := in_re_ (iop I) s (eval r E).
  Lemma holds_in_re E t r s : eval t E = VS s -> holds E (tInRe t r) = lang E r s.
  Proof. intros H. unfold holds, tInRe. cbn [eval map eval_op]. rewrite H. reflexivity. Qed.
  Lemma fold_concat vs : forall a b s,
    in_re_ (iop I) s (fold_left (fun a b => iop I OReConcat [a; b]) (b :: vs) a) = true <->
    exists u v, s = u ++ v /\ in_re_ (iop I) u a = true /\ in_re_ (iop I) v (fold_left (fun a b => iop I OReConcat [a; b]) vs b) = true.
  Proof.
    induction vs as [|c vs IH]; intros a b s.
    - cbn [fold_left]. apply (re_concat _ (ire I)).
    - change (fold_left ?f (b :: c :: vs) a) with (fold_left f (c :: vs) (f a b)). rewrite IH. split.
      + intros [u [v [-> [Hu Hv]]]]. apply (re_concat _ (ire I)) in Hu. destruct Hu as [u1 [u2 [-> [H1 H2]]]].
        exists u1, (u2 ++ v). split; [rewrite app_assoc; reflexivity|]. split; [exact H1|]. apply IH. eauto.
      + intros [u [v [-> [Hu Hv]]]]. apply IH in Hv. destruct Hv as [v1 [v2 [-> [H1 H2]]]].
        exists (u ++ v1), v2. split; [rewrite app_assoc; reflexivity|]. split; [|exact H2]. apply (re_concat _ (ire I)). eauto.
  Qed.
  Lemma lang_concat E a b l s : lang E (TOp OReConcat (a :: b :: l)) s = true <->
    exists u v, s = u ++ v /\ lang E a u = true /\ lang E (singleton_elim (b :: l)) v = true.
  Proof.
    unfold lang at 1. cbn [eval map eval_op fold1]. rewrite fold_concat. unfold lang. destruct l as [|c l]; reflexivity.
  Qed.
  Lemma lang_concat_last E l z s : l <> [] -> lang E (TOp OReConcat (l ++ [z])) s = true <->
    exists u v, s = u ++ v /\ lang E (singleton_elim l) u = true /\ lang E z v = true.
  Proof.
    intros Hl. destruct l as [|a [|b l]]; [congruence| |].
    - cbn [app]. rewrite lang_concat. reflexivity.
    - unfold lang at 1. cbn [app eval map eval_op fold1]. rewrite map_app. cbn [map]. rewrite app_comm_cons, fold_left_app. cbn [fold_left].
      rewrite (re_concat _ (ire I)). reflexivity.
  Qed.
  Lemma lang_star E r s : lang E (TOp OReStar [r]) s = true <-> exists ws, s = List.concat ws /\ Forall (fun w => lang E r w = true) ws.
  Proof. unfold lang at 1. cbn [eval map eval_op]. apply (re_star _ (ire I)). Qed.
  Lemma lang_inter E a b s : lang E (TOp OReInter [a; b]) s = lang E a s && lang E b s.
  Proof. unfold lang. cbn [eval map eval_op fold1 fold_left]. apply (re_inter _ (ire I)). Qed.
End Lang.

Lemma in_re_str t r : wt (tInRe t r) = true -> str_term t.
Proof.
  intros H. assert (Ht : wt t = true) by (eapply R_LA.wt_arg; [exact H|left; reflexivity]). split; [exact Ht|].
  apply R_AC.wt_op_args in H. destruct H as [_ H]. cbn [op_wt sorts_are map] in H. apply list_eqb_eq in H; [|apply sort_eqb_eq]. congruence.
Qed.
Theorem re_inter_sound : rule_sound_if r_re_inter len_ne_ok.
Proof.
  intros c ps args H Hok Hw Hwp. unfold r_re_inter in H.
  destruct ps as [|p [|p1 [|? ?]]]; try discriminate H. destruct c as [|g [|? ?]]; try discriminate H. shape H.
  ostepn H xr Hxr. ostepn H st Hst. destruct p as [|h [|? ?]]; try discriminate H. destruct p1 as [|h1 [|? ?]]; try discriminate H. shape H.
  ostepn H a Ha. ostepn H b Hb. ostepn H u P1. ostepn H u2 P2. ostepn H u3 T1. apply teq_ok in T1, H. apply assert_polyeq_ok in P1, P2. clear u u2 u3.
  apply m_op2_ok in Hxr, Hst, Ha, Hb. destruct xr as [x r], st as [s t], a as [xa ra], b as [xb rb]. cbn [fst snd] in *. subst.
  unfold len_ne_ok in Hok. apply andb_true_iff in Hok. destruct Hok as [Oc Op]. cbn [forallb] in Op, Hwp. rewrite !andb_true_r in Op, Hwp.
  apply andb_true_iff in Op, Hwp. destruct Op as [Oa Ob], Hwp as [Wa Wb]. rewrite !andb_true_r in Ob. apply good_clause in Oc; [|exact Hw].
  assert (Ga : good (tInRe xa ra)) by (split; [apply bool_term_wt, clause_wt_one, Wa|exact Oa]).
  assert (Gb : good (tInRe xb rb)) by (split; [apply bool_term_wt, clause_wt_one, Wb|exact Ob]).
  assert (Gx : good x) by (eapply good_op; [exact Oc|left; reflexivity]).
  assert (Gxa : good xa) by (eapply good_op; [exact Ga|left; reflexivity]). assert (Gxb : good xb) by (eapply good_op; [exact Gb|left; reflexivity]).
  pose proof (in_re_str _ _ (proj1 Oc)) as Sx.
  intros I E HE Hp. apply one_holds.
  pose proof (Hp _ (or_introl eq_refl)) as H0. apply (proj1 (one_holds _ _)) in H0. pose proof (Hp _ (or_intror (or_introl eq_refl))) as H1. apply (proj1 (one_holds _ _)) in H1.
  pose proof (str_val E x HE Sx) as Vx. fold (tInRe xa ra) in H0. fold (tInRe xb rb) in H1. fold (tInRe x (TOp OReInter [ra; rb])).
  rewrite (holds_in_re E _ _ _ Vx), lang_inter. rewrite (holds_in_re E xa ra (sval E x)) in H0 by (rewrite <- Vx; symmetry; apply (polyeq_good _ _ P1 Gx Gxa I E HE)).
  rewrite (holds_in_re E xb rb (sval E x)) in H1 by (rewrite <- Vx; symmetry; apply (polyeq_good _ _ P2 Gx Gxb I E HE)). rewrite H0, H1. reflexivity.
Qed.

(** ** Unfolding a negated membership *)
Definition unfold_neg_ok (c : clause) (ps : list clause) (args : list term) : bool :=
  match ps with
  | [[TOp _ [TOp _ [t; r]]]] => negb (free_in "L" SInt t) && negb (free_in "L" SInt r)
  | _ => false
  end.
Lemma re_arg1 o l : In o [OReStar; OReComp; ORePlus; OReOpt] -> wt (TOp o l) = true -> exists a, l = [a].
Proof.
  intros Ho H. apply R_AC.wt_op_args in H. destruct H as [_ H].
  assert (K : sorts_are [SRegLan] (map sort_of l) = true) by (destruct Ho as [<-|[<-|[<-|[<-|[]]]]]; exact H).
  apply list_eqb_eq in K; [|apply sort_eqb_eq]. destruct l as [|a [|? ?]]; try discriminate. eauto.
Qed.
Lemma re_args2 o l : In o [OReConcat; OReUnion; OReInter; OReDiff] -> wt (TOp o l) = true -> exists a b r, l = a :: b :: r.
Proof.
  intros Ho H. apply R_AC.wt_op_args in H. destruct H as [_ H].
  assert (K : min_len 2 (map sort_of l) && forallb (sort_eqb SRegLan) (map sort_of l) = true) by (destruct Ho as [<-|[<-|[<-|[<-|[]]]]]; exact H).
  apply andb_true_iff in K. destruct K as [K _]. destruct l as [|a [|b r]]; try discriminate. eauto.
Qed.
Lemma eval_upd_notfree {I} (E : env I) t x s v : free_in x s t = false -> eval t (upd E x s v) = eval t E.
Proof. intros H. apply (eval_upds_notfree t [(x, s)] [v] E). intros y s' [K|[]]. injection K as <- <-. exact H. Qed.
Lemma upd_same {I} (E : env I) x s v : upd E x s v x s = v.
Proof. unfold upd. rewrite String.eqb_refl, (proj2 (sort_eqb_eq _ _) eq_refl). reflexivity. Qed.
Lemma holds_le_int {I} (E : env I) a b x y : eval a E = vint x -> eval b E = vint y -> holds E (TOp OLe [a; b]) = Z.leb x y.
Proof. intros Ha Hb. unfold holds. cbn [eval map eval_op chain truth]. rewrite Ha, Hb, andb_true_r. cbn [num vint]. apply inj_leb. Qed.
Lemma holds_lt_int {I} (E : env I) a b x y : eval a E = vint x -> eval b E = vint y -> holds E (TOp OLt [a; b]) = Z.ltb x y.
Proof.
  intros Ha Hb. unfold holds. cbn [eval map eval_op chain truth]. rewrite Ha, Hb, andb_true_r. cbn [num vint]. unfold oltb. rewrite inj_leb.
  rewrite Z.ltb_antisym. reflexivity.
Qed.
Lemma neg_body_ok {I} (E : env I) (o : op) t r1 r2 : env_ok E -> str_term t -> o = OLe \/ o = OLt ->
  free_in "L" SInt t = false -> free_in "L" SInt r1 = false -> free_in "L" SInt r2 = false ->
  (forall u v, sval E t = u ++ v -> (o = OLe -> u <> []) -> lang E r1 u = true -> lang E r2 v = true -> False) ->
  holds E (neg_body o t r1 r2) = true.
Proof.
  intros HE St Ho Ft F1 F2 H. unfold neg_body. unfold holds. cbn [eval eval_bind truth]. cbn [eval_all]. apply iall_spec. intros v Hv.
  apply dom_int in Hv. destruct Hv as [z ->]. set (E' := upd E "L" SInt (vint z)).
  change (holds E' (TOp OOr [TOp o [neg_L; tInt 0]; TOp OLt [tLen t; neg_L]; tNot (tInRe (sk_prefix t neg_L) r1); tNot (tInRe (sk_suffix_rem t neg_L) r2)]) = true).
  assert (Vt : sval E' t = sval E t) by (unfold sval, E'; rewrite eval_upd_notfree by exact Ft; reflexivity).
  assert (VL : eval neg_L E' = vint z) by (unfold neg_L; cbn [eval]; apply upd_same).
  assert (L1 : forall s, lang E' r1 s = lang E r1 s) by (intros s; unfold lang, E'; rewrite eval_upd_notfree by exact F1; reflexivity).
  assert (L2 : forall s, lang E' r2 s = lang E r2 s) by (intros s; unfold lang, E'; rewrite eval_upd_notfree by exact F2; reflexivity).
  rewrite holds_or. cbn [existsb]. rewrite orb_false_r. unfold tNot. rewrite !holds_not'.
  rewrite (holds_in_re E' _ r1 _ (eval_prefix E' t neg_L z VL)), (holds_in_re E' _ r2 _ (eval_suffix_rem E' t neg_L z VL)), L1, L2. unfold slen. rewrite Vt.
  destruct (Z.ltb_spec z 0) as [N|P].
  { (* negative lengths are excluded in either form *)
    replace (holds E' (TOp o [neg_L; tInt 0])) with true; [reflexivity|]. symmetry.
    destruct Ho as [-> | ->]; [rewrite (holds_le_int E' _ _ z 0 VL (eval_int E' 0))|rewrite (holds_lt_int E' _ _ z 0 VL (eval_int E' 0))]; lia. }
  destruct (Z.ltb_spec (Z.of_nat (List.length (sval E t))) z) as [L|L].
  { rewrite (holds_lt_int E' _ _ _ z (eval_len E' t) VL). unfold slen. rewrite Vt. apply orb_true_iff. right. apply orb_true_iff. left. apply Z.ltb_lt. exact L. }
  destruct (holds E' (TOp o [neg_L; tInt 0])) eqn:K; [reflexivity|].
  rewrite substr_prefix, substr_rest by lia. cbn [orb]. apply orb_true_iff. right. rewrite <- negb_andb. apply negb_true_iff, not_true_iff_false. intros Hb.
  apply andb_true_iff in Hb. destruct Hb as [B1 B2]. apply (H (firstn (Z.to_nat z) (sval E t)) (skipn (Z.to_nat z) (sval E t))); auto.
  - symmetry. apply firstn_skipn.
  - intros -> Hn. apply (f_equal (@List.length N)) in Hn. rewrite firstn_length in Hn. cbn [List.length] in Hn.
    rewrite (holds_le_int E' _ _ z 0 VL (eval_int E' 0)) in K. lia.
Qed.
Lemma free_op_arg x s o l a : free_in x s (TOp o l) = false -> In a l -> free_in x s a = false.
Proof. cbn [free_in]. intros H Ha. destruct (free_in x s a) eqn:K; [|reflexivity]. rewrite <- H. symmetry. apply existsb_exists. eauto. Qed.
Theorem unfold_neg_sound : rule_sound_if r_unfold_neg unfold_neg_ok.
Proof.
  intros c ps args H Hok Hw Hwp. unfold r_unfold_neg in H.
  destruct ps as [|p [|? ?]]; try discriminate H. destruct c as [|g [|? ?]]; try discriminate H. shape H. destruct p as [|h [|? ?]]; try discriminate H. shape H.
  ostepn H e He. ostepn H tr Htr. apply rm_neg_ok in He. apply m_op2_ok in Htr. destruct tr as [t r]. cbn [fst snd] in *. subst.
  cbn [unfold_neg_ok] in Hok. apply andb_true_iff in Hok. destruct Hok as [Ft Fr]. apply negb_true_iff in Ft, Fr.
  cbn [forallb] in Hwp. rewrite andb_true_r in Hwp. apply clause_wt_one, bool_term_wt in Hwp.
  assert (Wi : wt (tInRe t r) = true) by (eapply R_LA.wt_arg; [exact Hwp|left; reflexivity]).
  pose proof (in_re_str _ _ Wi) as St. assert (Wr : wt r = true) by (eapply R_LA.wt_arg; [exact Wi|right; left; reflexivity]).
  intros I E HE Hp. apply one_holds. specialize (Hp _ (or_introl eq_refl)). apply (proj1 (one_holds _ _)) in Hp. unfold tNot in Hp. rewrite holds_not' in Hp.
  apply negb_true_iff in Hp. fold (tInRe t r) in Hp. rewrite (holds_in_re E _ _ _ (str_val E t HE St)) in Hp.
  destruct (as_op OReStar r) as [l|] eqn:Er.
  - apply as_op_some in Er. subst r. destruct (re_arg1 OReStar l) as [r1 ->]; [cbn; auto|exact Wr|]. apply teq_ok in H. subst g.
    rewrite holds_and. cbn [forallb]. rewrite andb_true_r. apply andb_true_iff. split.
    + unfold tNot. rewrite holds_not'. apply negb_true_iff. destruct (holds E (tEq t tEmpty)) eqn:K; [|reflexivity]. apply (proj1 (holds_eq_iff _ _ _)) in K.
      rewrite (str_val E t HE St) in K. assert (N0 : sval E t = []) by (cbn in K; congruence). rewrite N0 in Hp. assert (lang E (TOp OReStar [r1]) [] = true); [|congruence].
      apply lang_star. exists []. split; [reflexivity|constructor].
    + apply neg_body_ok; auto.
      * eapply free_op_arg; [exact Fr|left; reflexivity].
      * intros u v Huv Hn H1 H2. assert (lang E (TOp OReStar [r1]) (sval E t) = true); [|congruence]. apply lang_star in H2. destruct H2 as [ws [-> Hws]].
        apply lang_star. exists (u :: ws). split; [exact Huv|]. constructor; assumption.
  - ostepn H rs Hrs. apply m_ops_ok in Hrs. subst r. destruct (re_args2 OReConcat rs) as [r1 [r2 [l ->]]]; [cbn; auto|exact Wr|]. apply teq_ok in H. subst g.
    apply neg_body_ok; auto.
    + eapply free_op_arg; [exact Fr|left; reflexivity].
    + destruct l as [|r3 l]; cbn [singleton_elim].
      * eapply free_op_arg; [exact Fr|right; left; reflexivity].
      * cbn [free_in existsb] in Fr |- *. apply orb_false_iff in Fr. destruct Fr as [_ Fr]. exact Fr.
    + intros u v Huv _ H1 H2. assert (lang E (TOp OReConcat (r1 :: r2 :: l)) (sval E t) = true); [|congruence].
      apply lang_concat. exists u, v. auto.
Qed.

(** ** Fixed lengths *)
Lemma split_firstn (s : list N) n : (0 <= n)%Z -> s = substr s 0 n ++ substr s n (Z.of_nat (List.length s) - n).
Proof. intros H. rewrite substr_prefix, substr_rest by lia. symmetry. apply firstn_skipn. Qed.
Theorem neg_fixed_prefix_sound : rule_sound r_neg_fixed_prefix.
Proof.
  intros c ps args H Hw Hwp. unfold r_neg_fixed_prefix in H.
  destruct ps as [|p [|? ?]]; try discriminate H. destruct c as [|g [|? ?]]; try discriminate H. shape H. ostepn H u Hu. clear u Hu.
  destruct p as [|h [|? ?]]; try discriminate H. shape H.
  ostepn H e He. ostepn H tr Htr. apply rm_neg_ok in He. apply m_op2_ok in Htr. destruct tr as [t r]. cbn [fst snd] in *. subst.
  ostepn H rs Hrs. apply m_ops_ok in Hrs. subst r.
  cbn [forallb] in Hwp. rewrite andb_true_r in Hwp. apply clause_wt_one, bool_term_wt in Hwp.
  assert (Wi : wt (tInRe t (TOp OReConcat rs)) = true) by (eapply R_LA.wt_arg; [exact Hwp|left; reflexivity]).
  pose proof (in_re_str _ _ Wi) as St. assert (Wr : wt (TOp OReConcat rs) = true) by (eapply R_LA.wt_arg; [exact Wi|right; left; reflexivity]).
  destruct (re_args2 OReConcat rs) as [r1 [r2 [l ->]]]; [cbn; auto|exact Wr|]. ostepn H n Hn. apply teq_ok in H. subst g.
  intros I E HE Hp. apply one_holds. specialize (Hp _ (or_introl eq_refl)). apply (proj1 (one_holds _ _)) in Hp. unfold tNot in Hp. rewrite holds_not' in Hp.
  apply negb_true_iff in Hp. fold (tInRe t (TOp OReConcat (r1 :: r2 :: l))) in Hp. rewrite (holds_in_re E _ _ _ (str_val E t HE St)) in Hp.
  rewrite holds_or. cbn [existsb]. rewrite orb_false_r. unfold tNot. rewrite !holds_not', <- negb_andb. apply negb_true_iff, not_true_iff_false. intros K.
  apply andb_true_iff in K. destruct K as [K1 K2].
  rewrite (holds_in_re E _ _ _ (eval_prefix E t _ _ (eval_int E _))) in K1. rewrite (holds_in_re E _ _ _ (eval_suffix_rem E t _ _ (eval_int E _))) in K2.
  assert (lang E (TOp OReConcat (r1 :: r2 :: l)) (sval E t) = true); [|congruence].
  apply lang_concat. eexists _, _. split; [|split; [exact K1|exact K2]]. apply split_firstn. lia.
Qed.

Lemma sum_lens l : forall n m, fold_left (fun acc x => do n <- acc ; do k <- x ; ROk (n + k)) l (ROk n) = ROk m -> n < m -> exists k, In (ROk k) l /\ 0 < k.
Proof.
  induction l as [|x l IH]; intros n m H L; [cbn in H; injection H as ->; lia|]. cbn [fold_left obind] in H.
  destruct x as [k| |]; cbn [obind] in H.
  - destruct k as [|k]; [|exists (S k); split; [left; reflexivity|lia]]. rewrite Nat.add_0_r in H. destruct (IH _ _ H L) as [k [Hk Hk0]]. exists k. split; [right; exact Hk|exact Hk0].
  - exfalso. clear -H. induction l as [|y l IH]; cbn in H; [discriminate|auto].
  - exfalso. clear -H. induction l as [|y l IH]; cbn in H; [discriminate|auto].
Qed.
Lemma same_lens l n : same_len l = ROk n -> l <> [] /\ forall x, In x l -> x = ROk n.
Proof.
  destruct l as [|a r]; [discriminate|]. cbn [same_len]. intros H. split; [discriminate|]. destruct a as [k| |]; cbn [obind] in H; try discriminate H.
  assert (K : k = n /\ forall x, In x r -> x = ROk k).
  { assert (G : forall r m, fold_left (fun acc x => do m <- acc ; do k' <- x ; if Nat.eqb k' k then ROk m else RErr) r (ROk m) = ROk n -> m = n /\ forall x, In x r -> x = ROk k).
    { clear. induction r as [|x r IH]; intros m H; [cbn in H; injection H as ->; split; [reflexivity|intros ? []]|]. cbn [fold_left obind] in H.
      destruct x as [k'| |]; cbn [obind] in H.
      - destruct (Nat.eqb_spec k' k) as [->|].
        + destruct (IH _ H) as [-> Hr]. split; [reflexivity|]. intros x [<-|Hx]; auto.
        + exfalso. clear -H. induction r as [|y l IH]; cbn in H; [discriminate|auto].
      - exfalso. clear -H. induction r as [|y l IH]; cbn in H; [discriminate|auto].
      - exfalso. clear -H. induction r as [|y l IH]; cbn in H; [discriminate|auto]. }
    apply G. exact H. }
  destruct K as [-> K]. intros x [<-|Hx]; auto.
Qed.
Section Fixed.
  Context {I : interp}.
  Implicit Types E : env I.
  Lemma concat_empty E l : l <> [] -> lang E (singleton_elim l) [] = true -> forall a, In a l -> lang E a [] = true.
  Proof.
    induction l as [|a l IH]; [congruence|]. intros _ H. destruct l as [|b l].
    - cbn [singleton_elim] in H. intros x [<-|[]]. exact H.
    - cbn [singleton_elim] in H. apply lang_concat in H. destruct H as [u [v [Huv [Hu Hv]]]]. symmetry in Huv. apply app_eq_nil in Huv. destruct Huv as [-> ->].
      intros x [<-|Hx]; [exact Hu|]. apply IH; [congruence|exact Hv|exact Hx].
  Qed.
  Lemma union_lang E a l s : forall x, in_re_ (iop I) s (fold_left (fun a b => iop I OReUnion [a; b]) (map (fun t => eval t E) l) x) = true ->
    x = eval a E -> exists b, In b (a :: l) /\ lang E b s = true.
  Proof.
    intros x H ->. revert H. assert (G : forall v, in_re_ (iop I) s (fold_left (fun a b => iop I OReUnion [a; b]) (map (fun t => eval t E) l) v) = true ->
      in_re_ (iop I) s v = true \/ exists b, In b l /\ lang E b s = true).
    { induction l as [|b l IH]; intros v H; [left; exact H|]. cbn [map fold_left] in H. apply IH in H. destruct H as [H|[c [Hc H]]].
      - rewrite (re_union _ (ire I)) in H. apply orb_true_iff in H. destruct H as [H|H]; [auto|]. right. exists b. split; [left; reflexivity|exact H].
      - right. exists c. split; [right; exact Hc|exact H]. }
    intros H. apply G in H. destruct H as [H|[b [Hb H]]]; [exists a|exists b]; cbn; auto.
  Qed.
  Lemma inter_lang E a l s : in_re_ (iop I) s (fold_left (fun a b => iop I OReInter [a; b]) (map (fun t => eval t E) l) (eval a E)) = true ->
    forall b, In b (a :: l) -> lang E b s = true.
  Proof.
    assert (G : forall v, in_re_ (iop I) s (fold_left (fun a b => iop I OReInter [a; b]) (map (fun t => eval t E) l) v) = true ->
      in_re_ (iop I) s v = true /\ forall b, In b l -> lang E b s = true).
    { induction l as [|b l IH]; intros v H; [split; [exact H|intros ? []]|]. cbn [map fold_left] in H. apply IH in H. destruct H as [H H'].
      rewrite (re_inter _ (ire I)) in H. apply andb_true_iff in H. destruct H as [H1 H2]. split; [exact H1|]. intros c [<-|Hc]; auto. }
    intros H b Hb. apply G in H. destruct H as [H1 H2]. destruct Hb as [<-|Hb]; auto.
  Qed.
  (** an expression with a positive fixed length does not contain the empty string *)
  Lemma fixed_nonempty E r : forall n, fixed_len r = ROk n -> 0 < n -> wt r = true -> env_ok E -> lang E r [] = false.
  Proof.
    induction r using term_ind'; intros n Hn L W HE; cbn [fixed_len] in Hn; try discriminate Hn.
    apply not_true_iff_false. intros K. rewrite Forall_forall in H.
    assert (Wa : forall a, In a args -> wt a = true) by (intros a Ha; eapply R_LA.wt_arg; eauto).
    destruct (op_eqb o OReConcat) eqn:O1; [apply op_eqb_eq in O1; subst o|].
    { destruct (re_args2 OReConcat args) as [a [b [l ->]]]; [cbn; auto|exact W|]. apply sum_lens in Hn; [|exact L]. destruct Hn as [k [Hk Hk0]].
      apply in_map_iff in Hk. destruct Hk as [c [Hc Hin]]. pose proof (concat_empty E (a :: b :: l)) as Ce. cbn [singleton_elim] in Ce.
      specialize (Ce ltac:(discriminate) K c Hin). rewrite (H c Hin k Hc Hk0 (Wa c Hin) HE) in Ce. discriminate. }
    destruct (op_eqb o OReAllChar) eqn:O2; [apply op_eqb_eq in O2; subst o|].
    { apply R_AC.wt_op_args in W. destruct W as [_ W]. cbn [op_wt] in W. apply list_eqb_eq in W; [|apply sort_eqb_eq]. destruct args; [|discriminate W].
      unfold lang in K. cbn [eval map eval_op] in K. apply (re_allchar _ (ire I)) in K. discriminate K. }
    destruct (op_eqb o OReRange) eqn:O3; [apply op_eqb_eq in O3; subst o|].
    { apply R_AC.wt_op_args in W. destruct W as [_ W]. cbn [op_wt] in W. apply list_eqb_eq in W; [|apply sort_eqb_eq].
      destruct args as [|a [|b [|? ?]]]; try discriminate W. cbn [map] in W. injection W as Sa Sb. unfold lang in K. cbn [eval map eval_op] in K.
      rewrite (str_val E a HE (conj (Wa a (or_introl eq_refl)) Sa)), (str_val E b HE (conj (Wa b (or_intror (or_introl eq_refl))) Sb)) in K.
      apply (re_range _ (ire I)) in K. destruct K as [x [y [z [_ [_ [Hz _]]]]]]. discriminate Hz. }
    destruct (op_eqb o OStrToRe) eqn:O4; [apply op_eqb_eq in O4; subst o|].
    { apply R_AC.wt_op_args in W. destruct W as [_ W]. cbn [op_wt] in W. apply list_eqb_eq in W; [|apply sort_eqb_eq].
      destruct args as [|a [|? ?]]; try discriminate W. destruct a as [[z|q|w|v w]| | | | | | |]; try discriminate Hn. injection Hn as <-.
      unfold lang in K. cbn [eval map eval_op eval_const] in K. apply (re_to_re _ (ire I)) in K. subst w. cbn in L. lia. }
    destruct (op_eqb o OReUnion) eqn:O5; [apply op_eqb_eq in O5; subst o|].
    { destruct (re_args2 OReUnion args) as [a [b [l ->]]]; [cbn; auto|exact W|]. apply same_lens in Hn. destruct Hn as [_ Hn].
      unfold lang in K. cbn [eval map eval_op fold1] in K. change (eval b E :: map (fun t => eval t E) l) with (map (fun t => eval t E) (b :: l)) in K.
      apply (union_lang E a) in K; [|reflexivity]. destruct K as [c [Hc K]].
      destruct (op_is OReNone c) eqn:Oc.
      - destruct c as [| | |oc lc| | | |]; try discriminate Oc. cbn [op_is] in Oc. apply op_eqb_eq in Oc. subst oc. pose proof (Wa _ Hc) as Wc.
        apply R_AC.wt_op_args in Wc. destruct Wc as [_ Wc]. cbn [op_wt] in Wc. apply list_eqb_eq in Wc; [|apply sort_eqb_eq]. destruct lc; [|discriminate Wc].
        unfold lang in K. cbn [eval map eval_op] in K. rewrite (re_none _ (ire I)) in K. discriminate.
      - assert (Fc : fixed_len c = ROk n). { apply Hn. apply in_flat_map. exists c. split; [exact Hc|]. rewrite Oc. left. reflexivity. }
        rewrite (H c Hc n Fc L (Wa c Hc) HE) in K. discriminate. }
    destruct (op_eqb o OReInter) eqn:O6; [apply op_eqb_eq in O6; subst o|discriminate Hn].
    destruct (re_args2 OReInter args) as [a [b [l ->]]]; [cbn; auto|exact W|]. apply same_lens in Hn. destruct Hn as [Hne Hn].
    unfold lang in K. cbn [eval map eval_op fold1] in K. change (eval b E :: map (fun t => eval t E) l) with (map (fun t => eval t E) (b :: l)) in K.
    pose proof (inter_lang E a _ _ K) as Ki.
    set (al := flat_map (fun a => if op_is OReAll a then [] else [fixed_len a]) (a :: b :: l)) in *. destruct al as [|x al'] eqn:Eal; [congruence|].
    assert (Hx : In x al) by (rewrite Eal; left; reflexivity). unfold al in Hx. apply in_flat_map in Hx. destruct Hx as [c [Hc Hx]].
    destruct (op_is OReAll c); [destruct Hx|]. destruct Hx as [Hx|[]]. rewrite (Hn x (or_introl eq_refl)) in Hx.
    pose proof (Ki c Hc) as Kc. rewrite (H c Hc n Hx L (Wa c Hc) HE) in Kc. discriminate.
  Qed.
End Fixed.
Theorem neg_fixed_suffix_sound : rule_sound r_neg_fixed_suffix.
Proof.
  intros c ps args H Hw Hwp. unfold r_neg_fixed_suffix in H.
  destruct ps as [|p [|? ?]]; try discriminate H. destruct c as [|g [|? ?]]; try discriminate H. shape H. ostepn H u Hu. clear u Hu.
  destruct p as [|h [|? ?]]; try discriminate H. shape H.
  ostepn H e He. ostepn H tr Htr. apply rm_neg_ok in He. apply m_op2_ok in Htr. destruct tr as [t r]. cbn [fst snd] in *. subst.
  ostepn H rs Hrs. apply m_ops_ok in Hrs. subst r.
  cbn [forallb] in Hwp. rewrite andb_true_r in Hwp. apply clause_wt_one, bool_term_wt in Hwp.
  assert (Wi : wt (tInRe t (TOp OReConcat rs)) = true) by (eapply R_LA.wt_arg; [exact Hwp|left; reflexivity]).
  pose proof (in_re_str _ _ Wi) as St. assert (Wr : wt (TOp OReConcat rs) = true) by (eapply R_LA.wt_arg; [exact Wi|right; left; reflexivity]).
  destruct (re_args2 OReConcat rs) as [a [b [l Hrs]]]; [cbn; auto|exact Wr|].
  destruct (rev rs) as [|r1 r2] eqn:Er; [discriminate H|].
  assert (Hrs' : rs = rev r2 ++ [r1]) by (rewrite <- (rev_involutive rs), Er; reflexivity).
  assert (Hne : rev r2 <> []). { intros Kn. rewrite Kn in Hrs'. rewrite Hrs in Hrs'. discriminate Hrs'. }
  ostepn H n Hn. apply teq_ok in H. subst g. clear Hrs Er. subst rs.
  assert (W1 : wt r1 = true) by (eapply R_LA.wt_arg; [exact Wr|apply in_or_app; right; left; reflexivity]).
  intros I E HE Hp. apply one_holds. specialize (Hp _ (or_introl eq_refl)). apply (proj1 (one_holds _ _)) in Hp. unfold tNot in Hp. rewrite holds_not' in Hp.
  apply negb_true_iff in Hp. fold (tInRe t (TOp OReConcat (rev r2 ++ [r1]))) in Hp. rewrite (holds_in_re E _ _ _ (str_val E t HE St)) in Hp.
  rewrite holds_or. cbn [existsb]. rewrite orb_false_r. unfold tNot. rewrite !holds_not', <- negb_andb. apply negb_true_iff, not_true_iff_false. intros K.
  apply andb_true_iff in K. destruct K as [K1 K2].
  rewrite (holds_in_re E _ _ _ (eval_suffix E t _ _ (eval_int E _))) in K1.
  rewrite (holds_in_re E _ _ _ (eval_prefix E t _ _ (eval_minus E _ _ _ _ (eval_len E t) (eval_int E _)))) in K2. unfold slen in *.
  destruct (Nat.le_gt_cases n (List.length (sval E t))) as [Ln|Ln].
  - assert (lang E (TOp OReConcat (rev r2 ++ [r1])) (sval E t) = true); [|congruence].
    apply lang_concat_last; [exact Hne|]. eexists _, _. split; [|split; [exact K2|exact K1]].
    rewrite substr_suffix, Nat2Z.id by lia. rewrite substr_prefix by lia.
    replace (Z.to_nat _) with (List.length (sval E t) - n) by lia. symmetry. apply firstn_skipn.
  - rewrite substr_neg in K1 by lia. rewrite (fixed_nonempty E r1 n Hn) in K1; [discriminate|lia|exact W1|exact HE].
Qed.

(** ** Positive unfolding of a concatenation of constants *)
Definition all_to_re (c : clause) (ps : list clause) (args : list term) : bool :=
  match ps with
  | [[TOp _ [_; TOp _ rs]]] => forallb (fun r => match as_op OStrToRe r with Some _ => true | None => false end) rs
  | _ => false
  end.
Lemma extract_val {I} (E : env I) t : sv E (extract t) = sval E t.
Proof.
  induction t using term_ind'; cbn [extract]; try (rewrite sv_cons, sv_nil, app_nil_r; reflexivity).
  - destruct c as [z|q|s|v w]; try (rewrite sv_cons, sv_nil, app_nil_r; reflexivity). destruct s; [reflexivity|]. rewrite sv_cons, sv_nil, app_nil_r. reflexivity.
  - destruct (op_eqb o OStrConcat) eqn:Ho; [|rewrite sv_cons, sv_nil, app_nil_r; reflexivity]. apply op_eqb_eq in Ho. subst o. rewrite sval_cat.
    induction H as [|a l Ha Hl IH]; cbn [flat_map]; [reflexivity|]. rewrite sv_app, sv_cons, IH, Ha. reflexivity.
Qed.
Lemma to_re_arg r l : as_op OStrToRe r = Some l -> wt r = true -> exists s, r = TOp OStrToRe [s] /\ l = [s] /\ str_term s.
Proof.
  intros H W. apply as_op_some in H. subst r. pose proof (R_AC.wt_op_args _ _ W) as [Wa Ws]. cbn [op_wt] in Ws. apply list_eqb_eq in Ws; [|apply sort_eqb_eq].
  destruct l as [|s [|? ?]]; try discriminate Ws. exists s. split; [reflexivity|]. split; [reflexivity|]. cbn [forallb] in Wa. rewrite andb_true_r in Wa. split; [exact Wa|].
  cbn [map] in Ws. congruence.
Qed.
Lemma unfold_consts {I} (E : env I) t rs : forall n k m ks, env_ok E -> (forall r, In r rs -> wt r = true) ->
  forallb (fun r => match as_op OStrToRe r with Some _ => true | None => false end) rs = true -> unfold_pos t rs n = ROk (k, m, ks) ->
  m = tTrue /\ (rs <> [] -> forall s, lang E (singleton_elim rs) s = true -> s = sval E k).
Proof.
  induction rs as [|r rs IH]; intros n k m ks HE W Hc H; cbn [unfold_pos] in H; [injection H as <- <- <-; split; [reflexivity|congruence]|].
  ostepn H x Hx. destruct x as [[c m'] [pk pr]]. cbn [forallb] in Hc. apply andb_true_iff in Hc. destruct Hc as [Hr Hc].
  destruct (as_op OStrToRe r) as [l|] eqn:Er; [|discriminate Hr]. destruct (to_re_arg _ _ Er (W r (or_introl eq_refl))) as [w [-> [-> Sw]]].
  injection H as <- <- <-. destruct (IH _ _ _ _ HE (fun r' Hr' => W r' (or_intror Hr')) Hc Hx) as [-> IH'].
  split; [reflexivity|]. intros _ s Hs.
  assert (Lw : forall u, lang E (TOp OStrToRe [w]) u = true -> u = sval E w).
  { intros u Hu. unfold lang in Hu. cbn [eval map eval_op] in Hu. rewrite (str_val E w HE Sw) in Hu. apply (re_to_re _ (ire I)) in Hu. exact Hu. }
  rewrite (sval_of _ _ _ (eval_cat2 E w c)). destruct rs as [|r2 rs].
  - cbn [singleton_elim] in Hs. cbn [unfold_pos] in Hx. injection Hx as <- _ _. rewrite (Lw _ Hs). change (sval E tEmpty) with (@nil N). rewrite app_nil_r. reflexivity.
  - cbn [singleton_elim] in Hs. apply lang_concat in Hs. destruct Hs as [u [v [-> [Hu Hv]]]]. rewrite (Lw _ Hu). f_equal. apply IH'; [discriminate|exact Hv].
Qed.
Theorem re_concat_pos_consts_sound : rule_sound_if r_re_concat_pos all_to_re.
Proof.
  intros c ps args H Hok Hw Hwp. unfold r_re_concat_pos in H.
  destruct ps as [|p [|? ?]]; try discriminate H. destruct c as [|g [|? ?]]; try discriminate H. shape H. destruct p as [|h [|? ?]]; try discriminate H. shape H.
  ostepn H tr Htr. ostepn H u Hu. clear u Hu. ostepn H rs Hrs. apply m_op2_ok in Htr. apply m_ops_ok in Hrs. destruct tr as [t r]. cbn [fst snd] in *. subst.
  ostepn H x Hx. destruct x as [[k m] ks]. cbn [fst snd] in *. cbn [all_to_re] in Hok.
  cbn [forallb] in Hwp. rewrite andb_true_r in Hwp. apply clause_wt_one, bool_term_wt in Hwp.
  pose proof (in_re_str _ _ Hwp) as St. assert (Wr : wt (TOp OReConcat rs) = true) by (eapply R_LA.wt_arg; [exact Hwp|right; left; reflexivity]).
  intros I E HE Hp. apply one_holds. specialize (Hp _ (or_introl eq_refl)). apply (proj1 (one_holds _ _)) in Hp. fold (tInRe t (TOp OReConcat rs)) in Hp.
  rewrite (holds_in_re E _ _ _ (str_val E t HE St)) in Hp.
  destruct (unfold_consts E _ _ _ _ _ _ HE (fun r Hr => R_LA.wt_arg _ _ _ Wr Hr) Hok Hx) as [-> K]. cbn [is_true_op tTrue op_eqb] in H.
  destruct (re_args2 OReConcat rs) as [a [b [l ->]]]; [cbn; auto|exact Wr|]. specialize (K ltac:(discriminate) _ Hp).
  change (is_true_op tTrue) with true in H. cbn iota in H. apply teq_ok in H. subst g. apply holds_eq_iff. rewrite (str_val E t HE St), K.
  rewrite <- (extract_val E k), <- sval_cat. reflexivity.
Qed.

(** the string rules with the conditions under which they are sound; none is known for the unfolding of a star *)
Definition str_partial : list (string * (rule * (clause -> list clause -> list term -> bool))) :=
  [("concat_eq", (r_concat_eq, str_ok)); ("concat_unify", (r_concat_unify, str_ok)); ("concat_conflict", (r_concat_conflict, str_ok));
   ("concat_csplit_prefix", (r_csplit_prefix, str_ok)); ("concat_csplit_suffix", (r_csplit_suffix, str_ok));
   ("concat_split_prefix", (r_split false, str_ok)); ("concat_split_suffix", (r_split true, str_ok));
   ("concat_lprop_prefix", (r_lprop false, str_ok)); ("concat_lprop_suffix", (r_lprop true, str_ok));
   ("concat_cprop_prefix", (r_cprop_prefix, cprop_ok false)); ("concat_cprop_suffix", (r_cprop_suffix, cprop_ok true));
   ("string_decompose", (r_decompose, decompose_ok)); ("string_length_pos", (r_length_pos, len_pos_ok));
   ("string_length_non_empty", (r_length_non_empty, len_ne_ok)); ("re_inter", (r_re_inter, len_ne_ok));
   ("re_kleene_star_unfold_pos", (r_kleene_pos, fun _ _ _ => false)); ("re_concat_unfold_pos", (r_re_concat_pos, all_to_re));
   ("re_unfold_neg", (r_unfold_neg, unfold_neg_ok))]%string.
Lemma str_partial_sound name r ok : In (name, (r, ok)) str_partial -> rule_sound_if r ok.
Proof.
  unfold str_partial. cbn [In]. intros H. repeat match type of H with _ \/ _ => destruct H as [H|H] end; [..|destruct H]; injection H as _ <- <-.
  - apply concat_eq_sound.
  - apply concat_unify_sound.
  - apply concat_conflict_sound.
  - apply csplit_prefix_sound.
  - apply csplit_suffix_sound.
  - apply split_sound.
  - apply split_sound.
  - apply lprop_sound.
  - apply lprop_sound.
  - apply cprop_prefix_sound.
  - apply cprop_suffix_sound.
  - apply decompose_sound.
  - apply length_pos_sound.
  - apply length_non_empty_sound.
  - apply re_inter_sound.
  - intros c ps args _ H. discriminate H.
  - apply re_concat_pos_consts_sound.
  - apply unfold_neg_sound.
Qed.
