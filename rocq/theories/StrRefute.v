(** The string rules that accept invalid steps or panic. *)
From Coq Require Import List String ZArith NArith QArith Bool Arith Lia.
From Verif Require Import Term Field Sem Sorting Base Rules Refute Num Polyeq R_CP CPSound SubstSound BinderSound QuantSound R_Str StrSound StrSound2.
Import ListNotations.
Local Open Scope string_scope.
Local Open Scope list_scope.

Definition sx : term := TVar "x" SString.
Definition sy : term := TVar "y" SString.
Definition sz : term := TVar "z" SString.
Definition ca : N := 97%N. Definition cb : N := 98%N. Definition cc : N := 99%N.
Lemma env_with3 {I} a b c : exists E : env I, env_ok E /\ E "x" SString = VS a /\ E "y" SString = VS b /\ E "z" SString = VS c.
Proof.
  destruct (env_exists (I := I)) as [E HE]. exists (upd (upd (upd E "x" SString (VS a)) "y" SString (VS b)) "z" SString (VS c)).
  split; [repeat apply env_ok_upd; auto; apply dom_string; eauto|]. auto.
Qed.
Lemma vint_inj {I} a b : (vint a : value I) = vint b -> a = b.
Proof. unfold vint. intros H. assert (K : (inj a : iF I) = inj b) by congruence. apply inj_inj in K. exact K. Qed.
Lemma not_holds {I} (E : env I) g : holds E g <> true -> ~ clause_holds E [g].
Proof. intros H K. apply H. apply (proj1 (one_holds _ _)). exact K. Qed.

(** concat_cprop_prefix ignores that the middle part need not be a constant:
    from x ++ y ++ z = "abc" and x <> "" it concludes that x starts with "ab" *)
Definition cpp_t : term := TOp OStrConcat [sx; sy; sz].
Definition cpp_oc : term := sk_prefix (tStr [ca; cb; cc]) (tInt 2).
Definition cpp_g : term := tEq sx (tCat cpp_oc (sk_suffix_rem sx (tLen cpp_oc))).
Theorem cprop_prefix_refuted : rule_refuted r_cprop_prefix.
Proof.
  exists [cpp_g], [[tEq cpp_t (tStr [ca; cb; cc])]; [tNot (tEq (tLen sx) (tInt 0))]], [].
  repeat match goal with |- _ /\ _ => split end; [vm_compute; reflexivity|vm_compute; reflexivity|vm_compute; reflexivity|].
  intros I. destruct (env_with3 (I := I) [ca] [cb; cc] []) as [E [HE [Hx [Hy Hz]]]]. exists E. split; [exact HE|]. split.
  - intros p [<-|[<-|[]]]; apply one_holds.
    + apply holds_eq_iff. unfold cpp_t, sx, sy, sz. cbn [eval map eval_op]. rewrite Hx, Hy, Hz. reflexivity.
    + unfold tNot. rewrite holds_not'. apply negb_true_iff, not_true_iff_false. intros K. apply holds_len0 in K; [|reflexivity].
      unfold sval, sx in K. cbn [eval] in K. rewrite Hx in K. discriminate K.
  - apply not_holds. intros K. apply (proj1 (holds_eq_iff _ _ _)) in K. rewrite eval_cat2 in K.
    unfold cpp_oc at 1 in K. rewrite (sval_of _ _ _ (eval_prefix E (tStr [ca; cb; cc]) (tInt 2) 2 eq_refl)) in K.
    assert (Vx : eval sx E = VS [ca]) by exact Hx. rewrite Vx in K. injection K as K. discriminate K.
Qed.
(** concat_cprop_suffix takes the second part of the right-hand side for the last one: from x ++ "" ++ z = "a" ++ "b" ++ "c" and z <> "" it
    concludes that z ends with "b" *)
Definition cps_t : term := TOp OStrConcat [sx; tEmpty; sz].
Definition cps_oc : term := sk_suffix (tStr [cb]) (tInt 1).
Definition cps_g : term := tEq sz (tCat (sk_prefix sz (tMinus (tLen sz) (tLen cps_oc))) cps_oc).
Theorem cprop_suffix_refuted : rule_refuted r_cprop_suffix.
Proof.
  exists [cps_g], [[tEq cps_t (TOp OStrConcat [tStr [ca]; tStr [cb]; tStr [cc]])]; [tNot (tEq (tLen sz) (tInt 0))]], [].
  repeat match goal with |- _ /\ _ => split end; [vm_compute; reflexivity|vm_compute; reflexivity|vm_compute; reflexivity|].
  intros I. destruct (env_with3 (I := I) [ca; cb] [] [cc]) as [E [HE [Hx [Hy Hz]]]]. exists E. split; [exact HE|]. split.
  - intros p [<-|[<-|[]]]; apply one_holds.
    + apply holds_eq_iff. unfold cps_t, sx, sy, sz. cbn [eval map eval_op]. rewrite Hx, Hz. reflexivity.
    + unfold tNot. rewrite holds_not'. apply negb_true_iff, not_true_iff_false. intros K. apply holds_len0 in K; [|reflexivity].
      unfold sval, sz in K. cbn [eval] in K. rewrite Hz in K. discriminate K.
  - apply not_holds. intros K. apply (proj1 (holds_eq_iff _ _ _)) in K. rewrite eval_cat2 in K.
    assert (V : sval E cps_oc = [cb]).
    { unfold cps_oc. rewrite (sval_of _ _ _ (eval_suffix E (tStr [cb]) (tInt 1) 1 eq_refl)). reflexivity. }
    assert (Vz : eval sz E = VS [cc]) by exact Hz. rewrite Vz, V in K. injection K as K.
    change [cc] with ([] ++ [cc]) in K. apply app_inj_tail in K. destruct K as [_ K]. discriminate K.
Qed.
(** string_decompose with the argument true states the length of the wrong part, *)
Definition two_ge (n : Z) : term := TOp OGe [tLen sx; tInt n].
Theorem decompose_rev_refuted : exists c ps, r_decompose c ps [tTrue] = ROk tt /\ clause_wt c = true /\ forallb clause_wt ps = true /\
  forall I : interp, exists E : env I, env_ok E /\ (forall p, In p ps -> clause_holds E p) /\ ~ clause_holds E c.
Proof.
  exists [decomposed sx (tInt 1) true], [[two_ge 1]].
  repeat match goal with |- _ /\ _ => split end; [vm_compute; reflexivity|vm_compute; reflexivity|vm_compute; reflexivity|].
  intros I. destruct (env_with3 (I := I) [ca] [] []) as [E [HE [Hx _]]]. exists E. split; [exact HE|].
  assert (Vx : sval E sx = [ca]) by (unfold sval, sx; cbn [eval]; rewrite Hx; reflexivity). split.
  - intros p [<-|[]]; apply one_holds. unfold two_ge, holds. cbn [eval map eval_op chain truth]. rewrite andb_true_r.
    change (oleb (inj 1 : iF I) (inj (slen E sx)) = true). rewrite inj_leb. unfold slen. rewrite Vx. reflexivity.
  - apply not_holds. intros K. unfold decomposed in K. rewrite holds_and in K. cbn [forallb] in K. apply andb_true_iff in K. destruct K as [_ K].
    rewrite andb_true_r in K. apply (proj1 (holds_eq_iff _ _ _)) in K. rewrite eval_len in K. unfold slen in K.
    rewrite (sval_of _ _ _ (eval_suffix_rem E sx (tInt 1) 1 eq_refl)) in K. unfold slen in K. rewrite Vx in K. change (eval (tInt 1) E) with (vint 1 : value I) in K.
    apply vint_inj in K. discriminate K.
Qed.
(** and with a negative length it takes nothing from the string. *)
Theorem decompose_neg_refuted : exists c ps, r_decompose c ps [tFalse] = ROk tt /\ clause_wt c = true /\ forallb clause_wt ps = true /\
  forall I : interp, exists E : env I, env_ok E /\ (forall p, In p ps -> clause_holds E p) /\ ~ clause_holds E c.
Proof.
  exists [decomposed sx (tInt (-1)) false], [[two_ge (-1)]].
  repeat match goal with |- _ /\ _ => split end; [vm_compute; reflexivity|vm_compute; reflexivity|vm_compute; reflexivity|].
  intros I. destruct (env_with3 (I := I) [ca] [] []) as [E [HE [Hx _]]]. exists E. split; [exact HE|].
  assert (Vx : sval E sx = [ca]) by (unfold sval, sx; cbn [eval]; rewrite Hx; reflexivity). split.
  - intros p [<-|[]]; apply one_holds. unfold two_ge, holds. cbn [eval map eval_op chain truth]. rewrite andb_true_r.
    change (oleb (inj (-1) : iF I) (inj (slen E sx)) = true). rewrite inj_leb. unfold slen. rewrite Vx. reflexivity.
  - apply not_holds. intros K. unfold decomposed in K. rewrite holds_and in K. cbn [forallb] in K. apply andb_true_iff in K. destruct K as [K _].
    apply (proj1 (holds_eq_iff _ _ _)) in K. rewrite eval_cat2 in K.
    rewrite (sval_of _ _ _ (eval_suffix_rem E sx (tInt (-1)) (-1) eq_refl)), (sval_of _ _ _ (eval_prefix E sx (tInt (-1)) (-1) eq_refl)) in K.
    unfold slen in K. rewrite Vx in K. assert (Vx' : eval sx E = VS [ca]) by exact Hx. rewrite Vx' in K. discriminate K.
Qed.

(** The positive unfolding of a regular expression puts each component into the language of the whole rest, not of its own part: from
    "ab" in (re.++ re.allchar re.allchar) it concludes "ab" = k_0 ++ k_1 with k_0 in (re.++ re.allchar re.allchar) and k_1 in re.allchar. *)
Definition rA : term := TOp OReAllChar [].
Definition sab : term := tStr [ca; cb].
Definition k1_ : term := unfold_comp sab 1 [] [].
Definition k0_ : term := unfold_comp sab 0 [k1_] [rvar 1].
Definition cat_g : term := TOp OAnd [tEq sab (TOp OStrConcat [k0_; k1_]); TOp OAnd [tInRe k0_ (TOp OReConcat [rA; rA]); TOp OAnd [tInRe k1_ rA; tTrue]]].
Lemma lang_allchar {I} (E : env I) s : lang E rA s = true <-> List.length s = 1%nat.
Proof. unfold lang, rA. cbn [eval map eval_op]. apply (re_allchar _ (ire I)). Qed.
Lemma choice_str {I} (E : env I) b : exists s, eval (TBind BChoice [("x", SString)] b) E = VS s.
Proof. cbn [eval eval_bind]. apply dom_string. apply ichoice_dom. Qed.
Lemma lang_cat2 {I} (E : env I) a b s : lang E (TOp OReConcat [a; b]) s = true <-> exists u v, s = u ++ v /\ lang E a u = true /\ lang E b v = true.
Proof. rewrite lang_concat. reflexivity. Qed.
Theorem re_concat_pos_refuted : rule_refuted r_re_concat_pos.
Proof.
  exists [cat_g], [[tInRe sab (TOp OReConcat [rA; rA])]], [].
  repeat match goal with |- _ /\ _ => split end; [vm_compute; reflexivity|vm_compute; reflexivity|vm_compute; reflexivity|].
  intros I. destruct (env_exists (I := I)) as [E HE]. exists E. split; [exact HE|]. split.
  - intros p [<-|[]]; apply one_holds. rewrite (holds_in_re E sab _ [ca; cb] eq_refl). apply lang_cat2. exists [ca], [cb]. split; [reflexivity|].
    split; apply lang_allchar; reflexivity.
  - apply not_holds. intros K. unfold cat_g in K. rewrite holds_and in K. cbn [forallb] in K. rewrite andb_true_r in K. apply andb_true_iff in K. destruct K as [K1 K].
    rewrite holds_and in K. cbn [forallb] in K. rewrite andb_true_r in K. apply andb_true_iff in K. destruct K as [K2 K].
    rewrite holds_and in K. cbn [forallb] in K. apply andb_true_iff in K. destruct K as [K3 _].
    destruct (choice_str E (match k0_ with TBind _ _ b => b | _ => k0_ end)) as [s0 V0]. destruct (choice_str E (match k1_ with TBind _ _ b => b | _ => k1_ end)) as [s1 V1].
    change (eval k0_ E = VS s0) in V0. change (eval k1_ E = VS s1) in V1.
    rewrite (holds_in_re E _ _ _ V0) in K2. rewrite (holds_in_re E _ _ _ V1) in K3. apply lang_allchar in K3. apply lang_cat2 in K2. destruct K2 as [u [v [-> [U V]]]].
    apply lang_allchar in U, V. apply (proj1 (holds_eq_iff _ _ _)) in K1. fold (tCat k0_ k1_) in K1. rewrite eval_cat2, (sval_of _ _ _ V0), (sval_of _ _ _ V1) in K1.
    change (eval sab E) with (VS [ca; cb] : value I) in K1. injection K1 as K1. apply (f_equal (@List.length N)) in K1. rewrite !app_length, U, V, K3 in K1. discriminate K1.
Qed.
(** Likewise for a Kleene star. *)
Definition rS : term := TOp OReStar [rA].
Definition q2_ : term := unfold_comp sab 2 [] [].
Definition q1_ : term := unfold_comp sab 1 [q2_] [rvar 2].
Definition q0_ : term := unfold_comp sab 0 [q1_; q2_] [rvar 1; rvar 2].
Definition star_g : term :=
  TOp OOr [tEq sab tEmpty; tInRe sab rA;
    TOp OAnd [TOp OAnd [tEq sab (TOp OStrConcat [q0_; q1_; q2_]); tInRe q0_ (TOp OReConcat [rA; rS; rA]);
                        TOp OAnd [tInRe q1_ (TOp OReConcat [rS; rA]); TOp OAnd [tInRe q2_ rA; tTrue]]];
              tNot (tEq q0_ tEmpty); tNot (tEq q2_ tEmpty)]].
Theorem kleene_pos_refuted : rule_refuted r_kleene_pos.
Proof.
  exists [star_g], [[tInRe sab rS]], [].
  repeat match goal with |- _ /\ _ => split end; [vm_compute; reflexivity|vm_compute; reflexivity|vm_compute; reflexivity|].
  intros I. destruct (env_exists (I := I)) as [E HE]. exists E. split; [exact HE|]. split.
  - intros p [<-|[]]; apply one_holds. rewrite (holds_in_re E sab _ [ca; cb] eq_refl). apply lang_star. exists [[ca]; [cb]]. split; [reflexivity|].
    repeat constructor; apply lang_allchar; reflexivity.
  - apply not_holds. intros K. unfold star_g in K. rewrite holds_or in K. cbn [existsb] in K. rewrite orb_false_r in K. apply orb_true_iff in K.
    destruct K as [K|K]; [apply (proj1 (holds_eq_iff _ _ _)) in K; discriminate K|]. apply orb_true_iff in K. destruct K as [K|K].
    { rewrite (holds_in_re E sab _ [ca; cb] eq_refl) in K. apply lang_allchar in K. discriminate K. }
    rewrite holds_and in K. cbn [forallb] in K. apply andb_true_iff in K. destruct K as [K _].
    rewrite holds_and in K. cbn [forallb] in K. rewrite andb_true_r in K. apply andb_true_iff in K. destruct K as [K1 K]. apply andb_true_iff in K. destruct K as [K2 K].
    rewrite holds_and in K. cbn [forallb] in K. rewrite andb_true_r in K. apply andb_true_iff in K. destruct K as [K3 _].
    destruct (choice_str E (match q0_ with TBind _ _ b => b | _ => q0_ end)) as [s0 V0]. destruct (choice_str E (match q1_ with TBind _ _ b => b | _ => q1_ end)) as [s1 V1].
    change (eval q0_ E = VS s0) in V0. change (eval q1_ E = VS s1) in V1.
    rewrite (holds_in_re E _ _ _ V0) in K2. rewrite (holds_in_re E _ _ _ V1) in K3. apply lang_cat2 in K3. destruct K3 as [u [v [-> [_ V]]]]. apply lang_allchar in V.
    apply lang_concat in K2. destruct K2 as [u0 [v0 [-> [U0 V0']]]]. cbn [singleton_elim] in V0'. apply lang_cat2 in V0'. destruct V0' as [u1 [v1 [-> [_ V2]]]].
    apply lang_allchar in U0, V2. apply (proj1 (holds_eq_iff _ _ _)) in K1. change (eval sab E) with (VS [ca; cb] : value I) in K1.
    assert (K1' : [ca; cb] = sval E (TOp OStrConcat [q0_; q1_; q2_])) by (unfold sval; rewrite <- K1; reflexivity). clear K1. rename K1' into K1.
    rewrite sval_cat, !sv_cons, (sval_of _ _ _ V0), (sval_of _ _ _ V1) in K1.
    apply (f_equal (@List.length N)) in K1. rewrite !app_length, U0, V2, V in K1. cbn [List.length] in K1. lia.
Qed.
(** re_unfold_neg captures a free variable L of the string. *)
Definition neg_t : term := TOp OIte [tEq neg_L (tInt 5); tStr [cb]; tStr [ca]].
Definition rAs : term := TOp OReStar [TOp OStrToRe [tStr [ca]]].
Theorem unfold_neg_refuted : rule_refuted r_unfold_neg.
Proof.
  exists [TOp OAnd [tNot (tEq neg_t tEmpty); neg_body OLe neg_t (TOp OStrToRe [tStr [ca]]) rAs]], [[tNot (tInRe neg_t rAs)]], [].
  repeat match goal with |- _ /\ _ => split end; [vm_compute; reflexivity|vm_compute; reflexivity|vm_compute; reflexivity|].
  intros I. destruct (env_with (I := I) "L" SInt (vint 5)) as [E [HE HL]]; [apply dom_int; eauto|]. exists E. split; [exact HE|].
  assert (La : forall (E' : env I) s, lang E' (TOp OStrToRe [tStr [ca]]) s = true <-> s = [ca]).
  { intros E' s. unfold lang. cbn [eval map eval_op eval_const tStr]. apply (re_to_re _ (ire I)). }
  assert (Vt : forall (E' : env I) z, E' "L" SInt = vint z -> eval neg_t E' = VS (if Z.eqb z 5 then [cb] else [ca])).
  { intros E' z Hz. unfold neg_t. rewrite eval_ite. fold (holds E' (tEq neg_L (tInt 5))).
    assert (K : holds E' (tEq neg_L (tInt 5)) = Z.eqb z 5).
    { destruct (Z.eqb_spec z 5) as [->|N].
      - apply holds_eq_iff. unfold neg_L. cbn [eval]. rewrite Hz. reflexivity.
      - apply not_true_iff_false. intros K. apply (proj1 (holds_eq_iff _ _ _)) in K. unfold neg_L in K. cbn [eval] in K. rewrite Hz in K.
        change (eval (tInt 5) E') with (vint 5 : value I) in K. apply vint_inj in K. contradiction. }
    rewrite K. destruct (Z.eqb z 5); reflexivity. }
  split.
  - intros p [<-|[]]; apply one_holds. unfold tNot. rewrite holds_not'. apply negb_true_iff, not_true_iff_false. intros K.
    rewrite (holds_in_re E _ _ _ (Vt E 5%Z HL)) in K. apply lang_star in K. cbn [Z.eqb Pos.eqb] in K. destruct K as [ws [Hws F]].
    destruct ws as [|w ws]; [discriminate Hws|]. inversion F as [|? ? Fw _]; subst. apply La in Fw. subst w. discriminate Hws.
  - apply not_holds. intros K. rewrite holds_and in K. cbn [forallb] in K. rewrite andb_true_r in K. apply andb_true_iff in K. destruct K as [_ K].
    unfold neg_body, holds in K. cbn [eval eval_bind truth eval_all] in K. assert (D1 : idom I SInt (vint 1) = true) by (apply dom_int; eauto).
    apply (proj1 (iall_spec I _ _)) with (v := vint 1) in K; [|exact D1].
    set (E' := upd E "L" SInt (vint 1)) in *.
    change (holds E' (TOp OOr [TOp OLe [neg_L; tInt 0]; TOp OLt [tLen neg_t; neg_L]; tNot (tInRe (sk_prefix neg_t neg_L) (TOp OStrToRe [tStr [ca]])); tNot (tInRe (sk_suffix_rem neg_t neg_L) rAs)]) = true) in K.
    assert (VL : eval neg_L E' = vint 1) by (unfold neg_L; cbn [eval]; apply StrSound2.upd_same).
    assert (V : sval E' neg_t = [ca]) by (unfold sval; rewrite (Vt E' 1%Z VL); reflexivity).
    rewrite holds_or in K. cbn [existsb] in K. rewrite orb_false_r in K. rewrite (holds_le_int E' _ _ 1 0 VL (eval_int E' 0)) in K.
    rewrite (holds_lt_int E' _ _ _ 1 (eval_len E' neg_t) VL) in K. unfold slen in K. rewrite V in K. unfold tNot in K. rewrite !holds_not' in K.
    rewrite (holds_in_re E' _ _ _ (eval_prefix E' neg_t neg_L 1 VL)), (holds_in_re E' _ _ _ (eval_suffix_rem E' neg_t neg_L 1 VL)) in K. unfold slen in K. rewrite V in K.
    assert (K1 : lang E' (TOp OStrToRe [tStr [ca]]) (substr [ca] 0 1) = true) by (apply La; reflexivity).
    assert (K2 : lang E' rAs (substr [ca] 1 (Z.of_nat 1 - 1)) = true) by (apply lang_star; exists []; split; [reflexivity|constructor]).
    cbn [List.length] in K. rewrite K1, K2 in K. discriminate K.
Qed.
(** concat_cprop_prefix and concat_cprop_suffix panic when the constant is empty. *)
Definition rule_panics (r : rule) : Prop := exists c ps args, clause_wt c = true /\ forallb clause_wt ps = true /\ r c ps args = RPanic.
Theorem cprop_panics : rule_panics r_cprop_prefix /\ rule_panics r_cprop_suffix.
Proof.
  split.
  - exists [tEq sx (tCat sy sz)], [[tEq cpp_t (tCat tEmpty sy)]; [tNot (tEq (tLen sx) (tInt 0))]], []. vm_compute. auto.
  - exists [tEq sz (tCat sy sx)], [[tEq cpp_t (tCat sy tEmpty)]; [tNot (tEq (tLen sz) (tInt 0))]], []. vm_compute. auto.
Qed.
