(** C39: string rules. Soundness in the sense of [entails] (Rules.v): in every interpretation and every sort-respecting assignment the
    conclusion holds if the premises do.  Strings are lists of code points, str.substr and str.len are those of SMT-LIB and a regular
    expression is the set of strings that str.in_re puts into it ([re_laws], Sem.v). *)
From Coq Require Import List String ZArith NArith QArith Bool Arith Lia.
From Verif Require Import Term Field Sem Sorting Base Rules Refute Num Polyeq R_Str StrSound StrSound2 StrRefute.
Import ListNotations.
Local Open Scope string_scope.
Local Open Scope list_scope.

Definition fits (r : rule) (ok : clause -> list clause -> list term -> bool) (c : clause) (ps : list clause) (args : list term) : Prop :=
  r c ps args = ROk tt /\ ok c ps args = true /\ clause_wt c = true /\ forallb clause_wt ps = true.
Definition sw : term := TVar "w" SString.
Definition la : term := tStr [ca]. Definition lb : term := tStr [cb]. Definition lab : term := tStr [ca; cb]. Definition lac : term := tStr [ca; cc].
Definition len_ne0 (t : term) : term := tNot (tEq (tLen t) (tInt 0)).

(** ** Word equations; [str_ok]: the premises contain only literals in the usual form and every variable is bound once *)
Theorem C39_concat_eq_partial : rule_sound_if r_concat_eq str_ok.
Proof. exact concat_eq_sound. Qed.
Print Assumptions C39_concat_eq_partial.
Example concat_eq_ex : fits r_concat_eq str_ok [tEq sx sy] [[tEq (tCat la sx) (tCat la sy)]] [tFalse].
Proof. vm_compute. auto. Qed.
Example concat_eq_ex2 : fits r_concat_eq str_ok [tEq (tCat sx lb) sy] [[tEq (TOp OStrConcat [sx; lb; lac]) (tCat sy lac)]] [tTrue].
Proof. vm_compute. auto. Qed.
Theorem C39_concat_unify_partial : rule_sound_if r_concat_unify str_ok.
Proof. exact concat_unify_sound. Qed.
Print Assumptions C39_concat_unify_partial.
Example concat_unify_ex : fits r_concat_unify str_ok [tEq sx sz] [[tEq (tCat sx sy) (tCat sz sw)]; [tEq (tLen sx) (tLen sz)]] [tFalse].
Proof. vm_compute. auto. Qed.
Theorem C39_concat_conflict_partial : rule_sound_if r_concat_conflict str_ok.
Proof. exact concat_conflict_sound. Qed.
Print Assumptions C39_concat_conflict_partial.
Example concat_conflict_ex : fits r_concat_conflict str_ok [tFalse] [[tEq (tCat lab sx) (tCat lac sy)]] [tFalse].
Proof. vm_compute. auto. Qed.
Theorem C39_concat_csplit_prefix_partial : rule_sound_if r_csplit_prefix str_ok.
Proof. exact csplit_prefix_sound. Qed.
Print Assumptions C39_concat_csplit_prefix_partial.
Example csplit_prefix_ex : fits r_csplit_prefix str_ok [tEq sx (tCat la (sk_suffix_rem sx (tInt 1)))] [[tEq (tCat sx sy) (tCat lab sz)]; [len_ne0 sx]] [].
Proof. vm_compute. auto. Qed.
Theorem C39_concat_csplit_suffix_partial : rule_sound_if r_csplit_suffix str_ok.
Proof. exact csplit_suffix_sound. Qed.
Print Assumptions C39_concat_csplit_suffix_partial.
Example csplit_suffix_ex : fits r_csplit_suffix str_ok [tEq sy (tCat (sk_prefix sy (tMinus (tLen sy) (tInt 1))) lb)]
  [[tEq (tCat sx sy) (tCat sz lab)]; [len_ne0 sy]] [].
Proof. vm_compute. auto. Qed.
Theorem C39_concat_split_partial : forall rv, rule_sound_if (r_split rv) str_ok.
Proof. exact split_sound. Qed.
Print Assumptions C39_concat_split_partial.
Definition ksp : term := sk_split_prefix sx sz. Definition kss : term := sk_split_suffix sy sw.
Example split_ex : fits (r_split false) str_ok [TOp OAnd (TOp OOr [tEq sx (tCat sz ksp); tEq sz (tCat sx ksp)] :: nonempty_part ksp)]
  [[tEq (tCat sx sy) (tCat sz sw)]; [tNot (tEq (tLen sx) (tLen sz))]] [].
Proof. vm_compute. auto. Qed.
Example split_ex2 : fits (r_split true) str_ok [TOp OAnd (TOp OOr [tEq sy (tCat kss sw); tEq sw (tCat kss sy)] :: nonempty_part kss)]
  [[tEq (tCat sx sy) (tCat sz sw)]; [tNot (tEq (tLen sy) (tLen sw))]] [].
Proof. vm_compute. auto. Qed.
Theorem C39_concat_lprop_partial : forall rv, rule_sound_if (r_lprop rv) str_ok.
Proof. exact lprop_sound. Qed.
Print Assumptions C39_concat_lprop_partial.
Example lprop_ex : fits (r_lprop false) str_ok [TOp OAnd (tEq sx (tCat sz ksp) :: nonempty_part ksp)]
  [[tEq (tCat sx sy) (tCat sz sw)]; [TOp OGt [tLen sx; tLen sz]]] [].
Proof. vm_compute. auto. Qed.
Example lprop_ex2 : fits (r_lprop true) str_ok [TOp OAnd (tEq sy (tCat kss sw) :: nonempty_part kss)]
  [[tEq (tCat sx sy) (tCat sz sw)]; [TOp OGt [tLen sy; tLen sw]]] [].
Proof. vm_compute. auto. Qed.

(** ** Constant propagation: sound if the constant and the middle part are literals (for the suffix: with two parts on the right) ... *)
Theorem C39_concat_cprop_prefix_partial : rule_sound_if r_cprop_prefix (cprop_ok false).
Proof. exact cprop_prefix_sound. Qed.
Print Assumptions C39_concat_cprop_prefix_partial.
(** x ++ "c" ++ z = "abc" ++ y: x starts with "ab" *)
Definition lc : term := tStr [cc]. Definition labc : term := tStr [ca; cb; cc].
Definition oc_p : term := sk_prefix labc (tInt 2).
Example cprop_prefix_ex : fits r_cprop_prefix (cprop_ok false) [tEq sx (tCat oc_p (sk_suffix_rem sx (tLen oc_p)))]
  [[tEq (TOp OStrConcat [sx; lc; sz]) (tCat labc sy)]; [len_ne0 sx]] [].
Proof. vm_compute. auto. Qed.
Theorem C39_concat_cprop_suffix_partial : rule_sound_if r_cprop_suffix (cprop_ok true).
Proof. exact cprop_suffix_sound. Qed.
Print Assumptions C39_concat_cprop_suffix_partial.
Definition oc_s : term := sk_suffix labc (tInt 2).
Example cprop_suffix_ex : fits r_cprop_suffix (cprop_ok true) [tEq sz (tCat (sk_prefix sz (tMinus (tLen sz) (tLen oc_s))) oc_s)]
  [[tEq (TOp OStrConcat [sx; la; sz]) (tCat sy labc)]; [len_ne0 sz]] [].
Proof. vm_compute. auto. Qed.
(** ... and false in general. *)
Theorem C39_cprop_prefix_refuted : rule_refuted r_cprop_prefix.
Proof. exact cprop_prefix_refuted. Qed.
Print Assumptions C39_cprop_prefix_refuted.
Theorem C39_cprop_suffix_refuted : rule_refuted r_cprop_suffix.
Proof. exact cprop_suffix_refuted. Qed.
Print Assumptions C39_cprop_suffix_refuted.
Theorem C39_cprop_panics : rule_panics r_cprop_prefix /\ rule_panics r_cprop_suffix.
Proof. exact cprop_panics. Qed.
Print Assumptions C39_cprop_panics.

(** ** Lengths and decomposition *)
Theorem C39_length_pos_partial : rule_sound_if r_length_pos len_pos_ok.
Proof. exact length_pos_sound. Qed.
Print Assumptions C39_length_pos_partial.
Example length_pos_ex : fits r_length_pos len_pos_ok [TOp OOr [TOp OAnd [tEq (tLen sx) (tInt 0); tEq sx tEmpty]; TOp OGt [tLen sx; tInt 0]]] [] [sx].
Proof. vm_compute. auto. Qed.
Theorem C39_length_non_empty_partial : rule_sound_if r_length_non_empty len_ne_ok.
Proof. exact length_non_empty_sound. Qed.
Print Assumptions C39_length_non_empty_partial.
Example length_non_empty_ex : fits r_length_non_empty len_ne_ok [len_ne0 sx] [[tNot (tEq sx tEmpty)]] [].
Proof. vm_compute. auto. Qed.
(** sound for non-negative lengths with the argument false *)
Theorem C39_decompose_partial : rule_sound_if r_decompose decompose_ok.
Proof. exact decompose_sound. Qed.
Print Assumptions C39_decompose_partial.
Example decompose_ex : fits r_decompose decompose_ok [decomposed sx (tInt 3) false] [[TOp OGe [tLen sx; tInt 3]]] [tFalse].
Proof. vm_compute. auto. Qed.
Theorem C39_decompose_rev_refuted : exists c ps, r_decompose c ps [tTrue] = ROk tt /\ clause_wt c = true /\ forallb clause_wt ps = true /\
  forall I : interp, exists E : env I, env_ok E /\ (forall p, In p ps -> clause_holds E p) /\ ~ clause_holds E c.
Proof. exact decompose_rev_refuted. Qed.
Print Assumptions C39_decompose_rev_refuted.
Theorem C39_decompose_neg_refuted : exists c ps, r_decompose c ps [tFalse] = ROk tt /\ clause_wt c = true /\ forallb clause_wt ps = true /\
  forall I : interp, exists E : env I, env_ok E /\ (forall p, In p ps -> clause_holds E p) /\ ~ clause_holds E c.
Proof. exact decompose_neg_refuted. Qed.
Print Assumptions C39_decompose_neg_refuted.

(** ** Regular expressions *)
Theorem C39_re_inter_partial : rule_sound_if r_re_inter len_ne_ok.
Proof. exact re_inter_sound. Qed.
Print Assumptions C39_re_inter_partial.
Definition rx : term := TVar "r" SRegLan. Definition ry : term := TVar "s" SRegLan.
Example re_inter_ex : fits r_re_inter len_ne_ok [tInRe sx (TOp OReInter [rx; ry])] [[tInRe sx rx]; [tInRe sx ry]] [].
Proof. vm_compute. auto. Qed.
Theorem C39_re_unfold_neg_fixed : rule_sound r_neg_fixed_prefix /\ rule_sound r_neg_fixed_suffix.
Proof. exact (conj neg_fixed_prefix_sound neg_fixed_suffix_sound). Qed.
Print Assumptions C39_re_unfold_neg_fixed.
Definition anyc : term := TOp OReAllChar [].
Example neg_fixed_ex : fits r_neg_fixed_prefix (fun _ _ _ => true)
  [TOp OOr [tNot (tInRe (sk_prefix sx (tInt 1)) anyc); tNot (tInRe (sk_suffix_rem sx (tInt 1)) (TOp OReConcat [rx; ry]))]]
  [[tNot (tInRe sx (TOp OReConcat [anyc; rx; ry]))]] [].
Proof. vm_compute. auto. Qed.
Example neg_fixed_ex2 : fits r_neg_fixed_suffix (fun _ _ _ => true)
  [TOp OOr [tNot (tInRe (sk_suffix sx (tInt 2)) (TOp OStrToRe [lab])); tNot (tInRe (sk_prefix sx (tMinus (tLen sx) (tInt 2))) rx)]]
  [[tNot (tInRe sx (TOp OReConcat [rx; TOp OStrToRe [lab]]))]] [].
Proof. vm_compute. auto. Qed.
(** sound if the variable L of the conclusion does not occur in the premise *)
Theorem C39_re_unfold_neg_partial : rule_sound_if r_unfold_neg unfold_neg_ok.
Proof. exact unfold_neg_sound. Qed.
Print Assumptions C39_re_unfold_neg_partial.
Example unfold_neg_ex : fits r_unfold_neg unfold_neg_ok [TOp OAnd [tNot (tEq sx tEmpty); neg_body OLe sx rx (TOp OReStar [rx])]] [[tNot (tInRe sx (TOp OReStar [rx]))]] [].
Proof. vm_compute. auto. Qed.
Example unfold_neg_ex2 : fits r_unfold_neg unfold_neg_ok [neg_body OLt sx rx ry] [[tNot (tInRe sx (TOp OReConcat [rx; ry]))]] [].
Proof. vm_compute. auto. Qed.
Theorem C39_re_unfold_neg_refuted : rule_refuted r_unfold_neg.
Proof. exact unfold_neg_refuted. Qed.
Print Assumptions C39_re_unfold_neg_refuted.
(** sound for a concatenation of constants; false in general, like the unfolding of a star *)
Theorem C39_re_concat_unfold_pos_partial : rule_sound_if r_re_concat_pos all_to_re.
Proof. exact re_concat_pos_consts_sound. Qed.
Print Assumptions C39_re_concat_unfold_pos_partial.
Example re_concat_pos_ex : fits r_re_concat_pos all_to_re [tEq sx (tCat lab sy)] [[tInRe sx (TOp OReConcat [TOp OStrToRe [lab]; TOp OStrToRe [sy]])]] [].
Proof. vm_compute. auto. Qed.
Theorem C39_re_concat_unfold_pos_refuted : rule_refuted r_re_concat_pos.
Proof. exact re_concat_pos_refuted. Qed.
Print Assumptions C39_re_concat_unfold_pos_refuted.
Theorem C39_re_star_unfold_pos_refuted : rule_refuted r_kleene_pos.
Proof. exact kleene_pos_refuted. Qed.
Print Assumptions C39_re_star_unfold_pos_refuted.
