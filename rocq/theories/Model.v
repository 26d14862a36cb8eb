(** An interpretation exists: the quantification over interpretations in the theorems is not vacuous.
    The decision and choice functions of an interpretation cannot be computed, so this file (and only this
    file) uses classical axioms of the standard library.  Nothing else depends on it. *)
From Coq Require Import List String ZArith NArith QArith Qcanon Bool Arith Lia.
From Coq Require Import ClassicalEpsilon FunctionalExtensionality PropExtensionality.
From Verif Require Import Term Field Sem Sorting.
Import ListNotations.

(** The remaining values: regular languages (all languages, for RegLan) and one element, named by the sort, for every other
    sort that is not Bool, Int, Real, String or a bit-vector sort. *)
Inductive mu : Type := MS (s : sort) | ML (l : list N -> bool).
Definition mu_eqb (a b : mu) : bool := if excluded_middle_informative (a = b) then true else false.
Lemma mu_eqb_eq a b : mu_eqb a b = true <-> a = b.
Proof. unfold mu_eqb. destruct (excluded_middle_informative (a = b)); split; congruence. Qed.
Notation mval := (value_ QcField mu).
Definition m_udom (s : sort) (v : mval) : bool :=
  match v with
  | VU (MS u) => match s with SRegLan => false | _ => sort_eqb u (num_erase s) end
  | VU (ML _) => match s with SRegLan => true | _ => false end
  | _ => false
  end.
Notation mdom := (dom_ m_udom).
Definition m_def (s : sort) : mval :=
  match s with
  | SBool => VB false
  | SInt | SReal => VN (inj 0)
  | SString => VS []
  | SBV w => VBV w 0
  | SRegLan => VU (ML (fun _ => false))
  | _ => VU (MS (num_erase s))
  end.
Lemma num_erase_idem s : num_erase (num_erase s) = num_erase s.
Proof.
  induction s as [ss IH|n ss IH|a b IHa IHb| | | | | | | | |] using sort_ind'; cbn [num_erase]; try reflexivity.
  - f_equal. rewrite map_map. apply map_ext_in. rewrite Forall_forall in IH. auto.
  - f_equal. rewrite map_map. apply map_ext_in. rewrite Forall_forall in IH. auto.
  - rewrite IHa, IHb. reflexivity.
Qed.
Lemma m_def_dom s : mdom s (m_def s) = true.
Proof.
  destruct s; cbn [dom_ m_def m_udom]; try reflexivity; try (apply sort_eqb_eq; reflexivity).
  rewrite Nat.eqb_refl. cbn [andb]. pose proof (pow2_pos w). rewrite andb_true_iff, Z.leb_le, Z.ltb_lt. lia.
Qed.
Lemma m_def_erase s : m_def (num_erase s) = m_def s.
Proof.
  pose proof (num_erase_idem s) as H. destruct s; cbn [num_erase] in *; try reflexivity; unfold m_def; rewrite ?H; try reflexivity.
  - cbn [num_erase] in *. rewrite H. reflexivity.
  - cbn [num_erase] in *. rewrite H. reflexivity.
  - cbn [num_erase] in *. rewrite H. reflexivity.
Qed.

Definition m_app (f : mval) (vs : list mval) : mval :=
  match f with VU (MS (SFun ss)) => m_def (last ss SType) | _ => VB false end.
Definition m_w (v : mval) : nat := match v with VBV w _ => w | _ => 0 end.
(** regular expressions denote their languages *)
Definition dec (P : Prop) : bool := if excluded_middle_informative P then true else false.
Lemma dec_true P : dec P = true <-> P.
Proof. unfold dec. destruct (excluded_middle_informative P); split; congruence || contradiction || auto. Qed.
Definition lang (v : mval) (s : list N) : bool := match v with VU (ML l) => l s | _ => false end.
Definition mre (l : list N -> bool) : mval := VU (ML l).
Definition m_str (v : mval) : list N := match v with VS s => s | _ => [] end.
Definition m_re2 (o : op) (a b : mval) : mval :=
  match o with
  | OReConcat => mre (fun s => dec (exists u v, s = u ++ v /\ lang a u = true /\ lang b v = true))
  | OReUnion => mre (fun s => lang a s || lang b s)
  | OReInter => mre (fun s => lang a s && lang b s)
  | _ => mre (fun s => lang a s && negb (lang b s))
  end.
Definition m_star (a : mval) (s : list N) : Prop := exists ws, s = List.concat ws /\ Forall (fun w => lang a w = true) ws.
Definition m_re1 (o : op) (a : mval) : mval :=
  match o with
  | OReStar => mre (fun s => dec (m_star a s))
  | ORePlus => mre (fun s => dec (exists ws, ws <> [] /\ s = List.concat ws /\ Forall (fun w => lang a w = true) ws))
  | OReOpt => mre (fun s => match s with [] => true | _ => lang a s end)
  | _ => mre (fun s => negb (lang a s))
  end.
Definition m_op (o : op) (vs : list mval) : mval :=
  match o with
  | OIte => nth 1 vs (VB false)
  | OStore => nth 0 vs (VB false)
  | OSelect => match vs with VU (MS (SArray _ b)) :: _ => m_def b | _ => VB false end
  | OBvAdd | OBvSub | OBvNot | OBvNeg | OBvAnd | OBvOr | OBvMul | OBvUDiv | OBvURem | OBvShl
  | OBvLShr | OBvNAnd | OBvNOr | OBvXor | OBvXNor | OBvSDiv | OBvSRem | OBvSMod | OBvAShr => nth 0 vs (VB false)
  | OBvBbTerm | OBvPBbTerm => VBV (List.length vs) 0
  | OBvConcat => VBV (fold_left (fun a v => a + m_w v)%nat vs 0%nat) 0
  | OAdd | OSub | OMult | OAbs => VN (inj 0)
  | OStrInRe => VB (lang (nth 1 vs (VB false)) (m_str (nth 0 vs (VB false))))
  | OReAll => mre (fun _ => true)
  | OReAllChar => mre (fun s => Nat.eqb (List.length s) 1)
  | OStrToRe => mre (fun s => list_eqb N.eqb s (m_str (nth 0 vs (VB false))))
  | OReRange => mre (fun s => dec (exists x y z, m_str (nth 0 vs (VB false)) = [x] /\ m_str (nth 1 vs (VB false)) = [y] /\ s = [z] /\ (x <= z)%N /\ (z <= y)%N))
  | OReConcat | OReUnion | OReInter | OReDiff => m_re2 o (nth 0 vs (VB false)) (nth 1 vs (VB false))
  | OReStar | OReComp | ORePlus | OReOpt => m_re1 o (nth 0 vs (VB false))
  | _ => m_def (op_sort o [])
  end.
Definition m_pop (o : pop) (oargs : list term) (vs : list mval) : mval :=
  match o, oargs, vs with
  | (PZeroExtend | PSignExtend), i :: _, v :: _ => match as_const_nat i with Some n => VBV (n + m_w v) 0 | None => VB false end
  | PRepeat, i :: _, v :: _ => match as_const_nat i with Some n => VBV (n * m_w v) 0 | None => VB false end
  | (PRotateLeft | PRotateRight), _, v :: _ => v
  | _, _, _ => m_def (pop_sort o oargs [])
  end.
Definition m_all (s : sort) (f : mval -> bool) : bool :=
  if excluded_middle_informative (forall v, mdom s v = true -> f v = true) then true else false.
Definition m_pick (s : sort) (f : mval -> bool) (v : mval) : Prop :=
  mdom s v = true /\ (f v = true \/ ~ exists w, mdom s w = true /\ f w = true).
Definition m_choice (s : sort) (f : mval -> bool) : mval := epsilon (inhabits (VB false)) (m_pick s f).
Definition m_lam (ss : list sort) (s : sort) (f : list mval -> mval) : mval := VU (MS (SFun (map num_erase ss ++ [s]))).

Lemma m_pick_ex s f : exists v, m_pick s f v.
Proof.
  destruct (excluded_middle_informative (exists w, mdom s w = true /\ f w = true)) as [[w [H1 H2]]|H].
  - exists w. split; auto.
  - exists (m_def s). split; [apply m_def_dom|auto].
Qed.
Lemma m_choice_pick s f : m_pick s f (m_choice s f).
Proof. unfold m_choice. apply epsilon_spec. apply m_pick_ex. Qed.

Lemma dom_bv_w w v : mdom (SBV w) v = true -> m_w v = w.
Proof. destruct v; cbn; try discriminate. rewrite !andb_true_iff, Nat.eqb_eq. intros [[-> _] _]. reflexivity. Qed.
Lemma dom_zero w : mdom (SBV w) (VBV w 0) = true.
Proof. exact (m_def_dom (SBV w)). Qed.
Lemma dom_fold ss vs : Forall2 (fun s v => mdom s v = true) ss vs -> forallb is_bv_sort ss = true -> forall a,
  fold_left (fun acc s => match acc, s with SBV a, SBV b => SBV (a + b) | _, _ => SType end) ss (SBV a) =
  SBV (fold_left (fun a v => a + m_w v)%nat vs a).
Proof.
  induction 1 as [|s v ss vs Hv _ IH]; intros Hb a; cbn; [reflexivity|].
  cbn in Hb. apply andb_true_iff in Hb. destruct Hb as [Hs Hb]. destruct s; try discriminate. rewrite IH by auto.
  rewrite (dom_bv_w _ _ Hv). reflexivity.
Qed.

Lemma m_re : re_laws m_op.
Proof.
  constructor.
  - reflexivity.
  - reflexivity.
  - intros s. apply Nat.eqb_eq.
  - intros s w. apply list_eqb_eq. apply N.eqb_eq.
  - intros s a b. apply dec_true.
  - intros s a b. apply dec_true.
  - reflexivity.
  - reflexivity.
  - reflexivity.
  - reflexivity.
  - intros s a. apply dec_true.
  - intros s a. apply dec_true.
  - intros s a. change (match s with [] => true | _ => lang a s end = true <-> s = [] \/ lang a s = true).
    destruct s; split; auto. intros [H|H]; [discriminate|auto].
Qed.
Definition model : interp.
Proof.
  refine (mkI QcField mu mu_eqb mu_eqb_eq m_udom m_app m_op m_pop m_all _ m_choice _ _ _ m_lam _ _ _ _ _ m_re).
  - intros s f. unfold m_all. destruct (excluded_middle_informative _) as [H|H]; (split; [intros K|intros K]); try exact H; try reflexivity; try discriminate; contradiction.
  - intros s f. exact (proj1 (m_choice_pick s f)).
  - intros s f v H1 H2. destruct (proj2 (m_choice_pick s f)) as [H|H]; auto. exfalso. apply H. exists v. auto.
  - intros s f g H. unfold m_choice. f_equal. extensionality v. apply propositional_extensionality. unfold m_pick.
    split; intros [K1 K2]; split; auto.
    + rewrite <- (H v K1). destruct K2 as [K2|K2]; [left; auto|right]. intros [w [W1 W2]]. apply K2. exists w. rewrite (H w W1). auto.
    + rewrite (H v K1). destruct K2 as [K2|K2]; [left; auto|right]. intros [w [W1 W2]]. apply K2. exists w. rewrite <- (H w W1). auto.
  - reflexivity.
  - intros ss r f vs Hf _. cbn [dom_] in Hf. destruct f as [| | | |[u|l]]; cbn [m_udom] in Hf; try discriminate.
    apply sort_eqb_eq in Hf. subst u. cbn [num_erase m_app]. rewrite map_app. cbn [map]. rewrite last_last, m_def_erase. apply m_def_dom.
  - intros o ss vs Hw Hd.
    destruct o; try discriminate Hw; try (apply (m_def_dom (op_sort _ []))); cbn [op_sort m_op] in *; try reflexivity;
      try (destruct (existsb (sort_eqb SReal) ss); reflexivity).
    all: try (apply sorts_are_eq in Hw; subst ss).
    all: try (destruct ss as [|s1 [|s2 rs]]; try discriminate Hw; destruct s1; try discriminate Hw; inversion Hd; subst; cbn [nth]; assumption).
    all: try (destruct ss as [|s1 rs]; try discriminate Hw; inversion Hd; subst; cbn in Hw; destruct s1; try (rewrite ?andb_false_r in Hw; discriminate Hw);
       cbn [nth]; assumption).
    all: try (destruct ss as [|s1 [|s2 [|? ?]]]; try discriminate Hw; destruct s1; try discriminate Hw; inversion Hd; subst; cbn [nth]; assumption).
    + destruct ss as [|s1 [|s2 [|s3 [|? ?]]]]; try discriminate Hw. inversion Hd as [|? ? ? ? ? Hd2]; subst. inversion Hd2; subst. cbn [nth]. assumption.
    + destruct ss as [|s1 [|s2 [|? ?]]]; try discriminate Hw; destruct s1; try discriminate Hw. inversion Hd; subst. cbn [dom_] in *.
      destruct y as [| | | |[u|l]]; cbn [m_udom] in *; try discriminate.
      match goal with H : sort_eqb u _ = true |- _ => apply sort_eqb_eq in H; subst u end. cbn [num_erase].
      rewrite m_def_erase. apply m_def_dom.
    + apply andb_true_iff in Hw. destruct Hw as [_ Hw]. rewrite (dom_fold _ _ Hd Hw). apply dom_zero.
    + replace (List.length ss) with (List.length vs); [apply dom_zero|]. clear Hw. induction Hd; cbn; auto.
    + replace (List.length ss) with (List.length vs); [apply dom_zero|]. clear Hw. induction Hd; cbn; auto.
  - intros o oargs ss vs Hw Hd. 
    destruct o; unfold pop_wt in Hw;
      (destruct oargs as [|i [|j [|? ?]]]; cbn [map] in Hw; try discriminate Hw;
       repeat match type of Hw with context [as_const_nat ?x] => destruct (as_const_nat x) eqn:? end; try discriminate Hw);
      (destruct ss as [|s [|? ?]]; try discriminate Hw); try (destruct s; try discriminate Hw);
      inversion Hd as [|? v ? ? Hv Hd']; subst; inversion Hd'; subst;
      unfold m_pop, pop_sort; repeat match goal with H : as_const_nat ?x = _ |- _ => rewrite H end;
      try reflexivity; try exact Hv; try apply dom_zero; try (rewrite (dom_bv_w _ _ Hv); apply dom_zero);
      try apply m_def_dom; try (destruct i; try discriminate Hw); try apply m_def_dom.
  - intros ss r f _. cbn [dom_ m_udom m_lam]. apply sort_eqb_eq. cbn [num_erase]. rewrite map_app. reflexivity.
Qed.

Theorem interp_inhabited : inhabited interp.
Proof. exact (inhabits model). Qed.
Print Assumptions interp_inhabited.

(** A function that sorts the factors of monomials exists, as assumed by the theorems on poly_simp. *)
From Coq Require Import Permutation.
From Verif Require Import PolyOrder.
Lemma sorting_inhabited : exists srt, sorting srt.
Proof.
  exists (fun l => epsilon (inhabits (@nil term)) (fun r => Permutation r l)). split.
  - intros l. apply (epsilon_spec (inhabits (@nil term)) (fun r => Permutation r l)). exists l. apply Permutation_refl.
  - intros a b H. f_equal. apply functional_extensionality. intros r. apply propositional_extensionality. split; intros H'.
    + apply (Permutation_trans H' H).
    + apply (Permutation_trans H' (Permutation_sym H)).
Qed.
