(** Soundness of the cutting planes rules (R_CP.v). *)
From Coq Require Import List String Ascii ZArith QArith Bool Arith Lia Permutation Field.
From Verif Require Import Base Term Field Sem Sorting Rules Utils Num R_LA R_CP BinderSound QuantSound.
Import ListNotations.
Local Open Scope Z_scope.

(** ** Maps *)
Definition cof (m : pbhash) (k : string) : Z := match pget m k with Some c => c | None => 0 end.
Lemma pget_ins m k c k' : pget (pins m k c) k' = if String.eqb k' k then Some c else pget m k'.
Proof. apply (im_get_insert String.eqb String.eqb_eq). Qed.
Lemma pins_nodup m k c : NoDup (map fst m) -> NoDup (map fst (pins m k c)).
Proof. apply (im_insert_NoDup String.eqb String.eqb_eq). Qed.
Lemma pget_In m k c : NoDup (map fst m) -> (pget m k = Some c <-> In (k, c) m).
Proof. apply (im_get_In String.eqb String.eqb_eq). Qed.
Lemma pget_key m k c : pget m k = Some c -> In k (map fst m).
Proof.
  unfold pget. induction m as [|[a b] m IH]; cbn [im_get]; [discriminate|]. destruct (String.eqb k a) eqn:E; intros H; [|right; auto].
  apply String.eqb_eq in E. left. auto.
Qed.
Lemma pget_none m k : pget m k = None -> ~ In k (map fst m).
Proof.
  unfold pget. induction m as [|[a b] m IH]; cbn [im_get]; [intros _ []|]. destruct (String.eqb k a) eqn:E; [discriminate|].
  intros H [H1|H1]; [|apply IH; auto]. cbn in H1. subst a. rewrite String.eqb_refl in E. discriminate.
Qed.
Lemma add_nodup a b : NoDup (map fst a) -> NoDup (map fst (add_pbsums a b)).
Proof. unfold add_pbsums. revert a. induction b as [|[k c] b IH]; intros a H; cbn [fold_left]; auto. apply IH, pins_nodup, H. Qed.
Lemma reduce_step_nodup m acc k : NoDup (map fst (fst acc)) -> NoDup (map fst (fst (reduce_step m acc k))).
Proof.
  intros H. unfold reduce_step. destruct (is_negated k); auto. destruct (pget m k), (pget m (tilde k)); auto. cbn [fst].
  destruct (_ <? _); auto using pins_nodup.
Qed.
Lemma reduce_nodup m : NoDup (map fst m) -> NoDup (map fst (fst (reduce_pbsum m))).
Proof.
  intros H. unfold reduce_pbsum.
  assert (G : forall ks acc, NoDup (map fst (fst acc)) -> NoDup (map fst (fst (fold_left (reduce_step m) ks acc)))).
  { induction ks as [|k ks IH]; intros acc Ha; cbn [fold_left]; auto. apply IH, reduce_step_nodup, Ha. }
  apply G. exact H.
Qed.
Lemma hash_nodup show l : NoDup (map fst (hash_of show l)).
Proof.
  unfold hash_of. assert (H : NoDup (map fst ([] : pbhash))) by constructor. revert H. generalize ([] : pbhash).
  induction l as [|e l IH]; intros m Hm; cbn [fold_left]; auto. apply IH, pins_nodup, Hm.
Qed.
Lemma pins_new m k c : ~ In k (map fst m) -> pins m k c = (m ++ [(k, c)])%list.
Proof.
  unfold pins. induction m as [|[a b] m IH]; intros H; cbn [im_insert app]; auto. destruct (String.eqb k a) eqn:E.
  - apply String.eqb_eq in E. destruct H. left. auto.
  - f_equal. apply IH. intros Hi. apply H. right. auto.
Qed.
Lemma hash_list show l : NoDup (map (fun e => key show (fst e)) l) -> hash_of show l = map (fun e => (key show (fst e), snd e)) l.
Proof.
  unfold hash_of. assert (G : forall m, NoDup (map fst m ++ map (fun e => key show (fst e)) l) ->
    fold_left (fun m e => pins m (key show (fst e)) (snd e)) l m = (m ++ map (fun e => (key show (fst e), snd e)) l)%list).
  { induction l as [|e l IH]; intros m H; cbn [fold_left map]; [rewrite app_nil_r; auto|]. cbn [map] in H.
    rewrite pins_new.
    - rewrite IH; [rewrite <- app_assoc; reflexivity|]. rewrite map_app, <- app_assoc. exact H.
    - intros Hi. apply NoDup_remove_2 in H. apply H, in_or_app. auto. }
  intros H. apply (G []). exact H.
Qed.
(** what the comparisons of keys and coefficients say *)
Lemma subset_keys_ok a b u : subset_keys a b = ROk u -> NoDup (map fst a) -> forall k c, pget a k = Some c -> c <> 0 -> exists c', pget b k = Some c'.
Proof.
  intros H Hn k c Hk Hc. unfold subset_keys in H. apply obind_ok in H. destruct H as [x [H _]].
  apply (pget_In a k c Hn) in Hk. destruct (ofor_ok _ _ _ H _ Hk) as [y Hy]. apply rassert_ok in Hy. cbn [fst snd] in Hy.
  apply orb_true_iff in Hy. destruct Hy as [Hy|Hy]; [apply Z.eqb_eq in Hy; contradiction|]. destruct (pget b k); [eauto|discriminate].
Qed.
Lemma match_coeffs_ok f p c u : match_coeffs f p c = ROk u -> NoDup (map fst p) -> forall k x y, pget p k = Some x -> pget c k = Some y -> f x = y.
Proof.
  intros H Hn k x y Hx Hy. unfold match_coeffs in H. apply obind_ok in H. destruct H as [z [H _]].
  apply (pget_In p k x Hn) in Hx. destruct (ofor_ok _ _ _ H _ Hx) as [w Hw]. cbn [fst snd] in Hw. rewrite Hy in Hw. apply rassert_ok in Hw.
  apply Z.eqb_eq in Hw. exact Hw.
Qed.
Lemma same_and_match f p c u v : f 0 = 0 -> same_keys p c = ROk u -> match_coeffs f p c = ROk v -> NoDup (map fst p) -> NoDup (map fst c) ->
  forall k, cof c k = f (cof p k).
Proof.
  intros Hf H1 H2 Np Nc k. unfold same_keys in H1. apply obind_ok in H1. destruct H1 as [x [Ha Hb]].
  pose proof (subset_keys_ok _ _ _ Ha Np k) as A. pose proof (subset_keys_ok _ _ _ Hb Nc k) as B. pose proof (match_coeffs_ok _ _ _ _ H2 Np k) as C.
  unfold cof. destruct (pget p k) as [cp|] eqn:Ep, (pget c k) as [cc|] eqn:Ec.
  - symmetry. apply C; auto.
  - destruct (Z.eq_dec cp 0) as [->|Hn]; [auto|]. destruct (A cp eq_refl Hn) as [c' Hc']. discriminate.
  - rewrite Hf. destruct (Z.eq_dec cc 0) as [->|Hn]; [auto|]. destruct (B cc eq_refl Hn) as [c' Hc']. discriminate.
  - auto.
Qed.

(** ** Values of sums *)
Section V.
  Context {F : ofield}.
  Add Field FCP : (o_th F).
  Variable v : string -> F.
  Local Open Scope of_scope.
  Definition mval (m : pbhash) : F := fold_right (fun p acc => inj (snd p) * v (fst p) + acc) 0 m.
  Lemma mval_ins_some m k c old : pget m k = Some old -> mval (pins m k c) = mval m + (inj c - inj old) * v k.
  Proof.
    unfold pget, pins. induction m as [|[a b] r IH]; cbn [im_get im_insert]; [discriminate|]. destruct (String.eqb k a) eqn:E.
    - apply String.eqb_eq in E. subst a. intros H; injection H as <-. cbn [mval fold_right fst snd]. ring.
    - intros H. cbn [mval fold_right fst snd]. fold (mval r). fold (mval (im_insert String.eqb r k c)). rewrite IH by exact H. ring.
  Qed.
  Lemma mval_ins_none m k c : pget m k = None -> mval (pins m k c) = mval m + inj c * v k.
  Proof.
    unfold pget, pins. induction m as [|[a b] r IH]; cbn [im_get im_insert]; [intros _; cbn; ring|]. destruct (String.eqb k a) eqn:E; [discriminate|].
    intros H. cbn [mval fold_right fst snd]. fold (mval r). fold (mval (im_insert String.eqb r k c)). rewrite IH by exact H. ring.
  Qed.
  Lemma mval_add a b : mval (add_pbsums a b) = mval a + mval b.
  Proof.
    unfold add_pbsums. revert a. induction b as [|[k c] b IH]; intros a; cbn [fold_left].
    - cbn. ring.
    - rewrite IH. cbn [mval fold_right fst snd]. fold (mval b). destruct (pget a k) as [ca|] eqn:E.
      + rewrite (mval_ins_some _ _ _ _ E), inj_add. ring.
      + rewrite (mval_ins_none _ _ _ E). ring.
  Qed.
  Lemma mval_out m k : NoDup (map fst m) -> mval m = inj (cof m k) * v k + mval (filter (fun p => negb (String.eqb k (fst p))) m).
  Proof.
    unfold cof, pget. induction m as [|[a b] r IH]; intros Hn; cbn [im_get filter fst].
    - cbn. ring.
    - inversion Hn as [|? ? Hn1 Hn2]; subst. cbn [mval fold_right fst snd]. fold (mval r). destruct (String.eqb k a) eqn:E; cbn [negb].
      + apply String.eqb_eq in E. subst a. f_equal. f_equal. symmetry. clear - Hn1. induction r as [|[a c] r IH]; auto. cbn [filter fst].
        destruct (String.eqb k a) eqn:E.
        * apply String.eqb_eq in E. destruct Hn1. left. auto.
        * cbn [negb]. f_equal. apply IH. intros H. apply Hn1. right. auto.
      + cbn [mval fold_right fst snd]. fold (mval (filter (fun p => negb (String.eqb k (fst p))) r)). rewrite (IH Hn2) at 1. ring.
  Qed.
  Lemma cof_filter m k k' : cof (filter (fun p => negb (String.eqb k (fst p))) m) k' = if String.eqb k k' then 0%Z else cof m k'.
  Proof.
    unfold cof, pget. induction m as [|[a b] r IH]; cbn [filter fst im_get]; [destruct (String.eqb k k'); auto|].
    destruct (String.eqb k a) eqn:E; cbn [negb].
    - rewrite IH. destruct (String.eqb k k') eqn:E1; auto. apply String.eqb_eq in E. subst a. rewrite String.eqb_sym, E1. auto.
    - cbn [im_get]. destruct (String.eqb k' a) eqn:E2; [|exact IH]. apply String.eqb_eq in E2. subst a. rewrite E. auto.
  Qed.
  Lemma nodup_filter (m : pbhash) (f : string * Z -> bool) : NoDup (map fst m) -> NoDup (map fst (filter f m)).
  Proof.
    induction m as [|p m IH]; intros H; cbn [filter map]; auto. inversion H as [|? ? H1 H2]; subst. destruct (f p); auto. cbn [map]. constructor; auto.
    intros Hi. apply H1. apply in_map_iff in Hi. destruct Hi as [q [Hq Hi]]. apply filter_In in Hi. rewrite <- Hq. apply in_map. tauto.
  Qed.
  Lemma mval_cof a : forall b, NoDup (map fst a) -> NoDup (map fst b) -> (forall k, cof a k = cof b k) -> mval a = mval b.
  Proof.
    induction a as [|[k c] a IH]; intros b Ha Hb H.
    - cbn [mval fold_right]. induction b as [|[k c] b IHb]; auto. inversion Hb as [|? ? Hb1 Hb2]; subst.
      assert (Hc : c = 0%Z) by (specialize (H k); unfold cof, pget in H; cbn [im_get] in H; rewrite String.eqb_refl in H; auto). subst c.
      cbn [mval fold_right fst snd]. fold (mval b). rewrite <- IHb; auto.
      + rewrite inj_0. ring.
      + intros k'. specialize (H k'). unfold cof, pget in *. cbn [im_get] in *. destruct (String.eqb k' k) eqn:E; auto.
        apply String.eqb_eq in E. subst k'. destruct (im_get String.eqb b k) eqn:E2; auto. apply pget_key in E2. contradiction.
    - inversion Ha as [|? ? Ha1 Ha2]; subst. rewrite (mval_out b k Hb). rewrite <- H.
      cbn [mval fold_right fst snd]. fold (mval a). f_equal; [unfold cof, pget; cbn [im_get]; rewrite String.eqb_refl; auto|].
      apply IH; auto using nodup_filter. intros k'. rewrite cof_filter. rewrite <- H. unfold cof, pget. cbn [im_get].
      rewrite (String.eqb_sym k k'). destruct (String.eqb k' k) eqn:E; auto. apply String.eqb_eq in E. subst k'.
      destruct (im_get String.eqb a k) eqn:E2; auto. apply pget_key in E2. contradiction.
  Qed.
  (** cancelling *)
  Lemma tilde_negated k : is_negated (tilde k) = true.
  Proof. reflexivity. Qed.
  Lemma mval_reduce m : (forall k, pget m k <> None -> pget m (tilde k) <> None -> is_negated k = false -> v (tilde k) = 1 - v k) -> NoDup (map fst m) ->
    mval (fst (reduce_pbsum m)) + inj (snd (reduce_pbsum m)) = mval m.
  Proof.
    intros Hv Hn. unfold reduce_pbsum.
    assert (G : forall ks acc, NoDup ks ->
      (forall k, In k ks -> is_negated k = false -> pget (fst acc) k = pget m k /\ pget (fst acc) (tilde k) = pget m (tilde k)) ->
      mval (fst acc) + inj (snd acc) = mval m ->
      mval (fst (fold_left (reduce_step m) ks acc)) + inj (snd (fold_left (reduce_step m) ks acc)) = mval m).
    { induction ks as [|k ks IH]; intros acc Hks Hp Ha; cbn [fold_left]; auto. inversion Hks as [|? ? Hk1 Hk2]; subst.
      apply IH; auto; clear IH.
      - intros k' Hk' Hneg'. specialize (Hp k' (or_intror Hk') Hneg'). unfold reduce_step. destruct (is_negated k) eqn:Ek; auto.
        destruct (pget m k) as [pos|] eqn:E1; auto. destruct (pget m (tilde k)) as [neg|] eqn:E2; auto. cbn [fst].
        assert (D1 : String.eqb k' k = false) by (apply String.eqb_neq; intros ->; contradiction).
        assert (D2 : String.eqb k' (tilde k) = false) by (apply String.eqb_neq; intros ->; discriminate).
        assert (D3 : String.eqb (tilde k') k = false) by (apply String.eqb_neq; intros <-; discriminate).
        assert (D4 : String.eqb (tilde k') (tilde k) = false) by (apply String.eqb_neq; intros H; injection H as H; subst k'; contradiction).
        destruct (_ <? _)%Z; rewrite !pget_ins, D1, D2, D3, D4; auto.
      - unfold reduce_step. destruct (is_negated k) eqn:Ek; auto. destruct (Hp k (or_introl eq_refl) Ek) as [P1 P2].
        destruct (pget m k) as [pos|] eqn:E1; auto. destruct (pget m (tilde k)) as [neg|] eqn:E2; auto. cbn [fst snd].
        assert (D : String.eqb (tilde k) k = false) by (apply String.eqb_neq; intros Hd; rewrite <- Hd in Ek; discriminate).
        assert (V : v (tilde k) = 1 - v k) by (apply Hv; congruence).
        rewrite inj_add. rewrite <- Ha. destruct (neg <? pos)%Z eqn:El.
        + apply Z.ltb_lt in El. rewrite Z.min_r by lia.
          erewrite mval_ins_some by (rewrite pget_ins, D; exact P2). erewrite mval_ins_some by exact P1. rewrite inj_sub, inj_0, V. ring.
        + apply Z.ltb_ge in El. rewrite Z.min_l by lia.
          erewrite mval_ins_some by (rewrite pget_ins, D; exact P2). erewrite mval_ins_some by exact P1. rewrite inj_sub, inj_0, V. ring. }
    apply G; auto. cbn [fst snd]. rewrite inj_0. ring.
  Qed.
End V.

(** ** The literals of a pseudo-Boolean inequality, and the conditions under which the rules are sound *)
Definition pb_lits (t : term) : list lit := match pb_ineq t with ROk r => map fst (fst r) | _ => [] end.
Definition pb_coeffs (t : term) : list Z := match pb_ineq t with ROk r => map snd (fst r) | _ => [] end.
(** No literal occurs twice in the sum of [t]. *)
Definition distinct_lits (t : term) : Prop := NoDup (pb_lits t).
(** Two different terms under the literals of [ts] are printed differently, and none is printed with a leading ~. *)
Definition names_ok (show : term -> string) (ts : list term) : Prop :=
  let vars := map snd (flat_map pb_lits ts) in
  (forall a b, In a vars -> In b vars -> show a = show b -> a = b) /\ (forall a, In a vars -> is_negated (show a) = false).
(** every term under the literals of [ts] is 0 or 1 *)
Definition zero_one {I} (E : env I) (ts : list term) : Prop :=
  forall a, In a (map snd (flat_map pb_lits ts)) -> nval E a = o0 \/ nval E a = o1.

Lemma key_inj show ts a b : names_ok show ts -> In a (flat_map pb_lits ts) -> In b (flat_map pb_lits ts) -> key show a = key show b -> a = b.
Proof.
  intros [H1 H2] Ha Hb H. assert (Ha' := in_map snd _ _ Ha). assert (Hb' := in_map snd _ _ Hb).
  destruct a as [na a], b as [nb b]. unfold key in H. cbn [fst snd] in *.
  pose proof (H2 _ Ha') as Na. pose proof (H2 _ Hb') as Nb. destruct na, nb.
  - injection H as H. f_equal. auto.
  - rewrite <- H in Nb. discriminate.
  - rewrite H in Na. discriminate.
  - f_equal. auto.
Qed.

Section S.
  Context {I : interp}.
  Add Field FCP2 : (o_th (iF I)).
  Local Open Scope of_scope.
  Implicit Type E : env I.
  Definition lv E (l : lit) : iF I := if fst l then 1 - nval E (snd l) else nval E (snd l).
  Definition entsum E (l : list (lit * Z)) : iF I := fold_right (fun e acc => inj (snd e) * lv E (fst e) + acc) 0 l.
  Lemma nval_int E t z : as_integer t = Some z -> nval E t = inj z.
  Proof. destruct t as [c| | | | | | |]; try discriminate. destruct c; try discriminate. intros H; injection H as <-. reflexivity. Qed.
  Lemma is_numb_val E t z : is_numb z t = true -> nval E t = inj z.
  Proof.
    unfold is_numb. destruct (as_number t) as [q|] eqn:H; [|discriminate]. intros Hq. apply Qeq_bool_iff in Hq.
    unfold nval. rewrite (as_number_eval E t q H). cbn [num]. erewrite injQ_eq by exact Hq. apply injQ_Z.
  Qed.
  Lemma neg_lit_val E t l : neg_lit t = Some l -> nval E t = 1 - nval E l.
  Proof.
    unfold neg_lit. destruct (op2 OSub t) as [[a b]|] eqn:H; [|discriminate]. destruct (is_numb 1 a) eqn:Hn; [|discriminate]. intros Hl; injection Hl as <-.
    apply op2_some in H. subst t. apply (is_numb_val E) in Hn. unfold nval in *. cbn [eval map eval_op fold_left num]. rewrite Hn, inj_1. reflexivity.
  Qed.
  Lemma nval_mult2 E a b : nval E (TOp OMult [a; b]) = nval E a * nval E b.
  Proof. unfold nval. cbn [eval map eval_op fold_left num]. ring. Qed.
  Lemma nval_add E l : nval E (TOp OAdd l) = fold_right (fun a acc => nval E a + acc) 0 l.
  Proof. unfold nval at 1. cbn [eval eval_op num]. rewrite fold_add. ring. Qed.
  Lemma pb_entry_val E t e : pb_entry t = ROk e -> nval E t = inj (snd e) * lv E (fst e).
  Proof.
    unfold pb_entry. destruct (op2 OMult t) as [[c x]|] eqn:H; [|discriminate]. intros He. apply obind_ok in He. destruct He as [z [Hz He]]. injection He as <-.
    apply op2_some in H. subst t. rewrite nval_mult2. apply ok_or_ok in Hz. rewrite (nval_int E _ _ Hz). cbn [fst snd]. f_equal.
    destruct (neg_lit x) as [l|] eqn:Hl; unfold lv; cbn [fst snd]; [apply neg_lit_val; auto|auto].
  Qed.
  Lemma split_val E t : nval E t = fold_right (fun a acc => nval E a + acc) 0 (split_summation t).
  Proof.
    unfold split_summation. destruct (as_op OAdd t) as [l|] eqn:H; [|cbn [fold_right]; ring]. apply as_op_some in H. subst t. apply nval_add.
  Qed.
  Lemma omap_entry_val E l : forall r, omap pb_entry l = ROk r -> fold_right (fun a acc => nval E a + acc) 0 l = entsum E r.
  Proof.
    intros r H. apply omap_Forall2 in H. induction H as [|a e l r He _ IH]; cbn [entsum fold_right]; [auto|]. rewrite IH, (pb_entry_val E a e He). reflexivity.
  Qed.
  Lemma pb_entries_val E t l : pb_entries t = ROk l -> nval E t = entsum E l.
  Proof.
    intros H. rewrite split_val. unfold pb_entries in H. destruct (split_summation t) as [|a [|b r]]; [apply omap_entry_val; auto| |apply omap_entry_val; auto].
    destruct (as_integer a) as [z|] eqn:Hz; [|apply omap_entry_val; auto]. destruct (z =? 0)%Z eqn:E0; [|discriminate]. injection H as <-.
    apply Z.eqb_eq in E0. subst z. cbn [fold_right entsum]. rewrite (nval_int E _ _ Hz), inj_0. ring.
  Qed.
  Lemma pb_ineq_val E t l k : pb_ineq t = ROk (l, k) -> (holds E t = true <-> inj k <= entsum E l).
  Proof.
    unfold pb_ineq. intros H. apply obind_ok in H. destruct H as [[s z] [H1 H]]. apply obind_ok in H. destruct H as [k' [H2 H]].
    apply obind_ok in H. destruct H as [l' [H3 H]]. injection H as <- <-. apply m_op2_ok in H1. subst t. apply ok_or_ok in H2.
    rewrite <- (pb_entries_val E _ _ H3), <- (nval_int E _ _ H2). unfold holds. cbn [eval map eval_op truth chain fst snd]. rewrite andb_true_r. reflexivity.
  Qed.
  (** the valuation of the keys *)
  Section Names.
    Variable show : term -> string.
    Variable ts : list term.
    Hypothesis Hnames : names_ok show ts.
    Variable E : env I.
    Let L := flat_map pb_lits ts.
    Definition kval (k : string) : iF I := match find (fun l => String.eqb (key show l) k) L with Some l => lv E l | None => 0 end.
    Lemma kval_key l : In l L -> kval (key show l) = lv E l.
    Proof.
      intros Hl. unfold kval. destruct (find _ L) as [l'|] eqn:Hf.
      - apply find_some in Hf. destruct Hf as [Hi Hk]. apply String.eqb_eq in Hk. f_equal. eapply key_inj; eauto.
      - pose proof (find_none _ _ Hf l Hl) as Hc. cbn in Hc. rewrite String.eqb_refl in Hc. discriminate.
    Qed.
    Lemma kval_tilde k : is_negated k = false -> In k (map (key show) L) -> In (tilde k) (map (key show) L) -> kval (tilde k) = 1 - kval k.
    Proof.
      intros Hk H1 H2. apply in_map_iff in H1, H2. destruct H1 as [[n a] [<- Ha]], H2 as [[m b] [Hb Hb']].
      rewrite (kval_key _ Ha). rewrite <- Hb. rewrite (kval_key _ Hb'). destruct n; [discriminate|]. destruct m.
      - cbn [key fst snd] in Hb. injection Hb as Hb. assert (b = a) by (apply (proj1 Hnames); auto; [apply (in_map snd _ _ Hb')|apply (in_map snd _ _ Ha)]).
        subst b. reflexivity.
      - exfalso. pose proof (proj2 Hnames b (in_map snd _ _ Hb')) as Hc. cbn [key fst snd] in Hb. rewrite Hb in Hc. discriminate.
    Qed.
    Lemma unwrap_ok t m k : In t ts -> distinct_lits t -> unwrap_pb show t = ROk (m, k) ->
      (holds E t = true <-> inj k <= mval kval m) /\ NoDup (map fst m) /\ (forall x, In x (map fst m) -> In x (map (key show) L)) /\
      map snd m = pb_coeffs t.
    Proof.
      intros Ht Hd H. unfold unwrap_pb in H. apply obind_ok in H. destruct H as [[l k'] [H1 H]]. injection H as <- <-. cbn [fst snd] in *.
      assert (HL : forall x, In x (map fst l) -> In x L).
      { intros x Hx. apply in_flat_map. exists t. split; auto. unfold pb_lits. rewrite H1. exact Hx. }
      unfold distinct_lits, pb_lits in Hd. rewrite H1 in Hd. cbn [fst] in Hd.
      assert (Hn : NoDup (map (fun e => key show (fst e)) l)).
      { rewrite <- (map_map fst (key show)). clear - HL Hd Hnames. induction (map fst l) as [|a r IH]; cbn [map]; constructor.
        - intros Hi. apply in_map_iff in Hi. destruct Hi as [b [Hb Hi]]. inversion Hd as [|? ? Hd1 Hd2]; subst. apply Hd1.
          rewrite (key_inj show ts a b); auto; apply HL; [left|right]; auto.
        - inversion Hd; subst. apply IH; auto. intros x Hx. apply HL. right. auto. }
      split; [|split; [|split]].
      - rewrite (pb_ineq_val E _ _ _ H1). rewrite (hash_list _ _ Hn). replace (mval kval (map _ l)) with (entsum E l); [tauto|].
        clear - HL Hnames. induction l as [|e l IH]; auto. cbn [map mval entsum fold_right fst snd].
        rewrite kval_key by (apply HL; left; auto). f_equal. apply IH. intros x Hx. apply HL. right. auto.
      - apply hash_nodup.
      - rewrite (hash_list _ _ Hn). rewrite map_map. cbn [fst]. intros x Hx. rewrite <- (map_map fst (key show)) in Hx.
        apply in_map_iff in Hx. destruct Hx as [y [<- Hy]]. apply in_map, HL, Hy.
      - rewrite (hash_list _ _ Hn). rewrite map_map. cbn [snd]. unfold pb_coeffs. rewrite H1. reflexivity.
    Qed.
    Lemma kval_bool k : zero_one E ts -> kval k = 0 \/ kval k = 1.
    Proof.
      intros Hz. unfold kval. destruct (find _ L) as [[n a]|] eqn:Hf; auto. apply find_some in Hf. destruct Hf as [Hi _].
      unfold lv. cbn [fst snd]. destruct (Hz a (in_map snd _ _ Hi)) as [->| ->]; destruct n; auto; [right|left]; ring.
    Qed.
  End Names.
  (** ** sums whose keys are 0 or 1 *)
  Section Bool.
    Variable v : string -> iF I.
    Hypothesis Hv : forall k, v k = 0 \/ v k = 1.
    Definition bitv (k : string) : Z := if oleb (1 : iF I) (v k) then 1%Z else 0%Z.
    Lemma bitv_val k : v k = inj (bitv k) /\ (bitv k = 0 \/ bitv k = 1)%Z.
    Proof.
      unfold bitv. destruct (Hv k) as [H|H]; rewrite H.
      - destruct (oleb 1 (0 : iF I)) eqn:Hl; [|rewrite inj_0; auto]. exfalso. apply (lt_irrefl (iF I) 0). eapply lt_le_trans; [apply zero_lt_one|exact Hl].
      - assert (Hl : oleb 1 (1 : iF I) = true) by apply le_refl. rewrite Hl, inj_1. auto.
    Qed.
    Definition zsum (m : pbhash) : Z := fold_right (fun p acc => (snd p * bitv (fst p) + acc)%Z) 0%Z m.
    Lemma mval_zsum m : mval v m = inj (zsum m).
    Proof.
      induction m as [|[k c] m IH]; cbn [mval zsum fold_right fst snd]; [symmetry; apply inj_0|]. fold (mval v m) (zsum m).
      rewrite IH, (proj1 (bitv_val k)), inj_add, inj_mul. reflexivity.
    Qed.
    Lemma zsum_super (P : Z -> Prop) (f : Z -> Z) m : P 0%Z -> (forall a b, P a -> P b -> P (a + b)%Z) -> f 0%Z = 0%Z ->
      (forall a b, P a -> P b -> (f (a + b) <= f a + f b)%Z) -> (forall c, In c (map snd m) -> P c) ->
      P (zsum m) /\ (f (zsum m) <= zsum (map (fun p => (fst p, f (snd p))) m))%Z.
    Proof.
      intros P0 Pa f0 fa. induction m as [|[k c] m IH]; intros Hm; cbn [map zsum fold_right fst snd]; [split; auto; rewrite f0; lia|].
      fold (zsum m) (zsum (map (fun p => (fst p, f (snd p))) m)). destruct IH as [H1 H2]; [intros x Hx; apply Hm; right; auto|].
      assert (Hc : P c) by (apply Hm; left; auto). destruct (proj2 (bitv_val k)) as [Hb|Hb]; rewrite Hb.
      - rewrite !Z.mul_0_r, !Z.add_0_l. auto.
      - rewrite !Z.mul_1_r. split; auto. pose proof (fa c (zsum m) Hc H1). lia.
    Qed.
  End Bool.
  Lemma mval_map_scale (v : string -> iF I) s m : mval v (map (fun p => (fst p, (s * snd p)%Z)) m) = inj s * mval v m.
  Proof.
    induction m as [|[k c] m IH]; cbn [map mval fold_right fst snd]; [ring|]. fold (mval v m) (mval v (map (fun p => (fst p, (s * snd p)%Z)) m)).
    rewrite IH, inj_mul. ring.
  Qed.
End S.
Lemma cof_map f (m : pbhash) k : f 0 = 0 -> cof (map (fun p => (fst p, f (snd p))) m) k = f (cof m k).
Proof.
  intros Hf. unfold cof, pget. induction m as [|[a b] m IH]; cbn [map im_get fst snd]; auto. destruct (String.eqb k a); auto.
Qed.
Lemma map_keys f (m : pbhash) : map fst (map (fun p => (fst p, f (snd p) : Z)) m) = map fst m.
Proof. rewrite map_map. cbn [fst]. reflexivity. Qed.
(** the division *)
Lemma cp_div_spec d x : 0 < d ->
  (0 <= x + d - 1 /\ d * cp_div d x <= x + d - 1 < d * cp_div d x + d) \/ (x + d - 1 < 0 /\ d * cp_div d x - d < x + d - 1 <= d * cp_div d x).
Proof.
  intros Hd. unfold cp_div. pose proof (Z.quot_rem' (x + d - 1) d) as H. set (q := Z.quot (x + d - 1) d) in *. set (r := Z.rem (x + d - 1) d) in *.
  destruct (Z.le_gt_cases 0 (x + d - 1)) as [Hn|Hn]; [left|right]; split; auto.
  - pose proof (Z.rem_bound_pos (x + d - 1) d Hn Hd). fold r in H0. lia.
  - assert (- d < r <= 0) by (apply Z.rem_bound_pos_neg; lia). lia.
Qed.
Lemma cp_div_0 d : 0 < d -> cp_div d 0 = 0.
Proof. intros H. unfold cp_div. apply Z.quot_small. lia. Qed.
Lemma cp_div_mono d a b : 0 < d -> a <= b -> cp_div d a <= cp_div d b.
Proof.
  intros Hd H. unfold cp_div. apply Z.quot_le_mono; lia.
Qed.
Lemma cp_div_super d a b : 0 < d -> cp_div d (a + b) <= cp_div d a + cp_div d b.
Proof.
  intros Hd. pose proof (cp_div_spec d a Hd). pose proof (cp_div_spec d b Hd). pose proof (cp_div_spec d (a + b) Hd).
  assert (S : forall x, (0 <= x + d - 1 -> 0 <= cp_div d x) /\ (x + d - 1 < 0 -> cp_div d x <= 0)).
  { intros x. pose proof (cp_div_spec d x Hd). split; intros; nia. }
  pose proof (S a). pose proof (S b). pose proof (S (a + b)). clear S.
  generalize dependent (cp_div d a). generalize dependent (cp_div d b). generalize dependent (cp_div d (a + b)). intros fc H3 H4 fb H5 H6 fa H7 H8.
  destruct (Z.le_gt_cases 0 (a + d - 1)), (Z.le_gt_cases 0 (b + d - 1)), (Z.le_gt_cases 0 (a + b + d - 1));
    try (assert (d * fc < d * (fa + fb + 1)) by (rewrite !Z.mul_add_distr_l; lia); nia).
Qed.

(** ** The rules *)
Ltac unpack := repeat match goal with
  | H : obind _ _ = ROk _ |- _ => let x := fresh "x" in let Hx := fresh "Hx" in apply obind_ok in H; destruct H as [x [Hx H]]
  | H : rassert _ = ROk _ |- _ => apply rassert_ok in H
  end.
(** the terms of a step *)
Definition cp_terms (c : clause) (ps : list clause) : list term := (c ++ List.concat ps)%list.
Lemma len_is1 {A} (l : list A) u : len_is l 1 = ROk u -> exists a, l = [a].
Proof. intros H. apply len_is_ok in H. destruct l as [|a [|]]; try discriminate. eauto. Qed.
Lemma idx0 {A} (l : list A) a : idx l 0 = ROk a -> exists r, l = a :: r.
Proof. unfold idx. destruct l; [discriminate|]. cbn. intros H; injection H as <-. eauto. Qed.

Lemma cp_addition_sound show c ps args : r_cp_addition show c ps args = ROk tt ->
  names_ok show (cp_terms c ps) -> (forall t, In t (cp_terms c ps) -> distinct_lits t) ->
  (forall t, In t c -> ~ In 0 (pb_coeffs t)) -> entails ps c.
Proof.
  intros H Hn Hd Hz. unfold r_cp_addition in H. ostepn H xl H1. apply len_is_ok in H1. destruct ps as [|p0 [|p1 [|]]]; try discriminate. clear H1 xl.
  ostepn H xp0 H1. injection H1 as <-. ostepn H xl1 H1. apply len_is1 in H1. destruct H1 as [l ->]. ostepn H xl H1. injection H1 as <-.
  ostepn H xp1 H1. injection H1 as <-. ostepn H xl2 H1. apply len_is1 in H1. destruct H1 as [r ->]. ostepn H yr H1. injection H1 as <-.
  ostepn H xa H1. clear H1. ostepn H xc H1. apply len_is1 in H1. destruct H1 as [g ->]. ostepn H xg H1. injection H1 as <-.
  ostepn H ml Hl. ostepn H mr Hr. ostepn H mc Hc. destruct ml as [ml kl], mr as [mr kr], mc as [mc kc]. cbn [fst snd] in H.
  ostepn H xs Hk. apply rassert_ok, Z.eqb_eq in Hk. ostepn H xk Hkeys. ostepn H xf Hf. clear H. intros I E HE Hp.
  unfold cp_terms in *. cbn [List.concat app] in *.
  destruct (unwrap_ok show _ Hn E g mc kc) as [Vg [Ng [Kg Cg]]]; try (apply Hd; cbn; tauto); try (cbn; tauto); auto.
  destruct (unwrap_ok show _ Hn E l ml kl) as [Vl [Nl [Kl _]]]; try (apply Hd; cbn; tauto); try (cbn; tauto); auto.
  destruct (unwrap_ok show _ Hn E r mr kr) as [Vr [Nr [Kr _]]]; try (apply Hd; cbn; tauto); try (cbn; tauto); auto.
  set (v := kval show [g; l; r] E) in *. set (m := add_pbsums ml mr) in *.
  assert (Hl' : holds E l = true) by (apply one_holds, Hp; cbn; auto). assert (Hr' : holds E r = true) by (apply one_holds, Hp; cbn; auto).
  apply one_holds. apply Vg. apply Vl in Hl'. apply Vr in Hr'. clear Vg Vl Vr.
  assert (Nm : NoDup (map fst m)) by (apply add_nodup; auto).
  assert (Km : forall k, pget m k <> None -> In k (map (key show) (flat_map pb_lits [g; l; r]))).
  { intros k. unfold m, add_pbsums. clear - Kl Kr. revert ml Kl. induction mr as [|[a b] mr IH]; intros ml Kl; cbn [fold_left fst snd].
    - intros H. destruct (pget ml k) eqn:E1; [|congruence]. apply Kl. eapply pget_key; eauto.
    - apply IH; [intros x Hx; apply Kr; right; auto|]. intros x Hx. unfold pins in Hx. rewrite im_insert_keys in Hx.
      destruct (existsb _ _); [auto|]. apply in_app_iff in Hx. destruct Hx as [Hx|[<-|[]]]; [auto|apply Kr; left; auto]. }
  assert (Vm : (mval v (fst (reduce_pbsum m)) + inj (snd (reduce_pbsum m)) = mval v m)%of).
  { apply mval_reduce; auto. intros k Hk1 Hk2 Hk3. apply kval_tilde; auto. }
  unfold m in Vm at 3. rewrite mval_add in Vm.
  assert (Hcof : forall k, cof (fst (reduce_pbsum m)) k = cof mc k).
  { intros k. unfold same_keys in Hkeys. ostepn Hkeys xx Ha. pose proof (subset_keys_ok _ _ _ Ha (reduce_nodup m Nm) k) as A.
    pose proof (subset_keys_ok _ _ _ Hkeys Ng k) as B. unfold cof. destruct (pget mc k) as [y|] eqn:Ey.
    - assert (Hy : In (k, y) mc) by (apply (pget_In mc k y Ng); auto). destruct (ofor_ok _ _ _ Hf _ Hy) as [z Hz']. cbn [fst snd] in Hz'.
      destruct (y =? 0) eqn:E0.
      + apply Z.eqb_eq in E0. subst y. exfalso. apply (Hz g); [left; auto|]. rewrite <- Cg. apply (in_map snd _ _ Hy).
      + destruct (pget (fst (reduce_pbsum m)) k) as [x|]; [|discriminate]. apply rassert_ok, Z.eqb_eq in Hz'. auto.
    - destruct (pget (fst (reduce_pbsum m)) k) as [x|] eqn:Ex; auto. destruct (Z.eq_dec x 0); auto. destruct (A x eq_refl n); discriminate. }
  rewrite (mval_cof v _ _ (reduce_nodup m Nm) Ng Hcof) in Vm.
  apply (add_le_cancel_r _ _ _ (inj (snd (reduce_pbsum m)))). rewrite Vm, <- inj_add, <- Hk, inj_add. apply add_le; auto.
Qed.

Lemma cp_multiplication_sound show c ps args : r_cp_multiplication show c ps args = ROk tt ->
  names_ok show (cp_terms c ps) -> (forall t, In t (cp_terms c ps) -> distinct_lits t) ->
  (forall a s, In a args -> as_integer a = Some s -> 0 <= s) -> entails ps c.
Proof.
  intros H Hn Hd Hs. unfold r_cp_multiplication in H. ostepn H xl H1. apply len_is1 in H1. destruct H1 as [p0 ->].
  ostepn H xp0 H1. injection H1 as <-. ostepn H xl1 H1. apply len_is1 in H1. destruct H1 as [p ->]. ostepn H xl2 H1. injection H1 as <-.
  ostepn H xa H1. apply len_is1 in H1. destruct H1 as [a ->]. ostepn H xa2 H1. injection H1 as <-. ostepn H s H1. apply ok_or_ok in H1.
  specialize (Hs a s (or_introl eq_refl) H1). ostepn H xc H2. apply len_is1 in H2. destruct H2 as [g ->]. ostepn H xg H2. injection H2 as <-.
  ostepn H mp Hp. ostepn H mc Hc. destruct mp as [mp kp], mc as [mc kc]. cbn [fst snd] in H.
  ostepn H xs Hk. apply rassert_ok, Z.eqb_eq in Hk. ostepn H xk Hkeys. intros I E HE Hprem.
  unfold cp_terms in *. cbn [List.concat app] in *.
  destruct (unwrap_ok show _ Hn E g mc kc) as [Vg [Ng [Kg Cg]]]; try (apply Hd; cbn; tauto); try (cbn; tauto); auto.
  destruct (unwrap_ok show _ Hn E p mp kp) as [Vp [Np [Kp _]]]; try (apply Hd; cbn; tauto); try (cbn; tauto); auto.
  set (v := kval show [g; p] E) in *.
  assert (Hp' : holds E p = true) by (apply one_holds, Hprem; cbn; auto). apply one_holds. apply Vg. apply Vp in Hp'.
  pose proof (same_and_match (fun x => s * x) _ _ _ _ (Z.mul_0_r s) Hkeys H Np Ng) as Hcof.
  rewrite (mval_cof v mc (map (fun p => (fst p, s * snd p)) mp) Ng); [|rewrite (map_keys (fun x => s * x)); auto|].
  - rewrite mval_map_scale. rewrite <- Hk, inj_mul. apply mul_le_l; auto. apply inj_nonneg. exact Hs.
  - intros k. rewrite Hcof. symmetry. apply (cof_map (fun x => s * x)). lia.
Qed.

(** the two rules that round coefficients *)
Lemma cp_round_sound show (f : Z -> Z) (P : Z -> Prop) g p mp kp mc kc u u' : forall (I : interp) (E : env I),
  names_ok show [g; p] -> distinct_lits g -> distinct_lits p -> zero_one E [g; p] ->
  unwrap_pb show p = ROk (mp, kp) -> unwrap_pb show g = ROk (mc, kc) -> f kp = kc ->
  same_keys mp mc = ROk u -> match_coeffs f mp mc = ROk u' ->
  P 0 -> (forall a b, P a -> P b -> P (a + b)) -> f 0 = 0 -> (forall a b, P a -> P b -> f (a + b) <= f a + f b) ->
  (forall z, kp <= z -> f kp <= f z) -> (forall x, In x (pb_coeffs p) -> P x) -> holds E p = true -> holds E g = true.
Proof.
  intros I E Hn Hdg Hdp Hz Hp Hc Hk Hkeys Hm P0 Pa f0 fa fm HP Hp'.
  destruct (unwrap_ok show _ Hn E g mc kc) as [Vg [Ng [Kg Cg]]]; try (apply Hd; cbn; tauto); try (cbn; tauto); auto.
  destruct (unwrap_ok show _ Hn E p mp kp) as [Vp [Np [Kp Cp]]]; try (apply Hd; cbn; tauto); try (cbn; tauto); auto.
  set (v := kval show [g; p] E) in *. apply Vg. apply Vp in Hp'.
  pose proof (same_and_match f _ _ _ _ f0 Hkeys Hm Np Ng) as Hcof.
  assert (Hv : forall k, v k = o0 \/ v k = o1) by (intros k; apply kval_bool; auto).
  rewrite (mval_cof v mc (map (fun p => (fst p, f (snd p))) mp) Ng); [|rewrite (map_keys f); auto|intros k; rewrite Hcof; symmetry; apply (cof_map f); auto].
  rewrite (mval_zsum v Hv) in *. apply inj_le in Hp'. apply inj_le.
  destruct (zsum_super v Hv P f mp P0 Pa f0 fa) as [_ Hsum]; [rewrite Cp; exact HP|]. specialize (fm _ Hp'). lia.
Qed.
Lemma cp_division_sound show c ps args : r_cp_division show c ps args = ROk tt ->
  names_ok show (cp_terms c ps) -> (forall t, In t (cp_terms c ps) -> distinct_lits t) -> (forall p, In p ps -> List.length p = 1%nat) ->
  forall (I : interp) (E : env I), zero_one E (cp_terms c ps) -> (forall p, In p ps -> clause_holds E p) -> clause_holds E c.
Proof.
  intros H Hn Hd Hlen I E Hz Hprem. unfold r_cp_division in H. ostepn H xl H1. apply len_is1 in H1. destruct H1 as [p0 ->].
  ostepn H xp0 H1. injection H1 as <-. pose proof (Hlen p0 (or_introl eq_refl)) as Hl0. destruct p0 as [|p [|]]; try discriminate.
  ostepn H xl2 H1. injection H1 as <-.
  ostepn H xa H1. apply len_is1 in H1. destruct H1 as [a ->]. ostepn H xa2 H1. injection H1 as <-. ostepn H d H1. apply ok_or_ok in H1.
  ostepn H xd Hpos. apply rassert_ok, Z.ltb_lt in Hpos. ostepn H xc H2. apply len_is1 in H2. destruct H2 as [g ->]. ostepn H xg H2. injection H2 as <-.
  ostepn H mp Hp. ostepn H mc Hc. destruct mp as [mp kp], mc as [mc kc]. cbn [fst snd] in H.
  ostepn H xs Hk. apply rassert_ok, Z.eqb_eq in Hk. ostepn H xk Hkeys. apply one_holds.
  apply (cp_round_sound show (cp_div d) (fun _ => True) g p mp kp mc kc xk tt); auto; try (apply Hd; cbn; tauto).
  - apply cp_div_0; auto.
  - intros; apply cp_div_super; auto.
  - intros; apply cp_div_mono; auto.
  - apply one_holds. apply Hprem. left. auto.
Qed.
Lemma cp_saturation_sound show c ps args : r_cp_saturation show c ps args = ROk tt ->
  names_ok show (cp_terms c ps) -> (forall t, In t (cp_terms c ps) -> distinct_lits t) -> (forall p, In p ps -> List.length p = 1%nat) ->
  (forall p t, In p ps -> In t p -> forall l k, pb_ineq t = ROk (l, k) -> 0 <= k /\ forall e, In e l -> 0 <= snd e) ->
  forall (I : interp) (E : env I), zero_one E (cp_terms c ps) -> (forall p, In p ps -> clause_holds E p) -> clause_holds E c.
Proof.
  intros H Hn Hd Hlen Hpos I E Hz Hprem. unfold r_cp_saturation in H. ostepn H xl H1. apply len_is1 in H1. destruct H1 as [p0 ->].
  ostepn H xl0 H1. clear H1. ostepn H xp0 H1. injection H1 as <-. pose proof (Hlen p0 (or_introl eq_refl)) as Hl0. destruct p0 as [|p [|]]; try discriminate.
  ostepn H xl2 H1. injection H1 as <-. ostepn H xc H2. apply len_is1 in H2. destruct H2 as [g ->]. ostepn H xg H2. injection H2 as <-.
  ostepn H mp Hp. ostepn H mc Hc. destruct mp as [mp kp], mc as [mc kc]. cbn [fst snd] in H.
  ostepn H xs Hk. apply rassert_ok, Z.eqb_eq in Hk. ostepn H xk Hkeys. apply one_holds.
  assert (Hq : exists l, pb_ineq p = ROk (l, kp)).
  { unfold unwrap_pb in Hp. ostepn Hp r Hr. destruct r as [l k]. injection Hp as _ <-. eauto. }
  destruct Hq as [l Hl]. destruct (Hpos [p] p (or_introl eq_refl) (or_introl eq_refl) l kp Hl) as [Hkp Hco].
  apply (cp_round_sound show (Z.min kp) (fun z => 0 <= z) g p mp kp mc kc xk tt); auto; try (apply Hd; cbn; tauto); try lia.
  - intros x Hx. unfold pb_coeffs in Hx. rewrite Hl in Hx. cbn [fst] in Hx. apply in_map_iff in Hx. destruct Hx as [e [<- He]]. auto.
  - apply one_holds. apply Hprem. left. auto.
Qed.

(** ** cp_literal: the conclusion says that the argument is not negative *)
Lemma cp_literal_sound c ps args : r_cp_literal c ps args = ROk tt ->
  forall (I : interp) (E : env I), (forall a, In a args -> (o0 <= nval E a)%of) -> clause_holds E c.
Proof.
  intros H I E Ha. unfold r_cp_literal in H. ostepn H xl H1. apply len_is1 in H1. destruct H1 as [a ->]. ostepn H xa H1. injection H1 as <-.
  ostepn H g H1. apply idx0 in H1. destruct H1 as [r ->]. specialize (Ha a (or_introl eq_refl)).
  exists g. split; [left; auto|]. destruct (op2 OGe g) as [[s z]|] eqn:Hg; [|discriminate]. apply op2_some in Hg. subst g.
  destruct (is_numb 0 z) eqn:Hz; [|discriminate]. apply (is_numb_val E) in Hz.
  assert (G : nval E s = nval E a -> holds E (TOp OGe [s; z]) = true).
  { intros Hs. unfold holds. cbn [eval map eval_op truth chain]. rewrite andb_true_r. fold (nval E z) (nval E s). rewrite Hz, Hs, inj_0. exact Ha. }
  assert (N : forall l, nval E (t_neg l) = (o1 - nval E l)%of).
  { intros l. unfold nval, t_neg. cbn [eval map eval_op fold_left num]. reflexivity. }
  apply G. destruct (op2 OMult s) as [[co x]|] eqn:Hs.
  - apply op2_some in Hs. subst s. ostepn H k H1. ostepn H xk H2. apply rassert_ok, Z.eqb_eq in H2. subst k. apply ok_or_ok in H1.
    rewrite nval_mult2, (nval_int E _ _ H1), inj_1, omul_1_l. destruct (neg_lit x) as [l|] eqn:Hl; apply teq_ok in H; subst a; auto.
    rewrite N. apply neg_lit_val. auto.
  - destruct (neg_lit s) as [l|] eqn:Hl; apply teq_ok in H; subst a; auto. rewrite N. apply neg_lit_val. auto.
Qed.

(** ** cp_normalize *)
(** no unary minus where the sum is flattened *)
Fixpoint sub_ok (t : term) : bool :=
  match t with
  | TOp OAdd args => forallb sub_ok args
  | TOp OSub args => (2 <=? List.length args)%nat && forallb sub_ok args
  | _ => true
  end.
(** no product of a coefficient and (- 1 (- 1 l)) in a normalised sum *)
Definition no_dneg (t : term) : bool :=
  match op2 OGe t with
  | Some (s, _) =>
      match collect_addition s with
      | ROk l => forallb (fun x => negb (ct_neg x && match neg_lit (ct_var x) with Some _ => true | None => false end)) l
      | _ => true
      end
  | None => true
  end.
Definition cp_norm_ok (c : clause) (_ : list clause) (_ : list term) : bool :=
  match c with
  | [TOp OEquals [TOp o [a; b]; n]] =>
      sub_ok a && sub_ok b &&
      (match o with OGt | OLt => int_atom a && int_atom b | _ => num_term a && num_term b end) &&
      (match n with TOp OAnd l => forallb no_dneg l | _ => no_dneg n end)
  | _ => false
  end.

Section N.
  Context {I : interp}.
  Add Field FCP3 : (o_th (iF I)).
  Local Open Scope of_scope.
  Implicit Type E : env I.
  Definition cval E (x : ctv) : iF I := inj (ct_coeff x) * (if ct_neg x then 1 - nval E (ct_var x) else nval E (ct_var x)).
  Definition csum E (l : list ctv) : iF I := fold_right (fun x acc => cval E x + acc) 0 l.
  Lemma csum_nil E : csum E [] = 0. Proof. reflexivity. Qed.
  Lemma csum_cons E a l : csum E (a :: l) = cval E a + csum E l. Proof. reflexivity. Qed.
  Lemma csum_app E l r : csum E (l ++ r)%list = csum E l + csum E r.
  Proof. induction l as [|a l IH]; cbn [app]; rewrite ?csum_nil, ?csum_cons; [ring|]. rewrite IH. ring. Qed.
  Lemma csum_neg E l : csum E (negate_sum l) = - csum E l.
  Proof.
    induction l as [|a l IH]; cbn [negate_sum map]; rewrite ?csum_nil, ?csum_cons; [ring|]. fold (negate_sum l). rewrite IH.
    unfold cval, negate_ctv. cbn [ct_coeff ct_var ct_neg]. rewrite inj_opp. ring.
  Qed.
  Lemma term_to_ctv_val E t : nval E t = match term_to_ctv t with inl x => cval E x | inr k => inj k end.
  Proof.
    assert (G : forall c v, (match neg_lit v with Some l => mkCtv c l true | None => mkCtv c v false end) = match neg_lit v with Some l => mkCtv c l true | None => mkCtv c v false end ->
      cval E (match neg_lit v with Some l => mkCtv c l true | None => mkCtv c v false end) = inj c * nval E v).
    { intros c v _. destruct (neg_lit v) as [l|] eqn:Hl; unfold cval; cbn [ct_coeff ct_neg ct_var]; auto. rewrite (neg_lit_val E _ _ Hl). auto. }
    unfold term_to_ctv. destruct (op2 OMult t) as [[l r]|] eqn:H; [|rewrite G by auto; rewrite inj_1; ring].
    apply op2_some in H. subst t. destruct (as_integer l) as [a|] eqn:Ha, (as_integer r) as [b|] eqn:Hb.
    - rewrite nval_mult2, (nval_int E _ _ Ha), (nval_int E _ _ Hb), inj_mul. auto.
    - rewrite G by auto. rewrite nval_mult2, (nval_int E _ _ Ha). auto.
    - rewrite G by auto. rewrite nval_mult2, (nval_int E _ _ Hb). ring.
    - rewrite G by auto. rewrite inj_1. ring.
  Qed.
  Lemma collect_val E t l : collect_addition t = ROk l -> nval E t = csum E l.
  Proof.
    intros H. rewrite split_val. unfold collect_addition in H. apply omap_Forall2 in H. induction H as [|a x r l Hx _ IH]; [auto|].
    cbn [fold_right]. rewrite csum_cons, IH, (term_to_ctv_val E a). destruct (term_to_ctv a) as [y|k]; [|discriminate]. injection Hx as <-. auto.
  Qed.
  Definition flat_list : list term -> outcome (list ctv * Z) :=
    fix acc (l : list term) : outcome (list ctv * Z) :=
    match l with
    | [] => ROk ([], 0%Z)
    | a :: r => do x <- flatten a ; do y <- acc r ; ROk ((fst x ++ fst y)%list, (snd x + snd y)%Z)
    end.
  Lemma flat_list_val E l : Forall (fun a => sub_ok a = true -> forall v k, flatten a = ROk (v, k) -> nval E a = csum E v + inj k) l ->
    forallb sub_ok l = true -> forall v k, flat_list l = ROk (v, k) -> fold_right (fun a acc => nval E a + acc) 0 l = csum E v + inj k.
  Proof.
    induction 1 as [|a l Ha Hl IH]; cbn [forallb flat_list fold_right]; intros Hs v k H.
    - injection H as <- <-. rewrite csum_nil, inj_0. ring.
    - apply andb_true_iff in Hs. destruct Hs as [Hs1 Hs2]. ostepn H x Hx. ostepn H y Hy. injection H as <- <-. destruct x as [vx kx], y as [vy ky]. cbn [fst snd].
      rewrite (Ha Hs1 _ _ Hx), (IH Hs2 _ _ Hy), csum_app, inj_add. ring.
  Qed.
  Lemma flatten_other E t v k : (match term_to_ctv t with inl x => ROk ([x], 0%Z) | inr k => ROk ([], k) end) = ROk (v, k) -> nval E t = csum E v + inj k.
  Proof.
    intros H. rewrite (term_to_ctv_val E t). destruct (term_to_ctv t); injection H as <- <-; rewrite ?csum_cons, ?csum_nil, ?inj_0; ring.
  Qed.
  Lemma flatten_val E t : sub_ok t = true -> forall v k, flatten t = ROk (v, k) -> nval E t = csum E v + inj k.
  Proof.
    induction t as [c|x s|f args ? ?|o args IH|s|b vs body ?|bs body ? ?|o oargs args ? ?] using term_ind'; intros Hs v k Hfl;
      try (apply flatten_other; exact Hfl).
    - destruct c; try (apply flatten_other; exact Hfl). cbn [flatten] in Hfl. injection Hfl as <- <-. rewrite csum_nil. unfold nval. cbn [eval]. unfold vint, eval_const. cbn. ring.
    - destruct o; try (apply flatten_other; exact Hfl).
      + cbn [sub_ok] in Hs. rewrite nval_add. eapply flat_list_val; eauto.
      + cbn [sub_ok] in Hs. apply andb_true_iff in Hs. destruct Hs as [Hn Hs]. destruct args as [|a [|b r]]; try discriminate.
        assert (Hf : (do x <- flatten a ; do y <- flat_list (b :: r) ; ROk ((fst x ++ negate_sum (fst y))%list, (snd x - snd y)%Z)) = ROk (v, k)) by exact Hfl.
        clear Hfl. inversion IH as [|? ? Ha Hr]; subst. cbn [forallb] in Hs. apply andb_true_iff in Hs. destruct Hs as [Hs1 Hs2].
        ostepn Hf x Hx. ostepn Hf y Hy. injection Hf as <- <-. destruct x as [vx kx], y as [vy ky]. cbn [fst snd].
        pose proof (flat_list_val E (b :: r) Hr Hs2 _ _ Hy) as HL. rewrite csum_app, csum_neg, inj_sub.
        change (nval E (TOp OSub (a :: b :: r))) with (fold_left osub (map num (map (fun a => eval a E) (b :: r))) (nval E a)).
        rewrite fold_sub. rewrite (Ha Hs1 _ _ Hx), HL. ring.
  Qed.
  Lemma push_val E l : forall k, csum E (fst (push_negation l k)) - inj (snd (push_negation l k)) = csum E l - inj k.
  Proof.
    unfold push_negation. cbn [fst snd]. induction l as [|x l IH]; intros k; cbn [map fold_left]; rewrite ?csum_cons; [auto|].
    set (k1 := if (0 <=? ct_coeff x)%Z then k else (k - ct_coeff x)%Z). specialize (IH k1).
    transitivity (cval E (push_one x) + (csum E l - inj k1)); [rewrite <- IH; ring|]. unfold push_one, k1, cval. destruct (0 <=? ct_coeff x)%Z; [ring|].
    cbn [ct_coeff ct_neg ct_var]. rewrite inj_sub, inj_opp. destruct (ct_neg x); cbn [negb]; ring.
  Qed.
  Lemma ctv_eqb_val E a b : ctv_eqb a b = true -> negb (ct_neg b && match neg_lit (ct_var b) with Some _ => true | None => false end) = true -> cval E a = cval E b.
  Proof.
    unfold ctv_eqb, cval. destruct (ct_coeff a =? ct_coeff b)%Z eqn:Hc; [|discriminate]. apply Z.eqb_eq in Hc. rewrite Hc. cbn [negb].
    destruct (term_eqb (ct_var a) (ct_var b)) eqn:Ht.
    - apply term_eqb_eq in Ht. rewrite Ht. intros H _. apply Bool.eqb_prop in H. rewrite H. auto.
    - destruct (ct_neg a).
      + destruct (neg_lit (ct_var b)) as [l|] eqn:Hl; [|discriminate]. intros H H2. apply term_eqb_eq in H. subst l. rewrite andb_true_r in H2. apply negb_true_iff in H2.
        rewrite H2. rewrite (neg_lit_val E _ _ Hl). auto.
      + destruct (ct_neg b); [|discriminate]. intros H _. destruct (neg_lit (ct_var a)) as [l|] eqn:Hl; [|discriminate]. apply term_eqb_eq in H. subst l.
        rewrite (neg_lit_val E _ _ Hl). auto.
  Qed.
  Lemma check_pb_val E l k r k' u : check_pb l k r k' = ROk u ->
    forallb (fun x => negb (ct_neg x && match neg_lit (ct_var x) with Some _ => true | None => false end)) r = true -> csum E l = csum E r /\ k = k'.
  Proof.
    unfold check_pb. intros H Hr. ostepn H x1 H1. ostepn H x2 H2. apply rassert_ok in H1, H. apply Z.eqb_eq in H. apply Nat.eqb_eq in H1. split; auto. clear H.
    revert r H1 H2 Hr. induction l as [|a l IH]; intros [|b r] H1 H2 Hr; try discriminate; auto. cbn [combine ofor] in H2. cbn [forallb] in Hr. apply andb_true_iff in Hr. destruct Hr as [Hr1 Hr2].
    rewrite !csum_cons. f_equal.
    - apply ctv_eqb_val; auto. destruct (ofor_ok _ ((a, b) :: combine l r) _ H2 (a, b) (or_introl eq_refl)) as [y Hy]. apply rassert_ok in Hy. exact Hy.
    - ostepn H2 y Hy. eapply IH; eauto.
  Qed.
  Lemma norm_side_val E vs k g u : norm_side vs k g = ROk u -> no_dneg g = true -> (holds E g = true <-> inj k <= csum E vs).
  Proof.
    unfold norm_side. intros H Hd. ostepn H sk H1. destruct sk as [s z]. apply m_op2_ok in H1. subst g. cbn [fst snd] in H.
    pose proof (push_val E vs k) as HP. destruct (push_negation vs k) as [g kg]. ostepn H l Hl. ostepn H k' Hk. cbn [fst snd] in *. apply ok_or_ok in Hk.
    change (no_dneg (TOp OGe [s; z])) with (match collect_addition s with
      | ROk l => forallb (fun x => negb (ct_neg x && match neg_lit (ct_var x) with Some _ => true | None => false end)) l
      | _ => true end) in Hd.
    rewrite Hl in Hd. destruct (check_pb_val E _ _ _ _ _ H Hd) as [HC ->]. unfold holds. cbn [eval map eval_op truth chain]. rewrite andb_true_r.
    fold (nval E z) (nval E s). rewrite (nval_int E _ _ Hk), (collect_val E _ _ Hl), <- HC. change (oleb (inj k') (csum E g) = true) with (inj k' <= csum E g).
    rewrite le_sub, (le_sub _ (inj k)), HP. tauto.
  Qed.
End N.
Section NS.
Context {I : interp}.
Add Field FCP4 : (o_th (iF I)).
Lemma cp_normalize_holds c ps args : r_cp_normalize c ps args = ROk tt -> cp_norm_ok c ps args = true -> clause_wt c = true ->
  forall E : env I, env_ok E -> clause_holds E c.
Proof.
  intros H Hok Hwt E HE. unfold r_cp_normalize in H. ostepn H xl H1. apply len_is1 in H1. destruct H1 as [c0 ->]. ostepn H xc H1. injection H1 as <-.
  ostepn H gn H1. destruct gn as [r n]. apply m_op2_ok in H1. subst c0. cbn [fst snd] in H. ostepn H rel H1.
  assert (Hr : exists o a b, rel = (o, a, b) /\ r = TOp o [a; b] /\ (o = OEquals \/ o = OGt \/ o = OLt \/ o = OGe \/ o = OLe)).
  { unfold match_relation in H1. destruct r as [| | |o l| | | |]; try discriminate. destruct l as [|a [|b [|]]]; try discriminate.
    exists o, a, b. destruct o; try discriminate; injection H1 as <-; repeat split; tauto. }
  destruct Hr as [o [a [b [-> [-> Ho]]]]]. clear H1. ostepn H la Ha. ostepn H lb Hb. destruct la as [la ka], lb as [lb kb]. cbn [fst snd] in H.
  assert (Hok' : sub_ok a && sub_ok b && (match o with OGt | OLt => int_atom a && int_atom b | _ => num_term a && num_term b end) &&
      (match n with TOp OAnd l => forallb no_dneg l | _ => no_dneg n end) = true) by exact Hok. clear Hok.
  apply andb_true_iff in Hok'. destruct Hok' as [Hok Hdn]. apply andb_true_iff in Hok. destruct Hok as [Hok Hsort]. apply andb_true_iff in Hok. destruct Hok as [Hsa Hsb].
  pose proof (flatten_val E a Hsa _ _ Ha) as Va. pose proof (flatten_val E b Hsb _ _ Hb) as Vb.
  set (vs := (la ++ negate_sum lb)%list) in *. set (k := kb - ka) in *.
  assert (Vs : (csum E vs - inj k = nval E a - nval E b)%of).
  { unfold vs, k. rewrite csum_app, csum_neg, inj_sub, Va, Vb. ring. }
  apply clause_wt_one in Hwt. pose proof (bool_term_wt _ Hwt) as Hw. change (wt (tEq (TOp o [a; b]) n) = true) in Hw. destruct (eq_args_wt _ _ Hw) as [Wr [Wn Ws]].
  assert (Hbr : bool_term (TOp o [a; b]) = true).
  { unfold bool_term. rewrite Wr. destruct Ho as [-> |[-> |[-> |[-> | -> ]]]]; reflexivity. }
  assert (Hbn : bool_term n = true) by (unfold bool_term in *; rewrite Wn, <- Ws; apply andb_true_iff in Hbr; destruct Hbr as [_ ->]; auto).
  apply one_holds. change (holds E (tEq (TOp o [a; b]) n) = true). rewrite holds_eq_bool by auto.
  enough (G : holds E (TOp o [a; b]) = true <-> holds E n = true).
  { destruct (holds E (TOp o [a; b])), (holds E n); auto; destruct G as [G1 G2]; [discriminate G1|discriminate G2]; auto. }
  assert (Hn1 : o <> OEquals -> no_dneg n = true).
  { intros Hne. destruct n as [| | |on l| | | |]; auto. destruct on; auto. }
  assert (Ints : int_atom a && int_atom b = true -> exists za zb, nval E a = inj za /\ nval E b = inj zb).
  { intros Hi. apply andb_true_iff in Hi. destruct Hi as [Ia Ib]. destruct (int_atom_val E a HE Ia) as [za Hza]. destruct (int_atom_val E b HE Ib) as [zb Hzb]. eauto. }
  assert (Cmp : forall o, is_cmp o = true -> o <> OEquals -> (holds E (TOp o [a; b]) = true <-> crel E o a b)).
  { intros o0 Hc Hne. split; [apply cmp_holds; auto|]. unfold holds. cbn [eval map]. destruct o0; try discriminate; try contradiction; cbn [eval_op chain truth];
      rewrite andb_true_r; unfold crel, nval; try (apply oltb_lt); auto. }
  destruct Ho as [->|[->|[->|[->| ->]]]].
  - apply andb_true_iff in Hsort. destruct Hsort as [Na Nb].
    ostepn H xy H1. destruct xy as [x y]. apply m_op2_ok in H1. subst n. cbn [fst snd forallb] in *. rewrite andb_true_r in Hdn. apply andb_true_iff in Hdn.
    destruct Hdn as [Dx Dy]. ostepn H sl H1. ostepn H sr H2. ostepn H u H3. pose proof (push_val E vs k) as HP.
    destruct (push_negation vs k) as [g kg]. cbn [fst snd] in HP. pose proof (norm_side_val E _ _ _ _ H3 Dx) as Vx. pose proof (norm_side_val E _ _ _ _ H Dy) as Vy.
    rewrite holds_and2. rewrite andb_true_iff, Vx, Vy, csum_neg, inj_opp, <- opp_le. change (TOp OEquals [a; b]) with (tEq a b).
    rewrite holds_eq_iff, (num_term_eval E a HE Na), (num_term_eval E b HE Nb). rewrite (le_sub _ (inj k)), Vs, <- le_sub.
    assert (X : (csum E g <= inj kg <-> nval E a <= nval E b)%of).
    { rewrite le_sub, (le_sub _ (nval E a)). replace (inj kg - csum E g)%of with (nval E b - nval E a)%of; [tauto|].
      replace (inj kg - csum E g)%of with (- (csum E g - inj kg))%of by ring. rewrite HP, Vs. ring. }
    rewrite X. split.
    + intros He. injection He as He. rewrite He. split; apply le_refl.
    + intros [L1 L2]. f_equal. apply le_antisym; auto.
  - destruct (Ints Hsort) as [za [zb [Za Zb]]]. rewrite (norm_side_val E _ _ _ _ H (Hn1 ltac:(discriminate))), Cmp by (auto; discriminate).
    unfold crel. rewrite Za, Zb in *. rewrite le_sub. rewrite inj_add. replace (csum E vs - (inj k + inj 1))%of with (inj (za - zb - 1) : iF I).
    + rewrite <- inj_0, <- inj_le, <- inj_lt. lia.
    + rewrite !inj_sub. rewrite <- Vs. ring.
  - destruct (Ints Hsort) as [za [zb [Za Zb]]]. rewrite (norm_side_val E _ _ _ _ H (Hn1 ltac:(discriminate))), Cmp by (auto; discriminate).
    unfold crel. rewrite Za, Zb in *. rewrite csum_neg, le_sub. replace (- csum E vs - inj (1 - k))%of with (inj (zb - za - 1) : iF I).
    + rewrite <- inj_0, <- inj_le, <- inj_lt. lia.
    + rewrite !inj_sub. transitivity (- (inj za - inj zb) - inj 1 : iF I)%of; [ring|]. rewrite <- Vs. ring.
  - rewrite (norm_side_val E _ _ _ _ H (Hn1 ltac:(discriminate))), Cmp by (auto; discriminate). unfold crel.
    rewrite le_sub, (le_sub _ (inj k)), Vs. tauto.
  - rewrite (norm_side_val E _ _ _ _ H (Hn1 ltac:(discriminate))), Cmp by (auto; discriminate). unfold crel.
    rewrite csum_neg, inj_opp, <- opp_le. rewrite le_sub, (le_sub _ (csum E vs)).
    replace (inj k - csum E vs)%of with (- (csum E vs - inj k))%of by ring. rewrite Vs. replace (- (nval E a - nval E b))%of with (nval E b - nval E a)%of by ring. tauto.
Qed.
End NS.
Lemma cp_normalize_sound c ps args : r_cp_normalize c ps args = ROk tt -> cp_norm_ok c ps args = true ->
  clause_wt c = true -> forallb clause_wt ps = true -> entails ps c.
Proof. intros H Hok Hwt _ I E HE _. eapply cp_normalize_holds; eauto. Qed.
