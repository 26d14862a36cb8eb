(** Terms identified by [Polyeq] (without renaming of bound variables) denote the same value. *)
From Coq Require Import List String ZArith QArith Bool Arith Lia Field.
From Verif Require Import Term Field Sem Sorting Base Rules R_Taut Utils Num Polyeq Std.
Import ListNotations.
Local Open Scope nat_scope.

(** the conditions under which a comparison is trusted *)
Definition good1 (nary : bool) (t : term) : bool := std1 t && scoped1 t && (negb nary || nary1 t).
Definition good (nary : bool) (t : term) : bool := wt t && all_sub (good1 nary) t.

Section Good.
  Context (nary : bool).
  Notation good := (good nary).
  Lemma good_split t : good t = true -> wt t = true /\ good1 nary t = true.
  Proof. unfold good. intros H. apply andb_true_iff in H. destruct H as [H1 H2]. split; auto.
    destruct t; cbn [all_sub] in H2; apply andb_true_iff in H2; tauto. Qed.
  Lemma good_std t : good t = true -> std1 t = true.
  Proof. intros H. apply good_split in H. destruct H as [_ H]. unfold good1 in H. rewrite !andb_true_iff in H. tauto. Qed.
  Lemma good_scoped t : good t = true -> scoped1 t = true.
  Proof. intros H. apply good_split in H. destruct H as [_ H]. unfold good1 in H. rewrite !andb_true_iff in H. tauto. Qed.
  Lemma good_app f args : good (TApp f args) = true -> good f = true /\ forallb good args = true.
  Proof.
    unfold good. cbn [wt all_sub]. rewrite !andb_true_iff. intros [[[H1 H2] _] [_ [H3 H4]]]. repeat split; auto.
    rewrite forallb_forall in *. intros x Hx. rewrite H2, H4; auto.
  Qed.
  Lemma good_op o args : good (TOp o args) = true -> forallb good args = true.
  Proof.
    unfold good. cbn [wt all_sub]. rewrite !andb_true_iff. intros [[H1 _] [_ H2]].
    rewrite forallb_forall in *. intros x Hx. rewrite H1, H2; auto.
  Qed.
  Lemma good_pop o oa args : good (TPOp o oa args) = true -> forallb good args = true.
  Proof.
    unfold good. cbn [wt all_sub]. rewrite !andb_true_iff. intros [[H1 _] [_ H2]].
    rewrite forallb_forall in *. intros x Hx. rewrite H1, H2; auto.
  Qed.
  Lemma good_bind q vs b : good (TBind q vs b) = true -> good b = true.
  Proof. unfold good. cbn [wt all_sub]. rewrite !andb_true_iff. tauto. Qed.
  Lemma good_let bs b : good (TLet bs b) = true -> forallb (fun p => good (snd p)) bs = true /\ good b = true.
  Proof.
    unfold good. cbn [wt all_sub]. rewrite !andb_true_iff. intros [[H1 H2] [_ [H3 H4]]]. repeat split; auto.
    rewrite forallb_forall in *. intros x Hx. rewrite H1, H3; auto.
  Qed.

  (** what a successful comparison guarantees *)
  Definition sem_eq (a b : term) : Prop := forall (I : interp) (E : env I), env_ok E -> eval a E = eval b E.
  Definition fv_eq (a b : term) : Prop := forall x s, free_in x s a = free_in x s b.
  Definition srt_eq (a b : term) : Prop := num_erase (sort_of a) = num_erase (sort_of b).
  Definition R3 (a b : term) : Prop := sem_eq a b /\ fv_eq a b /\ srt_eq a b.
  Definition R (a b : term) : Prop := good a = true -> good b = true -> R3 a b.
  Lemma R3_refl a : R3 a a.
  Proof. repeat split. Qed.
  Lemma R3_sym a b : R3 a b -> R3 b a.
  Proof. intros [H1 [H2 H3]]. repeat split; [intros I E HE; symmetry; auto|intros x s; symmetry; auto|symmetry; auto]. Qed.
  Lemma R3_trans a b c : R3 a b -> R3 b c -> R3 a c.
  Proof. intros [H1 [H2 H3]] [K1 [K2 K3]]. repeat split.
    - intros I E HE. rewrite H1; auto.
    - intros x s. rewrite H2; auto.
    - unfold srt_eq in *. congruence.
  Qed.
  Lemma R_refl a : R a a.
  Proof. intros _ _. apply R3_refl. Qed.
  Lemma R_sym a b : R a b -> R b a.
  Proof. intros H G1 G2. apply R3_sym, H; auto. Qed.

  Lemma R_list la lb : Forall2 R la lb -> forallb good la = true -> forallb good lb = true -> Forall2 R3 la lb.
  Proof.
    induction 1; intros G1 G2; constructor; simpl in *; apply andb_true_iff in G1, G2; [apply H|apply IHForall2]; tauto.
  Qed.
  Lemma R3_evals la lb : Forall2 R3 la lb -> forall (I : interp) (E : env I), env_ok E ->
    map (fun a => eval a E) la = map (fun a => eval a E) lb.
  Proof. induction 1 as [|a b la lb [H1 _] _ IH]; intros I E HE; simpl; [reflexivity|]. rewrite (H1 I E HE), (IH I E HE). reflexivity. Qed.
  Lemma R3_fvs la lb x s : Forall2 R3 la lb -> existsb (free_in x s) la = existsb (free_in x s) lb.
  Proof. induction 1 as [|a b la lb [_ [H1 _]] _ IH]; simpl; [reflexivity|]. rewrite (H1 x s), IH. reflexivity. Qed.
  Lemma R3_sorts la lb : Forall2 R3 la lb -> map num_erase (map sort_of la) = map num_erase (map sort_of lb).
  Proof. induction 1 as [|a b la lb [_ [_ H1]] _ IH]; simpl; [reflexivity|]. rewrite H1, IH. reflexivity. Qed.

  Lemma num_erase_bv s w : num_erase s = SBV w -> s = SBV w.
  Proof. destruct s; simpl; intros H; try discriminate; auto. Qed.
  Lemma num_erase_nbv s : num_erase s = match num_erase s with SBV w => SBV w | x => x end.
  Proof. destruct (num_erase s); reflexivity. Qed.
  Lemma bv_head ss ss' : map num_erase ss = map num_erase ss' ->
    match ss with SBV w :: _ => SBV w | _ => SType end = match ss' with SBV w :: _ => SBV w | _ => SType end.
  Proof.
    intros H. destruct ss as [|s r], ss' as [|s' r']; try discriminate; [reflexivity|]. injection H as H _.
    destruct s, s'; simpl in H; try discriminate; congruence.
  Qed.
  Lemma bv_concat_erase ss : forall ss' acc, map num_erase ss = map num_erase ss' ->
    fold_left (fun acc s => match acc, s with SBV a, SBV b => SBV (a + b) | _, _ => SType end) ss acc =
    fold_left (fun acc s => match acc, s with SBV a, SBV b => SBV (a + b) | _, _ => SType end) ss' acc.
  Proof.
    induction ss as [|s r IH]; intros [|s' r'] acc H; try discriminate; [reflexivity|]. injection H as H H'. simpl.
    rewrite (IH r') by auto. f_equal. destruct acc; auto. destruct s, s'; simpl in H; try discriminate; congruence.
  Qed.
  Lemma num_erase_nth k ss ss' : map num_erase ss = map num_erase ss' ->
    num_erase (nth k ss SType) = num_erase (nth k ss' SType).
  Proof.
    intros H. rewrite <- (map_nth num_erase ss SType k), <- (map_nth num_erase ss' SType k), H. reflexivity.
  Qed.
  Lemma num_erase_last ss ss' : map num_erase ss = map num_erase ss' ->
    num_erase (last ss SType) = num_erase (last ss' SType).
  Proof.
    revert ss'. induction ss as [|s r IH]; intros [|s' r'] H; try discriminate; [reflexivity|]. injection H as H1 H2.
    specialize (IH _ H2). destruct r, r'; try discriminate; auto.
  Qed.
  Lemma op_sort_erase o ss ss' : map num_erase ss = map num_erase ss' ->
    num_erase (op_sort o ss) = num_erase (op_sort o ss').
  Proof.
    intros H. pose proof (f_equal (@List.length _) H) as HL. rewrite !map_length in HL.
    destruct o; try reflexivity; cbn [op_sort];
      try (rewrite (bv_head _ _ H); reflexivity); try (rewrite HL; reflexivity);
      try (repeat match goal with |- context [if ?x then _ else _] => destruct x end; reflexivity);
      try (apply num_erase_nth; exact H).
    - destruct ss as [|s r], ss' as [|s' r']; try discriminate; [reflexivity|]. injection H as H _.
      destruct s, s'; simpl in H; try discriminate; try reflexivity. congruence.
    - rewrite (bv_concat_erase _ _ (SBV 0) H). reflexivity.
  Qed.
  Lemma pop_sort_erase o oa ss ss' : map num_erase ss = map num_erase ss' ->
    num_erase (pop_sort o oa ss) = num_erase (pop_sort o oa ss').
  Proof.
    intros H. destruct ss as [|s r], ss' as [|s' r']; try discriminate; [reflexivity|]. injection H as H _.
    destruct o; cbn [pop_sort]; try reflexivity; try exact H;
      destruct s, s'; simpl in H; try discriminate; try reflexivity; try (injection H as <-; reflexivity).
  Qed.
  Lemma sort_of_op o args : o <> OBvConst -> sort_of (TOp o args) = op_sort o (map sort_of args).
  Proof. intros H. destruct o; try reflexivity. contradiction. Qed.
  Lemma good_op_sort o args : good (TOp o args) = true -> sort_of (TOp o args) = op_sort o (map sort_of args).
  Proof.
    intros H. apply sort_of_op. intros ->. apply good_split in H. destruct H as [H _]. cbn [wt] in H.
    apply andb_true_iff in H. destruct H as [_ H]. destruct (map sort_of args); discriminate.
  Qed.

  Lemma R_op o la lb : Forall2 R la lb -> R (TOp o la) (TOp o lb).
  Proof.
    intros H G1 G2. pose proof (R_list _ _ H (good_op _ _ G1) (good_op _ _ G2)) as H3. repeat split.
    - intros I E HE. cbn [eval]. rewrite (R3_evals _ _ H3 I E HE). reflexivity.
    - intros x s. cbn [free_in]. apply R3_fvs; auto.
    - unfold srt_eq. rewrite !good_op_sort by auto. apply op_sort_erase, R3_sorts; auto.
  Qed.
  Lemma R_pop o oa la lb : Forall2 R la lb -> R (TPOp o oa la) (TPOp o oa lb).
  Proof.
    intros H G1 G2. pose proof (R_list _ _ H (good_pop _ _ _ G1) (good_pop _ _ _ G2)) as H3. repeat split.
    - intros I E HE. cbn [eval]. rewrite (R3_evals _ _ H3 I E HE). reflexivity.
    - intros x s. cbn [free_in]. apply R3_fvs; auto.
    - unfold srt_eq. cbn [sort_of]. apply pop_sort_erase, R3_sorts; auto.
  Qed.
  Lemma R_app f g la lb : R f g -> Forall2 R la lb -> R (TApp f la) (TApp g lb).
  Proof.
    intros Hf H G1 G2. apply good_app in G1, G2. destruct G1 as [G1 G1'], G2 as [G2 G2'].
    pose proof (R_list _ _ H G1' G2') as H3. destruct (Hf G1 G2) as [F1 [F2 F3]]. repeat split.
    - intros I E HE. cbn [eval]. rewrite (R3_evals _ _ H3 I E HE), (F1 I E HE). reflexivity.
    - intros x s. cbn [free_in]. rewrite (F2 x s), (R3_fvs _ _ x s H3). reflexivity.
    - unfold srt_eq in *. cbn [sort_of]. destruct (sort_of f), (sort_of g); simpl in F3; try discriminate; try reflexivity.
      injection F3 as F3. apply num_erase_last; auto.
  Qed.
  Lemma R_bind q vs a b : R a b -> R (TBind q vs a) (TBind q vs b).
  Proof.
    intros H G1 G2. destruct (H (good_bind _ _ _ G1) (good_bind _ _ _ G2)) as [H1 [H2 H3]]. repeat split.
    - intros I E HE. cbn [eval].
      assert (HB : forall vals, Forall2 (fun s v => idom I s v = true) (map snd vs) vals ->
        eval a (upds E vs vals) = eval b (upds E vs vals)).
      { intros vals Hv. apply H1. apply env_ok_upds; auto. }
      assert (HL : ilam I (map snd vs) (num_erase (sort_of a)) (fun vals => eval a (upds E vs vals)) =
                   ilam I (map snd vs) (num_erase (sort_of b)) (fun vals => eval b (upds E vs vals))).
      { unfold srt_eq in H3. rewrite H3. apply ilam_ext. exact HB. }
      destruct q; cbn [eval_bind].
      + f_equal. apply eval_all_ext. intros vals Hv. rewrite HB; auto.
      + f_equal. f_equal. apply eval_all_ext. intros vals Hv. rewrite HB; auto.
      + destruct vs as [|[x s] [|? ?]]; auto. apply ichoice_ext. intros v Hv.
        specialize (HB [v]). simpl in HB. rewrite HB; [reflexivity|]. repeat constructor; auto.
      + exact HL.
    - intros x s. cbn [free_in]. rewrite (H2 x s). reflexivity.
    - unfold srt_eq in *. destruct q; cbn [sort_of]; try reflexivity. simpl. rewrite !map_app. simpl. rewrite H3. reflexivity.
  Qed.

  (** [let]: the names agree; where the sorts of the values differ, the name does not occur *)
  Definition bind_rel (p q : string * term) : Prop := fst p = fst q /\ R3 (snd p) (snd q).
  Lemma upds_let {I} x s : forall (l l' : list (string * sort)) (vals : list (value I)) (E E' : env I),
    Forall2 (fun p q => fst p = fst q /\ (snd p = snd q \/ fst p <> x)) l l' ->
    E x s = E' x s -> upds E l vals x s = upds E' l' vals x s.
  Proof.
    induction l as [|[y sy] l IH]; intros l' vals E E' H HE; inversion H as [|? q ? l2 Hq Hl]; subst; [exact HE|].
    destruct q as [y' sy']. cbn [fst snd] in Hq. destruct Hq as [<- Hs]. destruct vals as [|v vals]; [exact HE|].
    cbn [upds]. apply IH; auto. unfold upd. destruct (String.eqb x y) eqn:Ex; [|exact HE]. cbn [andb].
    apply String.eqb_eq in Ex. subst. destruct Hs as [->|Hs]; [|congruence]. destruct (sort_eqb s sy'); auto.
  Qed.
  Lemma scoped_let bs body x s v : scoped1 (TLet bs body) = true -> In (x, v) bs -> free_in x s body = true -> s = sort_of v.
  Proof.
    cbn [scoped1]. rewrite forallb_forall. intros H Hin Hf. specialize (H _ Hin). simpl in H. rewrite forallb_forall in H.
    apply free_sorts_spec in Hf. specialize (H _ Hf). apply sort_eqb_eq in H. auto.
  Qed.
  (** the names of [bs] whose sort differs from that in [bs'] are not free in the bodies *)
  Lemma let_sorts bs bs' a b : Forall2 bind_rel bs bs' -> fv_eq a b ->
    scoped1 (TLet bs a) = true -> scoped1 (TLet bs' b) = true ->
    forall x s, free_in x s b = true ->
    Forall2 (fun p q => fst p = fst q /\ (snd p = snd q \/ fst p <> x))
      (map (fun p => (fst p, sort_of (snd p))) bs) (map (fun p => (fst p, sort_of (snd p))) bs').
  Proof.
    intros H Hfv S1 S2 x s Hx.
    assert (K : forall l l', Forall2 bind_rel l l' -> incl l bs -> incl l' bs' ->
      Forall2 (fun p q => fst p = fst q /\ (snd p = snd q \/ fst p <> x))
      (map (fun p => (fst p, sort_of (snd p))) l) (map (fun p => (fst p, sort_of (snd p))) l')).
    { clear H. induction 1 as [|[y v] [y' v'] l l' [Hn Hr] _ IH]; intros I1 I2; constructor; cbn [fst snd] in *.
      - split; auto. destruct (string_dec y x) as [->|Hne]; [left|right; auto]. subst y'.
        transitivity s; [symmetry|].
        + eapply scoped_let; [exact S1|apply I1; left; reflexivity|]. rewrite (Hfv x s). exact Hx.
        + eapply scoped_let; [exact S2|apply I2; left; reflexivity|exact Hx].
      - apply IH; intros z Hz; [apply I1|apply I2]; right; auto. }
    apply K; auto; apply incl_refl.
  Qed.
  Lemma R_let bs bs' a b : Forall2 (fun p q => fst p = fst q /\ R (snd p) (snd q)) bs bs' -> R a b ->
    R (TLet bs a) (TLet bs' b).
  Proof.
    intros H Hab G1 G2. pose proof (good_scoped _ G1) as S1. pose proof (good_scoped _ G2) as S2.
    apply good_let in G1, G2. destruct G1 as [Gs1 Ga], G2 as [Gs2 Gb]. destruct (Hab Ga Gb) as [H1 [H2 H3]].
    assert (HB : Forall2 bind_rel bs bs').
    { clear S1 S2. induction H as [|p q l l' [Hn Hr] _ IH]; constructor; simpl in *; apply andb_true_iff in Gs1, Gs2.
      - split; auto. apply Hr; tauto.
      - apply IH; tauto. }
    clear H.
    assert (HV : forall (I : interp) (E : env I), env_ok E ->
      map (fun p => eval (snd p) E) bs = map (fun p => eval (snd p) E) bs').
    { intros I E HE. clear S1 S2 Gs1 Gs2. induction HB as [|p q l l' [_ [Hr _]] _ IH]; simpl; [reflexivity|].
      rewrite (Hr I E HE), IH. reflexivity. }
    assert (HF : forall x s, existsb (fun p => free_in x s (snd p)) bs = existsb (fun p => free_in x s (snd p)) bs').
    { intros x s. clear S1 S2 Gs1 Gs2 HV. induction HB as [|p q l l' [_ [_ [Hr _]]] _ IH]; simpl; [reflexivity|].
      rewrite (Hr x s), IH. reflexivity. }
    repeat split.
    - intros I E HE. cbn [eval]. rewrite (HV I E HE).
      rewrite H1.
      + apply eval_agree. intros x s Hx. apply upds_let; auto. eapply let_sorts; eauto.
      + apply env_ok_upds; auto. rewrite <- (HV I E HE). rewrite map_map. simpl.
        clear - Gs1 HE. induction bs as [|[x v] r IH]; simpl in *; constructor.
        * apply andb_true_iff in Gs1. destruct Gs1 as [Gs1 _]. apply good_split in Gs1. apply eval_dom; tauto.
        * apply IH. apply andb_true_iff in Gs1. tauto.
    - intros x s. cbn [free_in]. rewrite (HF x s). f_equal.
      destruct (free_in x s b) eqn:Hb.
      + rewrite (H2 x s), Hb, !andb_true_r. f_equal.
        pose proof (let_sorts _ _ _ _ HB H2 S1 S2 x s Hb) as HS. clear - HS HB.
        induction HB as [|[y v] [y' v'] l l' [Hn _] _ IH]; simpl; [reflexivity|]. inversion HS as [|? ? ? ? Hh Ht]; subst.
        rewrite (IH Ht). cbn [fst snd] in *. f_equal. destruct Hh as [_ [Hs|Hs]]; subst.
        * rewrite Hs. reflexivity.
        * unfold svar_eqb. cbn [fst snd]. destruct (String.eqb_spec x y'); [congruence|reflexivity].
      + rewrite (H2 x s), Hb, !andb_false_r. reflexivity.
    - unfold srt_eq in *. cbn [sort_of]. exact H3.
  Qed.

  Lemma R_eq_flip a1 a2 b1 b2 : R a1 b2 -> R a2 b1 -> R (TOp OEquals [a1; a2]) (TOp OEquals [b1; b2]).
  Proof.
    intros H1 H2 G1 G2. apply good_op in G1, G2. simpl in G1, G2. rewrite !andb_true_iff in G1, G2.
    destruct (H1 ltac:(tauto) ltac:(tauto)) as [K1 [K2 _]]. destruct (H2 ltac:(tauto) ltac:(tauto)) as [L1 [L2 _]]. repeat split.
    - intros I E HE. cbn [eval map eval_op chain]. rewrite (K1 I E HE), (L1 I E HE), veqb_sym. reflexivity.
    - intros x s. cbn [free_in existsb]. rewrite (K2 x s), (L2 x s), !orb_false_r. apply orb_comm.
  Qed.

  (** ** Chainable operators *)
  Definition chain_rel (I : interp) (o : op) : value I -> value I -> bool :=
    match o with
    | OLt => fun a b => oltb (num a) (num b)
    | OGt => fun a b => oltb (num b) (num a)
    | OLe => fun a b => oleb (num a) (num b)
    | OGe => fun a b => oleb (num b) (num a)
    | _ => veqb
    end.
  Lemma chain_op I o (vs : list (value I)) : is_chain o = true -> eval_op o vs = VB (chain (chain_rel I o) vs).
  Proof. destruct o; try discriminate; reflexivity. Qed.
  Lemma chain_sort o ss : is_chain o = true -> op_sort o ss = SBool.
  Proof. destruct o; try discriminate; reflexivity. Qed.
  (** adjacent arguments against the binary links of the chain *)
  Fixpoint links (o : op) (args ch : list term) : Prop :=
    match args, ch with
    | a :: ((b :: _) as ra), t :: rc => (exists x y, t = TOp o [x; y] /\ R a x /\ R b y) /\ links o ra rc
    | [_], [] => True
    | _, _ => False
    end.
  Lemma R_chain o args ch : is_chain o = true -> ch <> [] -> links o args ch -> R (TOp o args) (TOp OAnd ch).
  Proof.
    intros Ho Hne HL G1 G2. pose proof (good_op _ _ G1) as Ga. pose proof (good_op _ _ G2) as Gc.
    assert (HS : srt_eq (TOp o args) (TOp OAnd ch)).
    { unfold srt_eq. rewrite (good_op_sort _ _ G1), chain_sort by auto. reflexivity. }
    clear G1 G2.
    assert (K : forall args ch, forallb good args = true -> forallb good ch = true -> links o args ch ->
      (forall (I : interp) (E : env I), env_ok E ->
         chain (chain_rel I o) (map (fun a => eval a E) args) = forallb truth (map (fun a => eval a E) ch)) /\
      (ch <> [] -> forall x s, existsb (free_in x s) args = existsb (free_in x s) ch)).
    { clear args ch Hne HL Ga Gc HS. induction args as [|a args IH]; intros ch Ga Gc HL; [destruct HL|].
      destruct args as [|b ra].
      - destruct ch; [|destruct HL]. split; [reflexivity|congruence].
      - destruct ch as [|t rc]; [destruct HL|]. cbn [links] in HL. destruct HL as [[x [y [-> [Hx Hy]]]] HL].
        cbn [forallb] in Ga, Gc. apply andb_true_iff in Ga, Gc. destruct Ga as [Ga1 Ga], Gc as [Gc1 Gc].
        destruct (IH rc) as [I1 I2]; auto. apply andb_true_iff in Ga. destruct Ga as [Ga2 Ga3].
        apply good_op in Gc1. cbn [forallb] in Gc1. rewrite !andb_true_iff in Gc1.
        destruct (Hx ltac:(tauto) ltac:(tauto)) as [X1 [X2 _]]. destruct (Hy ltac:(tauto) ltac:(tauto)) as [Y1 [Y2 _]].
        split.
        + intros I E HE. specialize (I1 I E HE). cbn [map chain forallb] in *. rewrite I1. f_equal.
          cbn [eval map]. rewrite (chain_op I o) by auto. cbn [truth chain]. rewrite andb_true_r, (X1 I E HE), (Y1 I E HE). reflexivity.
        + intros _ z s. cbn [existsb free_in]. rewrite (X2 z s), orb_false_r. destruct rc as [|t' rc].
          * destruct ra as [|? ?]; [|destruct HL]. simpl. rewrite (Y2 z s), !orb_false_r. reflexivity.
          * specialize (I2 ltac:(discriminate) z s). rewrite <- (Y2 z s). cbn [existsb] in I2 |- *. rewrite <- I2. cbn [existsb].
            destruct (free_in z s x), (free_in z s b); reflexivity. }
    destruct (K args ch Ga Gc HL) as [K1 K2]. split; [|split; [|exact HS]].
    - intros I E HE. cbn [eval]. rewrite (chain_op I o) by auto. cbn [eval_op]. rewrite (K1 I E HE). reflexivity.
    - intros x s. cbn [free_in]. apply K2; auto.
  Qed.

  (** ** Associative operators *)
  Definition lv (I : interp) (o : op) (vs : list (value I)) : value I :=
    match vs with [x] => x | _ => eval_op o vs end.
  Definition compositional (o : op) : bool :=
    is_left o && negb (existsb (op_eqb o) [OStrLt; OStrLe; OCl; ODelete]).
  Lemma fold_left_last {A B} (f : A -> B -> A) l x a : fold_left f (l ++ [x]) a = f (fold_left f l a) x.
  Proof. rewrite fold_left_app. reflexivity. Qed.
  Lemma fold1_last I o f (vs : list (value I)) v : vs <> [] -> (forall l : list (value I), 2 <= List.length l -> eval_op o l = fold1 o f l) ->
    eval_op o (vs ++ [v]) = eval_op o [lv I o vs; v].
  Proof.
    intros Hne H. rewrite !H; [|simpl; lia|rewrite app_length; destruct vs; [congruence|simpl; lia]].
    destruct vs as [|a [|b r]]; [congruence|reflexivity|]. unfold lv. rewrite H by (simpl; lia).
    unfold fold1. cbn [app]. rewrite app_comm_cons, fold_left_last. reflexivity.
  Qed.
  Lemma left_last I o (vs : list (value I)) v : compositional o = true -> vs <> [] ->
    eval_op o (vs ++ [v]) = eval_op o [lv I o vs; v].
  Proof.
    intros Ho Hne.
    destruct o; try discriminate Ho;
      try (eapply fold1_last; [exact Hne|intros l _; reflexivity]).
    - cbn [eval_op]. rewrite forallb_app. f_equal. cbn [forallb]. f_equal.
      destruct vs as [|a [|b r]]; [congruence|apply andb_true_r|reflexivity].
    - cbn [eval_op]. rewrite existsb_app. f_equal. cbn [existsb]. f_equal.
      destruct vs as [|a [|b r]]; [congruence|apply orb_false_r|reflexivity].
    - cbn [eval_op]. rewrite map_app. cbn [map]. rewrite fold_left_last. f_equal. cbn [fold_left].
      destruct vs as [|a [|b r]]; [congruence|reflexivity|]. cbn [lv eval_op truth].
      rewrite xorb_false_l. reflexivity.
    - cbn [eval_op]. rewrite map_app. cbn [map]. rewrite fold_left_last. f_equal. cbn [fold_left].
      destruct vs as [|a [|b r]]; [congruence|reflexivity|]. cbn [lv eval_op num]. f_equal.
      symmetry. apply oadd_0_l.
    - destruct vs as [|a [|b r]]; [congruence|reflexivity|]. cbn [app lv eval_op map]. rewrite map_app. cbn [map].
      rewrite app_comm_cons, fold_left_last. reflexivity.
    - cbn [eval_op]. rewrite map_app. cbn [map]. rewrite fold_left_last. f_equal. cbn [fold_left].
      destruct vs as [|a [|b r]]; [congruence|reflexivity|]. cbn [lv eval_op num]. f_equal.
      symmetry. apply omul_1_l.
    - cbn [eval_op]. rewrite map_app, concat_app. cbn [map List.concat]. rewrite app_nil_r. f_equal. f_equal.
      destruct vs as [|a [|b r]]; [congruence|cbn [lv map List.concat]; rewrite app_nil_r; reflexivity|reflexivity].
  Qed.
  Lemma right_head I v (vs : list (value I)) : vs <> [] ->
    eval_op OImplies (v :: vs) = eval_op OImplies [v; lv I OImplies vs].
  Proof. destruct vs as [|a [|b r]]; [congruence|reflexivity|reflexivity]. Qed.

  Lemma bv_assoc_sort o ss s : existsb (op_eqb o) [OBvAnd; OBvOr; OBvAdd; OBvMul] = true -> op_wt o ss = true -> In s ss ->
    op_sort o ss = s.
  Proof.
    intros Hb Hw Hin.
    assert (K : forallb is_bv_sort ss = true -> all_eq ss = true -> match ss with SBV w :: _ => SBV w | _ => SType end = s).
    { intros B A. rewrite (all_eq_spec ss A s Hin). destruct ss as [|s1 ?]; [destruct Hin|]. simpl in B. 
      destruct s1; try discriminate. reflexivity. }
    destruct o; try discriminate Hb; cbn [op_wt] in Hw; apply andb_true_iff in Hw; destruct Hw as [Hw A];
      apply andb_true_iff in Hw; destruct Hw as [_ B]; exact (K B A).
  Qed.

  (** the pairs compared by [compare_assoc] *)
  Inductive assoc (o : op) : list term -> list term -> Prop :=
  | assoc_one a b : R a b -> assoc o [a] [b]
  | assoc_step l r hl tl hr tr : split_args (is_right o) l = Some (hl, tl) -> split_args (is_right o) r = Some (hr, tr) ->
      R hl hr -> assoc o (flatten_single o tl) (flatten_single o tr) -> assoc o l r.

  Lemma split_spec right l h t : split_args right l = Some (h, t) ->
    t <> [] /\ 2 <= List.length l /\ l = if right then h :: t else t ++ [h].
  Proof.
    destruct l as [|a [|b l]]; try discriminate. unfold split_args. destruct right; intros H; injection H as <- <-.
    - split; [discriminate|]. split; [simpl; lia|reflexivity].
    - split; [simpl; destruct l; discriminate|]. split; [simpl; lia|]. apply (app_removelast_last (l := a :: b :: l) a). discriminate.
  Qed.
  Lemma is_right_implies o : is_right o = true -> o = OImplies.
  Proof. destruct o; try discriminate; reflexivity. Qed.
  Lemma lv_split I o l h t (E : env I) : (compositional o || is_right o = true) -> split_args (is_right o) l = Some (h, t) ->
    lv I o (map (fun a => eval a E) l) =
    eval_op o (if is_right o then [eval h E; lv I o (map (fun a => eval a E) t)] else [lv I o (map (fun a => eval a E) t); eval h E]).
  Proof.
    intros Ho H. destruct (split_spec _ _ _ _ H) as [Hne [Hl ->]]. destruct (is_right o) eqn:Hr.
    - apply is_right_implies in Hr. subst. cbn [map]. rewrite <- right_head; [|destruct t; [congruence|discriminate]].
      destruct t; [congruence|reflexivity].
    - rewrite orb_false_r in Ho. rewrite map_app. cbn [map]. rewrite <- left_last; auto; [|destruct t; [congruence|discriminate]].
      destruct t as [|u t]; [congruence|]. cbn [map app lv]. destruct (map _ t ++ _) eqn:Ht; [destruct t; discriminate|reflexivity].
  Qed.

  Section Nary.
    Context (Hn : nary = true).
    Lemma good_nary t : good t = true -> nary1 t = true.
    Proof. intros H. apply good_split in H. destruct H as [_ H]. unfold good1 in H. rewrite Hn in H. rewrite !andb_true_iff in H. tauto. Qed.
    Lemma good_one o x : is_left o || is_right o = true -> good (TOp o [x]) = true -> (o = OAnd \/ o = OOr \/ o = OXor) /\ sort_of x = SBool.
    Proof.
      intros Ho G. pose proof (good_nary _ G) as Hnn. apply good_split in G. destruct G as [G _]. cbn [wt] in G.
      apply andb_true_iff in G. destruct G as [_ G]. cbn [map] in G.
      assert (HB : forall s, sort_eqb SBool s && true = true -> s = SBool).
      { intros s Hs. rewrite andb_true_r in Hs. apply sort_eqb_eq in Hs. auto. }
      destruct o; try discriminate Ho; try discriminate G; try discriminate Hnn; cbn [op_wt min_len List.length Nat.leb forallb] in G;
        try (split; [tauto|apply HB; exact G]).
      all: unfold sorts_are in G; cbn [list_eqb] in G; rewrite ?andb_false_r in G; discriminate.
    Qed.
    Lemma R3_one o x : is_left o || is_right o = true -> good (TOp o [x]) = true -> R3 (TOp o [x]) x.
    Proof.
      intros Ho G. destruct (good_one o x Ho G) as [Hc Hs]. pose proof (good_op _ _ G) as Gx. simpl in Gx. rewrite andb_true_r in Gx.
      repeat split.
      - intros I E HE. apply good_split in Gx. destruct Gx as [Gx _].
        pose proof (eval_dom x E Gx HE) as Hd. rewrite Hs in Hd. apply dom_bool in Hd. destruct Hd as [b Hb].
        destruct Hc as [->|[->| ->]]; cbn [eval map eval_op]; rewrite Hb; cbn [forallb existsb map fold_left truth];
          rewrite ?andb_true_r, ?orb_false_r, ?xorb_false_l; reflexivity.
      - intros y s. cbn [free_in existsb]. apply orb_false_r.
      - unfold srt_eq. rewrite Hs. destruct Hc as [->|[->| ->]]; reflexivity.
    Qed.
    Lemma flatten_ok o t : is_left o || is_right o = true -> t <> [] -> forallb good t = true ->
      flatten_single o t <> [] /\ forallb good (flatten_single o t) = true /\
      (forall (I : interp) (E : env I), env_ok E ->
         lv I o (map (fun a => eval a E) (flatten_single o t)) = lv I o (map (fun a => eval a E) t)) /\
      (forall x s, existsb (free_in x s) (flatten_single o t) = existsb (free_in x s) t).
    Proof.
      intros Ho Hne G. destruct t as [|u [|u2 r2]]; [congruence| |destruct u; repeat split; auto].
      destruct u; try (repeat split; auto; fail). cbn [flatten_single]. destruct (op_eqb o0 o) eqn:Ho'; [|repeat split; auto].
      apply op_eqb_eq in Ho'. subst o0. cbn [forallb] in G. rewrite andb_true_r in G.
      assert (Hargs : args <> []).
      { intros ->. pose proof (good_nary _ G) as Hnn. apply good_split in G. destruct G as [G _]. cbn [wt] in G.
        destruct o; try discriminate Ho; try discriminate G; discriminate Hnn. }
      repeat split; auto.
      - apply good_op in G. exact G.
      - intros I E HE. cbn [map lv]. destruct args as [|a [|b r]]; [congruence| |reflexivity].
        destruct (R3_one o a Ho G) as [H _]. symmetry. apply H; auto.
      - intros x s. cbn [existsb free_in]. rewrite orb_false_r. reflexivity.
    Qed.
    Lemma comp_lr o : compositional o || is_right o = true -> is_left o || is_right o = true.
    Proof. unfold compositional. rewrite !orb_true_iff, andb_true_iff. tauto. Qed.
    Lemma assoc_sem o l r : compositional o || is_right o = true -> assoc o l r ->
      forallb good l = true -> forallb good r = true ->
      (forall (I : interp) (E : env I), env_ok E ->
         lv I o (map (fun a => eval a E) l) = lv I o (map (fun a => eval a E) r)) /\
      (forall x s, existsb (free_in x s) l = existsb (free_in x s) r).
    Proof.
      intros Ho H. induction H as [a b H|l r hl tl hr tr Sl Sr Hh Ha IH]; intros Gl Gr.
      - simpl in Gl, Gr. rewrite andb_true_r in Gl, Gr. destruct (H Gl Gr) as [H1 [H2 _]]. split.
        + intros I E HE. cbn [map lv]. auto.
        + intros x s. cbn [existsb]. rewrite (H2 x s). reflexivity.
      - assert (K : forall l h t, split_args (is_right o) l = Some (h, t) -> forallb good l = true ->
          good h = true /\ forallb good t = true /\ forall x s, existsb (free_in x s) l = free_in x s h || existsb (free_in x s) t).
        { intros l0 h t Hs G. destruct (split_spec _ _ _ _ Hs) as [_ [_ ->]]. destruct (is_right o).
          - simpl in G. apply andb_true_iff in G. split; [tauto|]. split; [tauto|reflexivity].
          - rewrite forallb_app in G. simpl in G. rewrite andb_true_r in G. apply andb_true_iff in G. split; [tauto|]. split; [tauto|].
            intros x s. rewrite existsb_app. simpl. rewrite orb_false_r. apply orb_comm. }
        destruct (K _ _ _ Sl Gl) as [Ghl [Gtl Fl]]. destruct (K _ _ _ Sr Gr) as [Ghr [Gtr Fr]].
        destruct (Hh Ghl Ghr) as [H1 [H2 _]]. pose proof (comp_lr _ Ho) as Hlr.
        destruct (flatten_ok o tl Hlr (proj1 (split_spec _ _ _ _ Sl)) Gtl) as [_ [Gfl [El Fvl]]].
        destruct (flatten_ok o tr Hlr (proj1 (split_spec _ _ _ _ Sr)) Gtr) as [_ [Gfr [Er Fvr]]].
        destruct (IH Gfl Gfr) as [I1 I2]. split.
        + intros I E HE. rewrite (lv_split I o l hl tl E Ho Sl), (lv_split I o r hr tr E Ho Sr).
          rewrite <- (El I E HE), <- (Er I E HE), (I1 I E HE), (H1 I E HE). reflexivity.
        + intros x s. rewrite Fl, Fr, (H2 x s), <- Fvl, <- Fvr, I2. reflexivity.
    Qed.
    Lemma assoc_sort o l r : is_left o || is_right o = true -> assoc o l r -> 2 <= List.length l -> 2 <= List.length r ->
      good (TOp o l) = true -> good (TOp o r) = true -> srt_eq (TOp o l) (TOp o r).
    Proof.
      intros Ho H Hl Hr G1 G2. unfold srt_eq. rewrite !good_op_sort by auto.
      destruct H as [a b H|l r hl tl hr tr Sl Sr Hh _]; [simpl in Hl; lia|].
      assert (K : forall l h t, split_args (is_right o) l = Some (h, t) -> good (TOp o l) = true ->
        good h = true /\ op_wt o (map sort_of l) = true /\ In (sort_of h) (map sort_of l)).
      { intros l0 h t Hs G. pose proof (good_op _ _ G) as Gs. destruct (split_spec _ _ _ _ Hs) as [_ [_ ->]].
        apply good_split in G. destruct G as [G _]. cbn [wt] in G. apply andb_true_iff in G. destruct G as [_ G].
        rewrite forallb_forall in Gs. assert (Hin : In h (if is_right o then h :: t else t ++ [h])).
        { destruct (is_right o); [left|apply in_or_app; right; left]; reflexivity. }
        split; [apply Gs; exact Hin|]. split; [exact G|]. apply in_map; auto. }
      destruct (K _ _ _ Sl G1) as [Gh1 [W1 K1]]. destruct (K _ _ _ Sr G2) as [Gh2 [W2 K2]].
      destruct (Hh Gh1 Gh2) as [_ [_ Hs]]. unfold srt_eq in Hs.
      assert (B : existsb (op_eqb o) [OBvAnd; OBvOr; OBvAdd; OBvMul] = true -> 
        num_erase (op_sort o (map sort_of l)) = num_erase (op_sort o (map sort_of r))).
      { intros Hb. rewrite (bv_assoc_sort o _ _ Hb W1 K1), (bv_assoc_sort o _ _ Hb W2 K2). exact Hs. }
      destruct o; try discriminate Ho; try reflexivity; try (apply B; reflexivity); cbn [op_sort];
        destruct (existsb (sort_eqb SReal) (map sort_of l)), (existsb (sort_eqb SReal) (map sort_of r)); reflexivity.
    Qed.
    Lemma R_assoc o l r : is_left o || is_right o = true -> assoc o l r -> List.length l <> List.length r ->
      R (TOp o l) (TOp o r).
    Proof.
      intros Ho Ha Hlen G1 G2.
      assert (Hc : compositional o || is_right o = true).
      { pose proof (good_nary _ G1) as N1. apply good_split in G1, G2. destruct G1 as [G1 _], G2 as [G2 _]. cbn [wt] in G1, G2.
        apply andb_true_iff in G1, G2. destruct G1 as [_ G1], G2 as [_ G2].
        destruct o; try discriminate Ho; try reflexivity; try discriminate N1; exfalso;
          apply sorts_are_eq in G1, G2; apply (f_equal (@List.length _)) in G1, G2; rewrite map_length in *; simpl in *; congruence. }
      assert (L : 2 <= List.length l /\ 2 <= List.length r).
      { destruct Ha as [a b ?|? ? ? ? ? ? Sl Sr _ _]; [simpl in Hlen; congruence|].
        split; [apply (split_spec _ _ _ _ Sl)|apply (split_spec _ _ _ _ Sr)]. }
      destruct L as [L1 L2]. destruct (assoc_sem o l r Hc Ha (good_op _ _ G1) (good_op _ _ G2)) as [S1 S2].
      assert (HL : forall (l : list term) (I : interp) (E : env I), 2 <= List.length l ->
         lv I o (map (fun a => eval a E) l) = eval (TOp o l) E).
      { intros k I E Hk. destruct k as [|? [|? ?]]; simpl in Hk; try lia. reflexivity. }
      repeat split.
      - intros I E HE. rewrite <- (HL l), <- (HL r) by auto. apply S1; auto.
      - exact S2.
      - apply assoc_sort; auto.
    Qed.
  End Nary.
End Good.

(** ** Literals *)
Lemma injQ_int {F : ofield} q : Qis_int q = true -> (injQ q : F) = inj (Qnumer q).
Proof. intros H. rewrite (injQ_eq _ _ _ (Qis_int_numer _ H)). apply injQ_Z. Qed.
Lemma R_const n x y : const_cmp x y = true -> R n (TConst x) (TConst y).
Proof.
  intros H _ _.
  assert (K : forall r i, Qis_int r && Z.eqb (Qnumer r) i = true -> R3 (TConst (CReal r)) (TConst (CInt i))).
  { intros r i K. apply andb_true_iff in K. destruct K as [K1 K2]. apply Z.eqb_eq in K2. subst i. repeat split.
    intros I E _. cbn [eval eval_const]. unfold vint. rewrite (injQ_int _ K1). reflexivity. }
  destruct x, y; cbn [const_cmp] in H; try (apply const_eqb_eq in H; rewrite H; apply R3_refl).
  - apply R3_sym. apply K, H.
  - apply K, H.
Qed.
Lemma R_ratio r r1 r2 : Qis_int r1 = true -> Qis_int r2 = true -> Qnumer r2 <> 0%Z ->
  Qeq_bool (inject_Z (Qnumer r1) / inject_Z (Qnumer r2)) r = true ->
  R3 (TConst (CReal r)) (TOp ORealDiv [TConst (CReal r1); TConst (CReal r2)]).
Proof.
  intros H1 H2 Hz H. apply Qeq_bool_iff in H. repeat split.
  intros I E _. cbn [eval eval_const map eval_op fold1 fold_left]. unfold rdiv. cbn [num].
  rewrite (injQ_int r1), (injQ_int r2), <- !injQ_Z by auto.
  assert (Hn : ~ (inject_Z (Qnumer r2) == 0)%Q) by (unfold Qeq; simpl; lia).
  rewrite <- (@injQ_0 (iF I)), injQ_eqb.
  destruct (Qeq_bool (inject_Z (Qnumer r2)) 0) eqn:Hq; [apply Qeq_bool_iff in Hq; contradiction|].
  rewrite <- injQ_div by auto. f_equal. apply injQ_eq. symmetry. exact H.
Qed.

(** ** The comparison *)
Section Main.
  Context (c : pcfg) (Ha : p_alpha c = false).
  Notation R := (R (p_nary c)).
  Notation good := (good (p_nary c)).
  Definition Inv (st : pst) : Prop :=
    ps_db st = None /\ Forall (Forall (fun p => R (fst p) (snd p))) (ps_cache st).
  (** [k] keeps the invariant, and if it answers [true] then [P] *)
  Definition csound (P : Prop) (k : cmp) : Prop :=
    forall st b st', Inv st -> k st = ROk (b, st') -> Inv st' /\ (b = true -> P).
  Lemma cs_weak (P Q : Prop) k : csound P k -> (P -> Q) -> csound Q k.
  Proof. intros H HPQ st b st' Hi He. destruct (H st b st' Hi He). auto. Qed.
  Lemma cs_ret (P : Prop) b : (b = true -> P) -> csound P (cret b).
  Proof. intros H st b' st' Hi He. unfold cret in He. injection He as <- <-. auto. Qed.
  Lemma cs_false P : csound P (cret false).
  Proof. apply cs_ret. discriminate. Qed.
  Lemma cs_panic P : csound P cpanic.
  Proof. intros st b st' _ He. discriminate. Qed.
  Lemma cs_and P Q x y : csound P x -> (P -> csound Q y) -> csound (P /\ Q) (cand x y).
  Proof.
    intros Hx Hy st b st' Hi He. unfold cand in He. destruct (x st) as [[b1 st1]| |] eqn:Ex; try discriminate. cbn [obind fst snd] in He.
    destruct (Hx _ _ _ Hi Ex) as [Hi1 HP]. destruct b1.
    - destruct (Hy (HP eq_refl) _ _ _ Hi1 He) as [Hi2 HQ]. auto.
    - injection He as <- <-. split; [auto|discriminate].
  Qed.
  Lemma cs_or P x y : csound P x -> csound P y -> csound P (cor x y).
  Proof.
    intros Hx Hy st b st' Hi He. unfold cor in He. destruct (x st) as [[b1 st1]| |] eqn:Ex; try discriminate. cbn [obind fst snd] in He.
    destruct (Hx _ _ _ Hi Ex) as [Hi1 HP]. destruct b1.
    - injection He as <- <-. auto.
    - apply (Hy _ _ _ Hi1 He).
  Qed.
  Lemma cs_if P (b : bool) x y : (b = true -> csound P x) -> (b = false -> csound P y) -> csound P (if b then x else y).
  Proof. destruct b; auto. Qed.
  Lemma cs_fif P (b : bool) (x y : cmp) : (b = true -> csound P x) -> (b = false -> csound P y) ->
    csound P (fun st => if b then x st else y st).
  Proof. destruct b; auto. Qed.
  Lemma cs_sort a b : csound (a = b) (sort_cmp a b).
  Proof.
    intros st x st' Hi He. unfold sort_cmp in He. injection He as <- <-. split; auto. intros H. apply andb_true_iff in H.
    apply sort_eqb_eq. tauto.
  Qed.

  Section Rec.
    Context (rec : term -> term -> cmp) (Hrec : forall a b, csound (R a b) (rec a b)).
    Lemma cs_rc a b : csound (R a b) (eq_rc rec a b).
    Proof.
      intros st x st' Hi He. unfold eq_rc in He.
      destruct (negb (renamed st) && term_eqb a b) eqn:E1.
      { injection He as <- <-. split; auto. intros _. apply andb_true_iff in E1. destruct E1 as [_ E1].
        apply term_eqb_eq in E1. subst. apply R_refl. }
      destruct (cache_mem st a b) eqn:E2.
      { injection He as <- <-. split; auto. intros _. unfold cache_mem in E2. apply existsb_exists in E2.
        destruct E2 as [m [Hm E2]]. apply existsb_exists in E2. destruct E2 as [[a' b'] [Hp E2]].
        unfold pair_eqb in E2. cbn [fst snd] in E2. apply andb_true_iff in E2. destruct E2 as [E2 E3].
        apply term_eqb_eq in E2, E3. subst. destruct Hi as [_ Hi]. rewrite Forall_forall in Hi. specialize (Hi _ Hm).
        rewrite Forall_forall in Hi. apply (Hi _ Hp). }
      destruct (rec a b st) as [[b1 st1]| |] eqn:Er; try discriminate. cbn [obind fst snd] in He.
      destruct (Hrec a b _ _ _ Hi Er) as [Hi1 HR]. destruct b1.
      - unfold cache_insert in He. destruct (ps_cache st1) as [|m r] eqn:Ec; [discriminate|]. cbn [obind] in He. injection He as <- <-.
        split; auto. destruct Hi1 as [D F]. split; cbn [ps_db ps_cache]; auto. rewrite Ec in F. inversion F; subst.
        constructor; auto.
      - injection He as <- <-. split; [auto|discriminate].
    Qed.
    Lemma cs_zip la : forall lb, List.length la = List.length lb -> csound (Forall2 R la lb) (eq_zip rec la lb).
    Proof.
      induction la as [|a la IH]; intros [|b lb] Hl; try discriminate; cbn [eq_zip]; [apply cs_ret; constructor|].
      eapply cs_weak; [apply cs_and; [apply cs_rc|intros _; apply IH; simpl in Hl; lia]|]. intros [H1 H2]. constructor; auto.
    Qed.
    Lemma cs_list la lb : csound (Forall2 R la lb) (eq_list rec la lb).
    Proof.
      unfold eq_list. apply cs_if; intros H; [|apply cs_false]. apply cs_zip. apply Nat.eqb_eq; auto.
    Qed.
    Lemma cs_sorts la : forall lb, List.length la = List.length lb -> csound (la = lb) (eq_sorts la lb).
    Proof.
      induction la as [|[x s] la IH]; intros [|[y s'] lb] Hl; try discriminate; cbn [eq_sorts]; [apply cs_ret; auto|].
      eapply cs_weak; [apply cs_and; [|intros _; apply IH; simpl in Hl; lia]|].
      - apply (cs_fif (x = y /\ s = s')); intros H.
        + eapply cs_weak; [apply cs_sort|]. apply String.eqb_eq in H. auto.
        + apply cs_false.
      - intros [[-> ->] ->]. reflexivity.
    Qed.
    Lemma cs_binds la : forall lb, List.length la = List.length lb ->
      csound (Forall2 (fun p q => fst p = fst q /\ R (snd p) (snd q)) la lb) (eq_binds rec la lb).
    Proof.
      induction la as [|[x s] la IH]; intros [|[y s'] lb] Hl; try discriminate; cbn [eq_binds]; [apply cs_ret; constructor|].
      eapply cs_weak; [apply cs_and; [|intros _; apply IH; simpl in Hl; lia]|].
      - apply (cs_fif (x = y /\ R s s')); intros H.
        + eapply cs_weak; [apply cs_rc|]. apply String.eqb_eq in H. auto.
        + apply cs_false.
      - intros [[-> H1] H2]. constructor; auto.
    Qed.
    Lemma cs_nodb P (k1 k2 : cmp) : csound P k2 ->
      csound P (fun st => match ps_db st with Some _ => k1 st | None => k2 st end).
    Proof. intros H st b st' Hi He. destruct Hi as [D F]. rewrite D in He. apply (H st b st'); [split|]; auto. Qed.
    Lemma cs_binder q la lb a b : csound (R (TBind q la a) (TBind q lb b)) (cmp_binder rec la lb a b).
    Proof.
      unfold cmp_binder. apply cs_nodb.
      eapply cs_weak; [apply cs_and; [|intros _; apply cs_rc]|].
      - apply (cs_fif (la = lb)); intros H; [apply cs_sorts; apply Nat.eqb_eq; auto|apply cs_false].
      - intros [-> H]. apply R_bind; auto.
    Qed.
    Lemma cs_let la lb a b : csound (R (TLet la a) (TLet lb b)) (cmp_let rec la lb a b).
    Proof.
      unfold cmp_let. apply cs_nodb.
      eapply cs_weak; [apply cs_and; [|intros _; apply cs_rc]|].
      - apply (cs_fif (Forall2 (fun p q => fst p = fst q /\ R (snd p) (snd q)) la lb)); intros H;
          [apply cs_binds; apply Nat.eqb_eq; auto|apply cs_false].
      - intros [H1 H2]. apply R_let; auto.
    Qed.
    Lemma cs_chain_zip o args : forall ch, List.length args = List.length ch + 1 ->
      csound (links (p_nary c) o args ch) (cmp_chain_zip rec o args ch).
    Proof.
      induction args as [|a args IH]; intros ch Hl; [simpl in Hl; lia|].
      destruct args as [|b ra].
      { destruct ch; [|simpl in Hl; lia]. cbn. apply cs_ret. auto. }
      destruct ch as [|t rc]; [simpl in Hl; lia|].
      destruct t as [| | |o' l| | | |]; try apply cs_false. destruct l as [|x [|y [|? ?]]]; try apply cs_false.
      change (cmp_chain_zip rec o (a :: b :: ra) (TOp o' [x; y] :: rc)) with
        (if op_eqb o' o then cand (cand (eq_rc rec a x) (eq_rc rec b y)) (cmp_chain_zip rec o (b :: ra) rc) else cret false).
      apply cs_if; intros H; [|apply cs_false]. apply op_eqb_eq in H. subst o'.
      eapply cs_weak; [apply cs_and; [apply cs_and; [apply cs_rc|intros _; apply cs_rc]|intros _; apply IH; simpl in *; lia]|].
      intros [[H1 H2] H3]. split; auto. exists x, y. auto.
    Qed.
    Lemma cs_chainable o args ch : is_chain o = true ->
      csound (R (TOp o args) (TOp OAnd ch)) (cmp_chainable rec o args ch).
    Proof.
      intros Ho. unfold cmp_chainable. apply cs_if; intros H; [|apply cs_false]. apply Nat.eqb_eq in H.
      eapply cs_weak; [apply cs_chain_zip; auto|]. intros HL G1 G2. apply R_chain with (nary := p_nary c); auto.
      intros ->. unfold PolyeqSound.good in G2. discriminate G2.
    Qed.
    Lemma cs_assoc n o : forall l r, csound (assoc (p_nary c) o l r) (cmp_assoc rec n o l r).
    Proof.
      induction n as [|n IH]; intros l r; [intros st b st' _ He; discriminate|].
      assert (HS : csound (assoc (p_nary c) o l r)
         match split_args (is_right o) l, split_args (is_right o) r with
            | Some (hl, tl), Some (hr, tr) =>
                cand (eq_rc rec hl hr) (cmp_assoc rec n o (flatten_single o tl) (flatten_single o tr))
            | _, _ => cpanic
            end).
      { destruct (split_args (is_right o) l) as [[hl tl]|] eqn:Sl; [|apply cs_panic].
        destruct (split_args (is_right o) r) as [[hr tr]|] eqn:Sr; [|apply cs_panic].
        eapply cs_weak; [apply cs_and; [apply cs_rc|intros _; apply IH]|]. intros [H1 H2]. eapply assoc_step; eauto. }
      cbn [cmp_assoc].
      destruct l as [|a [|a2 l]], r as [|b [|b2 r]]; try apply HS; try apply cs_false.
      eapply cs_weak; [apply cs_rc|]. intros H. apply assoc_one; auto.
    Qed.
    Lemma cs_op n oa la ob lb : csound (R (TOp oa la) (TOp ob lb)) (cmp_op c rec n oa la ob lb).
    Proof.
      assert (HG : csound (R (TOp oa la) (TOp ob lb)) (if op_eqb oa ob then eq_list rec la lb else cret false)).
      { apply cs_if; intros H; [|apply cs_false]. apply op_eqb_eq in H. subst ob.
        eapply cs_weak; [apply cs_list|]. intros HF. apply R_op; auto. }
      assert (HN : csound (R (TOp oa la) (TOp ob lb))
        (if p_nary c then
        if negb (op_eqb oa ob) then
          if is_chain oa then (if op_eqb ob OAnd then cmp_chainable rec oa la lb else cret false)
          else if is_chain ob then (if op_eqb oa OAnd then cmp_chainable rec ob lb la else cret false)
          else cret false
        else if negb (Nat.eqb (List.length la) (List.length lb)) then
          (if is_left oa || is_right oa then cmp_assoc rec n oa la lb else cret false)
        else (if op_eqb oa ob then eq_list rec la lb else cret false)
      else (if op_eqb oa ob then eq_list rec la lb else cret false))).
      { apply cs_if; intros Hn; [|exact HG]. apply cs_if; intros Ho.
        - apply cs_if; intros Hc; [apply cs_if; intros Hand; [|apply cs_false]|].
          + apply op_eqb_eq in Hand. subst ob. apply cs_chainable; auto.
          + apply cs_if; intros Hc'; [apply cs_if; intros Hand; [|apply cs_false]|apply cs_false].
            apply op_eqb_eq in Hand. subst oa. eapply cs_weak; [apply cs_chainable; auto|]. apply R_sym.
        - apply negb_false_iff, op_eqb_eq in Ho. subst ob. apply cs_if; intros Hl.
          + apply cs_if; intros Hlr; [|apply cs_false]. eapply cs_weak; [apply cs_assoc|]. intros HA. apply R_assoc; auto.
            apply negb_true_iff, Nat.eqb_neq in Hl. exact Hl.
          + exact HG. }
      unfold cmp_op. destruct la as [|a1 [|a2 [|? ?]]]; try exact HN. destruct lb as [|b1 [|b2 [|? ?]]]; try exact HN.
      apply cs_if; intros H; [|exact HN]. rewrite !andb_true_iff in H. destruct H as [[_ H1] H2]. apply op_eqb_eq in H1, H2. subst.
      apply cs_or.
      - eapply cs_weak; [apply cs_and; [apply cs_rc|intros _; apply cs_rc]|]. intros [H1 H2]. apply R_op; auto.
      - eapply cs_weak; [apply cs_and; [apply cs_rc|intros _; apply cs_rc]|]. intros [H1 H2]. apply R_eq_flip; auto.
    Qed.
    Lemma cs_single a b : csound (R a b) (single c rec a b).
    Proof.
      unfold single. destruct a as [| | |o l| | | |]; try apply cs_false. destruct l as [|x [|? ?]]; try apply cs_false.
      apply cs_if; intros H; [|apply cs_false]. apply andb_true_iff in H. destruct H as [Hn Ho].
      assert (K : R x b -> R (TOp o [x]) b).
      { intros HR G1 G2. apply R3_trans with x; [apply (R3_one _ Hn); [rewrite Ho; reflexivity|auto]|].
        apply HR; auto. apply good_op in G1. simpl in G1. rewrite andb_true_r in G1. exact G1. }
      apply cs_if; intros E.
      - apply cs_ret. intros _. apply term_eqb_eq in E. subst. apply K, R_refl.
      - eapply cs_weak; [apply Hrec|]. exact K.
    Qed.
    Lemma cs_ratio (P : Prop) n d q : (d <> 0%Z -> Qeq_bool (inject_Z n / inject_Z d) q = true -> P) -> csound P (ratio_is n d q).
    Proof. intros H. unfold ratio_is. apply cs_if; intros Hz; [apply cs_panic|]. apply cs_ret. apply H. apply Z.eqb_neq; auto. Qed.
    Lemma cs_real_div r args : csound (R (TConst (CReal r)) (TOp ORealDiv args)) (real_div r args).
    Proof.
      unfold real_div. destruct (idx2 args) as [[x y]|] eqn:Hi; [|apply cs_panic].
      destruct x as [[|r1| |]| | | | | | |]; try apply cs_false; destruct y as [[|r2| |]| | | | | | |]; try apply cs_false.
      apply cs_if; intros H; [|apply cs_false]. apply andb_true_iff in H. destruct H as [H1 H2].
      apply cs_ratio. intros Hz Hq G1 G2. apply good_std in G2. cbn [std1] in G2. apply Nat.eqb_eq in G2.
      destruct args as [|x [|y [|? ?]]]; try discriminate G2. injection Hi as -> ->. apply R_ratio; auto.
    Qed.
    Lemma cs_div_real r args : csound (R (TOp ORealDiv args) (TConst (CReal r))) (div_real args r).
    Proof.
      assert (HN : qneg r = true -> R (TOp ORealDiv args) (TConst (CReal r))).
      { intros Hr G1 G2. apply good_std in G2. cbn [std1] in G2. unfold qneg in Hr. lia. }
      unfold div_real. destruct (idx2 args) as [[x y]|] eqn:Hi; [|apply cs_panic].
      assert (HI : forall x r2, csound (R (TOp ORealDiv args) (TConst (CReal r)))
        (if qneg r then match x with TConst (CInt r1) => ratio_is r1 r2 (qabs r) | _ => cret false end else cret false)).
      { intros x0 r2. apply cs_if; intros H; [|apply cs_false]. destruct x0 as [[]| | | | | | |]; try apply cs_false.
        apply cs_ratio. auto. }
      destruct x as [[]| | |o l| | | |]; try apply cs_false.
      - destruct y as [| | |o l| | | |]; try apply cs_false. destruct o; try apply cs_false.
        destruct l as [|? [|? ?]]; try apply cs_false. apply HI.
      - destruct y as [[|r2| |]| | | | | | |]; try apply cs_false.
        apply cs_if; intros H; [|apply cs_false]. rewrite !andb_true_iff in H. destruct H as [[_ H1] H2].
        apply cs_ratio. intros Hz Hq G1 G2. apply good_std in G1. cbn [std1] in G1. apply Nat.eqb_eq in G1.
        destruct args as [|x [|y [|? ?]]]; try discriminate G1. injection Hi as -> ->. apply R3_sym, R_ratio; auto.
      - destruct o; try apply cs_false. destruct l as [|? [|? ?]]; try apply cs_false.
        destruct y as [[]| | | | | | |]; try apply cs_false. apply HI.
    Qed.
    Lemma cs_int_neg (P : Prop) i args : (Z.ltb i 0 = true -> P) -> csound P (int_neg i args).
    Proof.
      intros HP. unfold int_neg. apply cs_if; intros H; [|apply cs_false].
      destruct args as [|[[]| | | | | | |] [|? ?]]; try apply cs_false; apply cs_ret; auto.
    Qed.
    Lemma cs_real_neg (P : Prop) r args : (qneg r = true -> P) -> csound P (real_neg r args).
    Proof.
      intros HP. unfold real_neg. apply cs_if; intros H; [|apply cs_false].
      destruct args as [|t [|? ?]]; try apply cs_false; [|destruct t as [[]| | |[]| | | |]; apply cs_false].
      destruct t as [[]| | |o l| | | |]; try apply cs_false; [apply cs_ret; auto|].
      destruct o; try apply cs_false. destruct (idx2 l) as [[x y]|]; [|apply cs_panic].
      destruct x as [[|r1| |]| | | | | | |]; try apply cs_false; destruct y as [[|r2| |]| | | | | | |]; try apply cs_false.
      apply cs_if; intros; [apply cs_ratio; auto|apply cs_false].
    Qed.
    Lemma good_int i : good (TConst (CInt i)) = true -> Z.ltb i 0 = true -> False.
    Proof. intros G H. apply good_std in G. cbn [std1] in G. lia. Qed.
    Lemma good_real r : good (TConst (CReal r)) = true -> qneg r = true -> False.
    Proof. intros G H. apply good_std in G. cbn [std1] in G. unfold qneg in H. lia. Qed.
    Lemma cs_term n a b : csound (R a b) (eq_term c rec n a b).
    Proof.
      destruct a, b;
      try (apply cs_or; [apply cs_single|apply cs_or; [eapply cs_weak; [apply cs_single|apply R_sym]|try (solve [apply cs_false|match goal with k : const |- _ => destruct k; apply cs_false end])]]).
      - apply cs_ret. apply R_const.
      - destruct c0; try apply cs_false.
        + apply cs_if; intros _; [|apply cs_false]. apply cs_int_neg. intros H G _. destruct (good_int _ G H).
        + apply cs_if; intros H; [|apply cs_if; intros _; [|apply cs_false]].
          * apply op_eqb_eq in H. subst. apply cs_real_div.
          * apply cs_real_neg. intros Hr G _. destruct (good_real _ G Hr).
      - cbn [eq_term]. intros st b st' Hi He. destruct Hi as [D F]. rewrite D in He. injection He as <- <-. split; [split; auto|discriminate].
      - cbn [eq_term]. eapply cs_weak; [apply cs_and; [apply cs_rc|intros _; apply cs_list]|]. intros [H1 H2]. apply R_app; auto.
      - destruct c0; try apply cs_false.
        + apply cs_if; intros _; [|apply cs_false]. apply cs_int_neg. intros H _ G. destruct (good_int _ G H).
        + apply cs_if; intros H; [|apply cs_if; intros _; [|apply cs_false]].
          * apply op_eqb_eq in H. subst. apply cs_div_real.
          * apply cs_real_neg. intros Hr _ G. destruct (good_real _ G Hr).
      - apply cs_op.
      - cbn [eq_term]. eapply cs_weak; [apply cs_sort|]. intros ->. apply R_refl.
      - cbn [eq_term]. apply cs_if; intros H; [|apply cs_false]. apply binder_eqb_eq in H. subst. apply cs_binder.
      - cbn [eq_term]. apply cs_let.
      - cbn [eq_term]. apply cs_if; intros H; [|apply cs_false]. apply andb_true_iff in H. destruct H as [H1 H2].
        apply pop_eqb_eq in H1. apply list_eqb_eq in H2; [|apply term_eqb_eq]. subst.
        eapply cs_weak; [apply cs_list|]. apply R_pop.
    Qed.
  End Rec.
  Lemma cs_fuel n : forall a b, csound (R a b) (eq_term_fuel c n a b).
  Proof.
    induction n as [|n IH]; intros a b; [intros st x st' _ He; discriminate|]. cbn [eq_term_fuel]. apply cs_term. exact IH.
  Qed.
  Theorem peq_R a b : peq c a b = ROk true -> R a b.
  Proof.
    unfold peq. intros H. destruct (eq_rc _ a b (st_new c)) as [[x st]| |] eqn:E; try discriminate. injection H as H. cbn [fst] in H. subst x.
    refine (proj2 (cs_rc _ (cs_fuel _) a b (st_new c) true st _ E) eq_refl).
    unfold st_new. rewrite Ha. split; cbn; auto.
  Qed.
End Main.
Lemma all_sub_and P Q t : all_sub P t = true -> all_sub Q t = true -> all_sub (fun t => P t && Q t) t = true.
Proof.
  induction t using term_ind'; cbn [all_sub]; intros H1 H2; apply andb_true_iff in H1, H2; destruct H1 as [H1 K1], H2 as [H2 K2];
    rewrite H1, H2; cbn [andb]; auto.
  - apply andb_true_iff in K1, K2. destruct K1, K2. rewrite IHt by auto. cbn [andb].
    rewrite forallb_forall in *. rewrite Forall_forall in H. auto.
  - rewrite forallb_forall in *. rewrite Forall_forall in H. auto.
  - apply andb_true_iff in K1, K2. destruct K1, K2. rewrite IHt by auto. rewrite andb_true_r.
    rewrite forallb_forall in *. rewrite Forall_forall in H. auto.
  - rewrite forallb_forall in *. rewrite Forall_forall in H0. auto.
Qed.
Lemma all_sub_ext P Q t : (forall u, P u = Q u) -> all_sub P t = true -> all_sub Q t = true.
Proof. intros H. apply all_sub_impl. intros u Hu. rewrite <- H. exact Hu. Qed.
Lemma good_plain t : wt t = true -> std_lits t = true -> scoped t = true -> good false t = true.
Proof.
  intros H1 H2 H3. unfold good. rewrite H1. cbn [andb]. eapply all_sub_ext; [|apply (all_sub_and _ _ _ H2 H3)].
  intros u. unfold good1. rewrite andb_true_r. reflexivity.
Qed.
Lemma good_assume t : wt t = true -> std_lits t = true -> scoped t = true -> no_unary_minus t = true -> good true t = true.
Proof.
  intros H1 H2 H3 H4. unfold good. rewrite H1. cbn [andb]. eapply all_sub_ext; [|apply (all_sub_and _ _ _ (all_sub_and _ _ _ H2 H3) H4)].
  intros u. reflexivity.
Qed.
Theorem polyeq_sound a b : polyeq a b = ROk true -> wt a = true -> wt b = true ->
  std_lits a = true -> std_lits b = true -> scoped a = true -> scoped b = true ->
  forall (I : interp) (E : env I), env_ok E -> eval a E = eval b E.
Proof.
  intros H W1 W2 L1 L2 S1 S2. apply (peq_R cfg_polyeq eq_refl a b H); apply good_plain; auto.
Qed.
Theorem assume_eq_sound a b : assume_eq a b = ROk true -> wt a = true -> wt b = true ->
  std_lits a = true -> std_lits b = true -> scoped a = true -> scoped b = true ->
  no_unary_minus a = true -> no_unary_minus b = true ->
  forall (I : interp) (E : env I), env_ok E -> eval a E = eval b E.
Proof.
  intros H W1 W2 L1 L2 S1 S2 N1 N2. apply (peq_R cfg_assume eq_refl a b H); apply good_assume; auto.
Qed.
