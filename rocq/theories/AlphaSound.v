(** Terms identified up to renaming of bound variables denote the same value, if no name is bound twice on a path
    or both bound and free, no [let] occurs and no binder's list is a proper prefix (in sorts) of another's. *)
From Coq Require Import List String ZArith QArith Bool Arith Lia Field.
From Verif Require Import Term Field Sem Sorting Base Rules R_Taut Utils Num Polyeq Std PolyeqSound Subst SubstSound.
Import ListNotations.
Local Open Scope nat_scope.

(** ** The condition (specification) *)
Definition names (vs : list (string * sort)) : list string := map fst vs.
Fixpoint nodup_b (l : list string) : bool :=
  match l with [] => true | x :: r => negb (memb String.eqb x r) && nodup_b r end.
(** the lists have the same length, or their sorts differ at a common position *)
Definition compat (vs vs' : list (string * sort)) : bool :=
  Nat.eqb (List.length vs) (List.length vs') ||
  existsb (fun p => negb (sort_eqb (fst p) (snd p))) (combine (map snd vs) (map snd vs')).
Fixpoint binders (t : term) : list (binder * list (string * sort)) :=
  match t with
  | TConst _ | TSort _ | TVar _ _ => []
  | TApp f args => binders f ++ flat_map binders args
  | TOp _ args | TPOp _ _ args => flat_map binders args
  | TBind q vs body => (q, vs) :: binders body
  | TLet bs body => flat_map (fun p => binders (snd p)) bs ++ binders body
  end.
(** [F]: the names that may not be bound *)
Fixpoint a_ok (F : list string) (t : term) : bool :=
  match t with
  | TConst _ | TSort _ | TVar _ _ => true
  | TApp f args => a_ok F f && forallb (a_ok F) args
  | TOp _ args | TPOp _ _ args => forallb (a_ok F) args
  | TBind q vs body =>
      nodup_b (names vs) && forallb (fun x => negb (memb String.eqb x F)) (names vs) &&
      forallb (fun v => forallb (sort_eqb (snd v)) (free_sorts (fst v) body)) vs && a_ok (names vs ++ F) body
  | TLet _ _ => false
  end.
Definition alpha_side1 (t : term) : bool := std_lits t && a_ok (names (fvars t)) t.
Definition alpha_side (a b : term) : bool :=
  alpha_side1 a && alpha_side1 b &&
  forallb (fun p => forallb (fun q => negb (binder_beq (fst p) (fst q)) || compat (snd p) (snd q)) (binders b)) (binders a).

Lemma a_ok_no_let t : forall F, a_ok F t = true -> no_let t = true.
Proof.
  induction t using term_ind'; intros F; cbn [a_ok no_let]; auto.
  - rewrite !andb_true_iff. intros [H1 H2]. split; [eapply IHt; eauto|]. rewrite forallb_forall in *. rewrite Forall_forall in H. intros x Hx. eapply H; eauto.
  - intros H1. rewrite forallb_forall in *. rewrite Forall_forall in H. intros x Hx. eapply H; eauto.
  - rewrite !andb_true_iff. intros [_ H]. eapply IHt; eauto.
  - intros H1. rewrite forallb_forall in *. rewrite Forall_forall in H0. intros x Hx. eapply H0; eauto.
Qed.
Lemma memb_str x l : memb String.eqb x l = true <-> In x l.
Proof. apply memb_In. intros. apply String.eqb_eq. Qed.
Lemma nodup_b_spec l : nodup_b l = true -> NoDup l.
Proof.
  induction l as [|x l IH]; cbn [nodup_b]; intros H; [constructor|]. apply andb_true_iff in H. destruct H as [H1 H2]. constructor; auto.
  intros Hi. apply memb_str in Hi. rewrite Hi in H1. discriminate.
Qed.

Notation scopes := (list (list (string * nat))).
Definition dbc (ra rb : scopes) (x y : string) : bool :=
  match scopes_get ra x, scopes_get rb y with
  | None, None => String.eqb x y
  | Some i, Some j => Nat.eqb i j
  | _, _ => false
  end.
Definition dom (r : scopes) : list string := flat_map (map fst) r.

(** what a successful comparison under the renaming [ra], [rb] means *)
Definition rel (ra rb : scopes) (a b : term) {I : interp} (E1 E2 : env I) : Prop :=
  forall x y s, free_in x s a = true -> free_in y s b = true -> dbc ra rb x y = true -> E1 x s = E2 y s.
Definition V (ra rb : scopes) (a b : term) : Prop :=
  (forall (I : interp) (E1 E2 : env I), env_ok E1 -> env_ok E2 -> rel ra rb a b E1 E2 -> eval a E1 = eval b E2) /\ srt_eq a b.

Lemma wt_args o l : wt (TOp o l) = true -> forallb wt l = true.
Proof. cbn [wt]. intros H. apply andb_true_iff in H. tauto. Qed.
Section Sec.
  Context (FA FB : list string) (BB : list (binder * list (string * sort))).
  Inductive dwf : scopes -> scopes -> list nat -> Prop :=
  | dwf0 : dwf [[]] [[]] [0]
  | dwfS ra rb c rc xs ys : dwf ra rb (c :: rc) -> List.length xs = List.length ys -> NoDup xs -> NoDup ys ->
      (forall x, In x xs -> ~ In x (dom ra ++ FA)) -> (forall y, In y ys -> ~ In y (dom rb ++ FB)) ->
      dwf (combine xs (seq c (List.length xs)) :: ra) (combine ys (seq c (List.length xs)) :: rb) (c + List.length xs :: c :: rc).

  Lemma combine_get xs : forall c x i, im_get String.eqb (combine xs (seq c (List.length xs))) x = Some i ->
    NoDup xs -> c <= i < c + List.length xs /\ nth_error xs (i - c) = Some x.
  Proof.
    induction xs as [|z xs IH]; intros c x i H HN; cbn in H; [discriminate|]. apply NoDup_cons_iff in HN. destruct HN as [HN1 HN2].
    destruct (String.eqb_spec x z) as [->|Hn].
    - injection H as <-. cbn [List.length]. split; [lia|]. replace (c - c) with 0 by lia. reflexivity.
    - apply IH in H; auto. destruct H as [H1 H2]. cbn [List.length]. split; [lia|]. replace (i - c) with (S (i - S c)) by lia. exact H2.
  Qed.
  Lemma combine_get_none xs x n c : n = List.length xs -> im_get String.eqb (combine xs (seq c n)) x = None <-> ~ In x xs.
  Proof.
    intros ->. revert c. induction xs as [|z xs IH]; intros c; cbn; [tauto|].
    destruct (String.eqb_spec x z) as [->|Hn]; [split; [discriminate|tauto]|]. rewrite IH. split; [intros H [H1|H1]; congruence|tauto].
  Qed.
  Lemma dwf_lt ra rb rc : dwf ra rb rc -> (forall x i, scopes_get ra x = Some i -> i < hd 0 rc) /\ (forall x i, scopes_get rb x = Some i -> i < hd 0 rc).
  Proof.
    induction 1 as [|ra rb c rc xs ys H [IH1 IH2] HL N1 N2 _ _]; split; intros x i; cbn [scopes_get hd]; try discriminate.
    - destruct (im_get String.eqb _ x) as [j|] eqn:E; [intros Hj; injection Hj as <-|].
      + apply combine_get in E; auto. lia.
      + intros Hi. specialize (IH1 _ _ Hi). cbn in IH1. lia.
    - rewrite HL. destruct (im_get String.eqb _ x) as [j|] eqn:E; [intros Hj; injection Hj as <-|].
      + apply combine_get in E; auto. lia.
      + intros Hi. specialize (IH2 _ _ Hi). cbn in IH2. lia.
  Qed.
  Lemma dom_cons xs n c r : n = List.length xs -> dom (combine xs (seq c n) :: r) = xs ++ dom r.
  Proof.
    intros ->. unfold dom. cbn [flat_map]. f_equal. revert c. induction xs as [|x xs IH]; intros c; cbn; [reflexivity|]. rewrite IH. reflexivity.
  Qed.
  Lemma scopes_in r x : scopes_get r x <> None <-> In x (dom r).
  Proof.
    induction r as [|m r IH]; cbn; [tauto|]. rewrite in_app_iff, <- IH. clear IH.
    assert (K : im_get String.eqb m x <> None <-> In x (map fst m)).
    { induction m as [|[y n] m IHm]; cbn; [tauto|]. destruct (String.eqb_spec x y) as [->|Hn]; [split; [auto|discriminate]|].
      rewrite IHm. split; [auto|intros [H|H]; congruence]. }
    destruct (im_get String.eqb m x); [split; [intros _; left; apply K; discriminate|intros _; discriminate]|].
    split; [auto|intros [H|H]; auto]. apply K in H. congruence.
  Qed.

  (** free names are in scope *)
  Definition fin (F : list string) (r : scopes) (t : term) : Prop := forall x s, free_in x s t = true -> In x (dom r ++ F).
  Definition GA (ra : scopes) (a : term) : Prop := wt a = true /\ std_lits a = true /\ a_ok (dom ra ++ FA) a = true /\ fin FA ra a /\
    forall q vs, In (q, vs) (binders a) -> forall vs', In (q, vs') BB -> compat vs vs' = true.
  Definition GB (rb : scopes) (b : term) : Prop := wt b = true /\ std_lits b = true /\ a_ok (dom rb ++ FB) b = true /\ fin FB rb b /\ incl (binders b) BB.
  Definition okp (ra rb : scopes) (p : term * term) : Prop := fin FA ra (fst p) /\ fin FB rb (snd p) /\ V ra rb (fst p) (snd p).
  Fixpoint cwf (ra rb : scopes) (ch : list (list (term * term))) : Prop :=
    match ch with [] => True | c0 :: cr => Forall (okp ra rb) c0 /\ cwf (tl ra) (tl rb) cr end.

  Lemma okp_up ra rb rc u v : dwf ra rb rc -> okp (tl ra) (tl rb) (u, v) -> okp ra rb (u, v).
  Proof.
    intros HD [H1 [H2 [H3 H4]]]. cbn [fst snd] in *. inversion HD as [|ra' rb' c rc' xs ys HD' HL N1 N2 D1 D2]; subst; clear HD.
    - split; [|split]; auto. split; auto.
    - cbn [tl] in *. split; [|split]; cbn [fst snd].
      + intros x s Hx. rewrite dom_cons by reflexivity. rewrite <- app_assoc. apply in_or_app. right. eapply H1; eauto.
      + intros x s Hx. rewrite dom_cons by auto. rewrite <- app_assoc. apply in_or_app. right. eapply H2; eauto.
      + split; auto. intros I E1 E2 HE1 HE2 HR. apply H3; auto. intros x y s Hx Hy Hc. apply HR; auto.
        unfold dbc in *. cbn [scopes_get].
        assert (im_get String.eqb (combine xs (seq c (List.length xs))) x = None) as ->.
        { apply combine_get_none; auto. intros Hi. apply (D1 _ Hi). eapply H1; eauto. }
        assert (im_get String.eqb (combine ys (seq c (List.length xs))) y = None) as ->.
        { apply combine_get_none; auto. intros Hi. apply (D2 _ Hi). eapply H2; eauto. }
        exact Hc.
  Qed.
  Lemma cwf_mem ch : forall ra rb rc u v, dwf ra rb rc -> cwf ra rb ch -> List.length ch <= List.length ra ->
    existsb (existsb (pair_eqb (u, v))) ch = true -> V ra rb u v.
  Proof.
    assert (K : forall ch ra rb rc u v, dwf ra rb rc -> cwf ra rb ch -> List.length ch <= List.length ra ->
      existsb (existsb (pair_eqb (u, v))) ch = true -> okp ra rb (u, v)).
    { clear ch. induction ch as [|c0 cr IH]; intros ra rb rc u v HD HC HL H; cbn [existsb] in H; [discriminate|]. cbn [cwf] in HC. destruct HC as [HC1 HC2].
      apply orb_true_iff in H. destruct H as [H|H].
      - apply existsb_exists in H. destruct H as [[u' v'] [Hi H]]. unfold pair_eqb in H. cbn [fst snd] in H. apply andb_true_iff in H.
        destruct H as [Hu Hv]. apply term_eqb_eq in Hu, Hv. subst. rewrite Forall_forall in HC1. apply HC1; auto.
      - apply (okp_up ra rb rc); auto. inversion HD as [|ra' rb' c rc' xs ys HD' HL' N1 N2 D1 D2]; subst.
        + destruct cr; [discriminate|cbn in HL; lia].
        + cbn [tl] in *. eapply IH; eauto. cbn in HL. lia. }
    intros. eapply K; eauto.
  Qed.

  Definition Inv (ra rb : scopes) (rc : list nat) (st : pst) : Prop :=
    ps_db st = Some {| db_a := ra; db_b := rb; db_cnt := rc |} /\ cwf ra rb (ps_cache st) /\ List.length (ps_cache st) = List.length ra.
  Definition csound (ra rb : scopes) (rc : list nat) (P : Prop) (k : cmp) : Prop :=
    forall st b st', Inv ra rb rc st -> k st = ROk (b, st') -> Inv ra rb rc st' /\ (b = true -> P).
  Section Comb.
  Context (ra rb : scopes) (rc : list nat) (HD : dwf ra rb rc).
  Notation csound := (csound ra rb rc).
  Lemma cs_weak (P Q : Prop) k : csound P k -> (P -> Q) -> csound Q k.
  Proof. intros H HPQ st b st' Hi He. destruct (H st b st' Hi He). auto. Qed.
  Lemma cs_ret (P : Prop) b : (b = true -> P) -> csound P (cret b).
  Proof. intros H st b' st' Hi He. unfold cret in He. injection He as <- <-. auto. Qed.
  Lemma cs_false P : csound P (cret false).
  Proof. apply cs_ret. discriminate. Qed.
  Lemma cs_panic P : csound P cpanic.
  Proof. intros st b st' _ He. discriminate. Qed.
  Lemma cs_and P Q x y : csound P x -> (P -> csound Q y) -> csound (P /\ Q) (cand x y).
  Proof.
    intros Hx Hy st b st' Hi He. unfold cand in He. destruct (x st) as [[b1 st1]| |] eqn:Ex; try discriminate. cbn [obind fst snd] in He.
    destruct (Hx _ _ _ Hi Ex) as [Hi1 HP]. destruct b1.
    - destruct (Hy (HP eq_refl) _ _ _ Hi1 He) as [Hi2 HQ]. auto.
    - injection He as <- <-. split; [auto|discriminate].
  Qed.
  Lemma cs_or P x y : csound P x -> csound P y -> csound P (cor x y).
  Proof.
    intros Hx Hy st b st' Hi He. unfold cor in He. destruct (x st) as [[b1 st1]| |] eqn:Ex; try discriminate. cbn [obind fst snd] in He.
    destruct (Hx _ _ _ Hi Ex) as [Hi1 HP]. destruct b1.
    - injection He as <- <-. auto.
    - apply (Hy _ _ _ Hi1 He).
  Qed.
  Lemma cs_if P (b : bool) x y : (b = true -> csound P x) -> (b = false -> csound P y) -> csound P (if b then x else y).
  Proof. destruct b; auto. Qed.
  Lemma cs_sort a b : csound (a = b) (sort_cmp a b).
  Proof.
    intros st x st' Hi He. unfold sort_cmp in He. injection He as <- <-. split; auto. intros H. apply andb_true_iff in H.
    apply sort_eqb_eq. tauto.
  Qed.
  Lemma cs_ratio (P : Prop) n d q : (d <> 0%Z -> Qeq_bool (inject_Z n / inject_Z d) q = true -> P) -> csound P (ratio_is n d q).
  Proof. intros H. unfold ratio_is. apply cs_if; intros Hz; [apply cs_panic|]. apply cs_ret. apply H. apply Z.eqb_neq; auto. Qed.

  (** ** Closure of [V] *)
  Notation V := (V ra rb).
  Lemma rel_sub a b a' b' (I : interp) (E1 E2 : env I) : rel ra rb a b E1 E2 ->
    (forall x s, free_in x s a' = true -> free_in x s a = true) -> (forall x s, free_in x s b' = true -> free_in x s b = true) ->
    rel ra rb a' b' E1 E2.
  Proof. intros H H1 H2 x y s Hx Hy Hc. apply H; auto. Qed.
  Lemma V_lists la lb : Forall2 V la lb -> forall (I : interp) (E1 E2 : env I), env_ok E1 -> env_ok E2 ->
    (forall a b, In a la -> In b lb -> rel ra rb a b E1 E2) ->
    map (fun a => eval a E1) la = map (fun a => eval a E2) lb.
  Proof.
    induction 1 as [|a b la lb [H _] _ IH]; intros I E1 E2 HE1 HE2 HR; cbn; [reflexivity|]. f_equal.
    - apply H; auto. apply HR; left; reflexivity.
    - apply IH; auto. intros a' b' Ha Hb. apply HR; right; auto.
  Qed.
  Lemma V_srts la lb : Forall2 V la lb -> map num_erase (map sort_of la) = map num_erase (map sort_of lb).
  Proof. induction 1 as [|a b la lb [_ H] _ IH]; cbn; [reflexivity|]. rewrite H, IH. reflexivity. Qed.
  Lemma free_args x s a l : In a l -> free_in x s a = true -> existsb (free_in x s) l = true.
  Proof. intros H1 H2. apply existsb_exists. exists a. auto. Qed.
  Lemma wt_nbv o args : wt (TOp o args) = true -> sort_of (TOp o args) = op_sort o (map sort_of args).
  Proof.
    intros H. apply sort_of_op. intros ->. cbn [wt] in H. apply andb_true_iff in H. destruct H as [_ H]. destruct (map sort_of args); discriminate.
  Qed.
  Lemma V_op o la lb : wt (TOp o la) = true -> wt (TOp o lb) = true -> Forall2 V la lb -> V (TOp o la) (TOp o lb).
  Proof.
    intros W1 W2 H. split.
    - intros I E1 E2 HE1 HE2 HR. cbn [eval]. rewrite (V_lists _ _ H I E1 E2 HE1 HE2); [reflexivity|].
      intros a b Ha Hb. eapply rel_sub; [exact HR| |]; intros x s Hx; cbn [free_in]; eapply free_args; eauto.
    - unfold srt_eq. rewrite (wt_nbv _ _ W1), (wt_nbv _ _ W2). apply op_sort_erase, V_srts; auto.
  Qed.
  Lemma V_pop o oa la lb : Forall2 V la lb -> V (TPOp o oa la) (TPOp o oa lb).
  Proof.
    intros H. split.
    - intros I E1 E2 HE1 HE2 HR. cbn [eval]. rewrite (V_lists _ _ H I E1 E2 HE1 HE2); [reflexivity|].
      intros a b Ha Hb. eapply rel_sub; [exact HR| |]; intros x s Hx; cbn [free_in]; eapply free_args; eauto.
    - unfold srt_eq. cbn [sort_of]. apply pop_sort_erase, V_srts; auto.
  Qed.
  Lemma V_app f g la lb : V f g -> Forall2 V la lb -> V (TApp f la) (TApp g lb).
  Proof.
    intros [Hf Hs] H. split.
    - intros I E1 E2 HE1 HE2 HR. cbn [eval]. rewrite (V_lists _ _ H I E1 E2 HE1 HE2); [rewrite (Hf I E1 E2); auto|].
      + eapply rel_sub; [exact HR| |]; intros x s Hx; cbn [free_in]; rewrite Hx; reflexivity.
      + intros a b Ha Hb. eapply rel_sub; [exact HR| |]; intros x s Hx; cbn [free_in]; apply orb_true_iff; right; eapply free_args; eauto.
    - unfold srt_eq in *. cbn [sort_of]. destruct (sort_of f), (sort_of g); cbn in Hs; try discriminate; try reflexivity.
      injection Hs as Hs. apply num_erase_last; auto.
  Qed.
  Lemma V_eq_flip a1 a2 b1 b2 : V a1 b2 -> V a2 b1 -> V (TOp OEquals [a1; a2]) (TOp OEquals [b1; b2]).
  Proof.
    intros [H1 _] [H2 _]. split; [|reflexivity]. intros I E1 E2 HE1 HE2 HR. cbn [eval map eval_op chain].
    rewrite (H1 I E1 E2), (H2 I E1 E2); auto.
    - rewrite veqb_sym. reflexivity.
    - eapply rel_sub; [exact HR| |]; intros x s Hx; cbn [free_in existsb]; rewrite Hx, ?orb_true_r; reflexivity.
    - eapply rel_sub; [exact HR| |]; intros x s Hx; cbn [free_in existsb]; rewrite Hx, ?orb_true_r; reflexivity.
  Qed.
  (** terms without free variables *)
  Lemma V_closed a b : R3 a b -> (forall x s, free_in x s a = false) -> V a b.
  Proof.
    intros [H1 [H2 H3]] Hc. split; auto. intros I E1 E2 HE1 HE2 _. rewrite (H1 I E1 HE1). apply eval_agree. intros x s Hx.
    rewrite <- H2, Hc in Hx. discriminate.
  Qed.
  Lemma empty_get r x : scopes_empty r = true -> scopes_get r x = None.
  Proof. induction r as [|[|p m] r IH]; cbn; intros H; try discriminate; auto. Qed.
  Lemma V_same a : scopes_empty ra = true -> scopes_empty rb = true -> V a a.
  Proof.
    intros H1 H2. split; [|reflexivity]. intros I E1 E2 _ _ HR. apply eval_agree. intros x s Hx. apply HR; auto.
    unfold dbc. rewrite !empty_get by auto. apply String.eqb_refl.
  Qed.

  Section Rec.
    Context (rec : term -> term -> cmp) (Hrec : forall a b, GA ra a -> GB rb b -> csound (V a b) (rec a b)).
    Lemma cs_rc a b : GA ra a -> GB rb b -> csound (V a b) (eq_rc rec a b).
    Proof.
      intros Ga Gb st x st' Hi He. unfold eq_rc in He.
      destruct (negb (renamed st) && term_eqb a b) eqn:E1.
      { injection He as <- <-. split; auto. intros _. apply andb_true_iff in E1. destruct E1 as [E0 E1].
        apply term_eqb_eq in E1. subst. destruct Hi as [Hi _]. unfold renamed in E0. rewrite Hi in E0.
        rewrite negb_involutive in E0. unfold db_is_empty in E0. cbn in E0. apply andb_true_iff in E0. apply V_same; tauto. }
      destruct (cache_mem st a b) eqn:E2.
      { injection He as <- <-. split; auto. intros _. destruct Hi as [_ [Hi Hl]]. eapply cwf_mem; eauto. lia. }
      destruct (rec a b st) as [[b1 st1]| |] eqn:Er; try discriminate. cbn [obind fst snd] in He.
      destruct (Hrec a b Ga Gb _ _ _ Hi Er) as [Hi1 HR]. destruct b1.
      - unfold cache_insert in He. destruct (ps_cache st1) as [|m r] eqn:Ec; [discriminate|]. cbn [obind] in He. injection He as <- <-.
        split; auto. destruct Hi1 as [D [F L]]. rewrite Ec in F, L. split; [|split]; cbn [ps_db ps_cache]; auto.
        cbn [cwf] in *. destruct F as [F1 F2]. split; auto. constructor; auto. destruct Ga as (_ & _ & _ & Ga & _), Gb as (_ & _ & _ & Gb & _).
        split; [|split]; auto.
      - injection He as <- <-. split; [auto|discriminate].
    Qed.
    Lemma cs_zip la : forall lb, Forall (GA ra) la -> Forall (GB rb) lb -> List.length la = List.length lb -> csound (Forall2 V la lb) (eq_zip rec la lb).
    Proof.
      induction la as [|a la IH]; intros [|b lb] Ga Gb Hl; try discriminate; cbn [eq_zip]; [apply cs_ret; constructor|].
      inversion Ga; inversion Gb; subst.
      eapply cs_weak; [apply cs_and; [apply cs_rc; auto|intros _; apply IH; auto; simpl in Hl; lia]|]. intros [H1' H2']. constructor; auto.
    Qed.
    Lemma cs_list la lb : Forall (GA ra) la -> Forall (GB rb) lb -> csound (Forall2 V la lb) (eq_list rec la lb).
    Proof.
      intros Ga Gb. unfold eq_list. apply cs_if; intros H; [|apply cs_false]. apply cs_zip; auto. apply Nat.eqb_eq; auto.
    Qed.
    Lemma cs_nodb P (k1 k2 : cmp) : csound P k1 ->
      csound P (fun st => match ps_db st with Some _ => k1 st | None => k2 st end).
    Proof. intros H st b st' Hi He. pose proof Hi as [D _]. rewrite D in He. apply (H st b st'); auto. Qed.
  End Rec.
  End Comb.

  (** goodness of subterms *)
  Lemma GA_args ra l : (forall x s, existsb (free_in x s) l = true -> In x (dom ra ++ FA)) -> forallb wt l = true -> forallb std_lits l = true ->
    forallb (a_ok (dom ra ++ FA)) l = true ->
    (forall q vs, In (q, vs) (flat_map binders l) -> forall vs', In (q, vs') BB -> compat vs vs' = true) -> Forall (GA ra) l.
  Proof.
    intros H1 H2 H3 H4 H5. rewrite Forall_forall. intros a Ha. rewrite forallb_forall in *. split; [|split; [|split; [|split]]]; auto.
    - intros x s Hx. apply (H1 x s). apply existsb_exists. exists a. auto.
    - intros q vs Hq. apply H5. apply in_flat_map. exists a. auto.
  Qed.
  Lemma GB_args rb l : (forall x s, existsb (free_in x s) l = true -> In x (dom rb ++ FB)) -> forallb wt l = true -> forallb std_lits l = true ->
    forallb (a_ok (dom rb ++ FB)) l = true -> incl (flat_map binders l) BB -> Forall (GB rb) l.
  Proof.
    intros H1 H2 H3 H4 H5. rewrite Forall_forall. intros a Ha. rewrite forallb_forall in *. split; [|split; [|split; [|split]]]; auto.
    - intros x s Hx. apply (H1 x s). apply existsb_exists. exists a. auto.
    - intros q Hq. apply H5. apply in_flat_map. exists a. auto.
  Qed.
  Lemma std_args o args : std_lits (TOp o args) = true -> forallb std_lits args = true.
  Proof. unfold std_lits. cbn [all_sub]. intros H. apply andb_true_iff in H. tauto. Qed.
  Lemma GA_op ra o l : GA ra (TOp o l) -> Forall (GA ra) l.
  Proof. intros (H1 & H2 & H3 & H4 & H5). apply GA_args; auto; [apply (wt_args o); auto|apply (std_args o); auto]. Qed.
  Lemma GB_op rb o l : GB rb (TOp o l) -> Forall (GB rb) l.
  Proof. intros (H1 & H2 & H3 & H4 & H5). apply GB_args; auto; [apply (wt_args o); auto|apply (std_args o); auto]. Qed.
  Lemma GA_pop ra o oa l : GA ra (TPOp o oa l) -> Forall (GA ra) l.
  Proof.
    intros (H1 & H2 & H3 & H4 & H5). cbn [wt] in H1. apply andb_true_iff in H1. unfold std_lits in H2. cbn [all_sub] in H2. apply andb_true_iff in H2.
    apply GA_args; auto; tauto.
  Qed.
  Lemma GB_pop ra o oa l : GB ra (TPOp o oa l) -> Forall (GB ra) l.
  Proof.
    intros (H1 & H2 & H3 & H4 & H5). cbn [wt] in H1. apply andb_true_iff in H1. unfold std_lits in H2. cbn [all_sub] in H2. apply andb_true_iff in H2.
    apply GB_args; auto; tauto.
  Qed.
  Lemma GA_app ra f l : GA ra (TApp f l) -> Forall (GA ra) (f :: l).
  Proof.
    intros (H1 & H2 & H3 & H4 & H5). cbn [wt] in H1. rewrite !andb_true_iff in H1. unfold std_lits in H2. cbn [all_sub] in H2. rewrite !andb_true_iff in H2.
    cbn [a_ok] in H3. rewrite andb_true_iff in H3. apply GA_args; auto; cbn [forallb]; rewrite andb_true_iff; try tauto.
  Qed.
  Lemma GB_app ra f l : GB ra (TApp f l) -> Forall (GB ra) (f :: l).
  Proof.
    intros (H1 & H2 & H3 & H4 & H5). cbn [wt] in H1. rewrite !andb_true_iff in H1. unfold std_lits in H2. cbn [all_sub] in H2. rewrite !andb_true_iff in H2.
    cbn [a_ok] in H3. rewrite andb_true_iff in H3. apply GB_args; auto; cbn [forallb]; rewrite andb_true_iff; try tauto.
  Qed.
  Lemma bind_conds F q vs a : a_ok F (TBind q vs a) = true -> NoDup (names vs) /\ (forall x, In x (names vs) -> ~ In x F) /\
    (forall x s, In (x, s) vs -> forall s', free_in x s' a = true -> s' = s) /\ a_ok (names vs ++ F) a = true.
  Proof.
    cbn [a_ok]. rewrite !andb_true_iff. intros [[[H1 H2] H3] H4]. split; [apply nodup_b_spec; auto|]. split; [|split; auto].
    - intros x Hx Hf. rewrite forallb_forall in H2. specialize (H2 _ Hx). apply memb_str in Hf. rewrite Hf in H2. discriminate.
    - intros x s Hx s' Hf. rewrite forallb_forall in H3. specialize (H3 _ Hx). cbn [fst snd] in H3. rewrite forallb_forall in H3.
      apply free_sorts_spec in Hf. specialize (H3 _ Hf). apply sort_eqb_eq in H3. auto.
  Qed.
  Lemma bind_free x s q vs a : free_in x s a = true -> In x (names vs) \/ free_in x s (TBind q vs a) = true.
  Proof.
    intros H. cbn [free_in]. rewrite H. destruct (existsb (svar_eqb (x, s)) vs) eqn:E; [left|right; reflexivity].
    apply svar_mem in E. apply (in_map fst) in E. exact E.
  Qed.
  Lemma GA_bind ra q vs a c : GA ra (TBind q vs a) -> GA (combine (names vs) (seq c (List.length (names vs))) :: ra) a.
  Proof.
    intros (H1 & H2 & H3 & H4 & H5). apply bind_conds in H3. destruct H3 as (_ & _ & _ & H3).
    split; [cbn [wt] in H1; rewrite !andb_true_iff in H1; tauto|].
    split; [unfold std_lits in *; cbn [all_sub] in H2; rewrite !andb_true_iff in H2; tauto|]. unfold fin. rewrite dom_cons by reflexivity. rewrite <- app_assoc.
    split; [exact H3|]. split.
    - intros x s Hx. apply in_or_app. destruct (bind_free x s q vs a Hx) as [H|H]; [auto|right; apply (H4 x s); auto].
    - intros q' vs' Hq. apply H5. right. exact Hq.
  Qed.
  Lemma GB_bind ra q vs a c n : n = List.length (names vs) -> GB ra (TBind q vs a) -> GB (combine (names vs) (seq c n) :: ra) a.
  Proof.
    intros Hn (H1 & H2 & H3 & H4 & H5). apply bind_conds in H3. destruct H3 as (_ & _ & _ & H3).
    split; [cbn [wt] in H1; rewrite !andb_true_iff in H1; tauto|].
    split; [unfold std_lits in *; cbn [all_sub] in H2; rewrite !andb_true_iff in H2; tauto|]. unfold fin. rewrite dom_cons by auto. rewrite <- app_assoc.
    split; [exact H3|]. split.
    - intros x s Hx. apply in_or_app. destruct (bind_free x s q vs a Hx) as [H|H]; [auto|right; apply (H4 x s); auto].
    - intros q' Hq. apply H5. right. exact Hq.
  Qed.

  (** ** Binders *)
  Lemma eval_bind_srt {I : interp} q vs s s' (f : env I -> value I) E : num_erase s = num_erase s' -> eval_bind q vs s f E = eval_bind q vs s' f E.
  Proof. intros H. destruct q; cbn [eval_bind]; rewrite ?H; reflexivity. Qed.
  Lemma upds_nth {I : interp} vs : forall (vals : list (value I)) (E : env I) k x s v, NoDup (names vs) -> nth_error vs k = Some (x, s) ->
    nth_error vals k = Some v -> upds E vs vals x s = v.
  Proof.
    induction vs as [|[y s'] vs IH]; intros vals E k x s v HN Hk Hv; [destruct k; discriminate|]. destruct vals as [|w vals]; [destruct k; discriminate|].
    cbn [upds]. cbn in HN. apply NoDup_cons_iff in HN. destruct HN as [HN1 HN2]. destruct k as [|k]; cbn in Hk, Hv.
    - injection Hk as -> ->. injection Hv as ->. rewrite upds_notin; [apply upd_same|]. intros Hi. apply HN1. apply (in_map fst) in Hi. exact Hi.
    - eapply IH; eauto.
  Qed.
  Lemma V_bind ra rb c rc q la lb a b : dwf ra rb (c :: rc) -> map snd la = map snd lb -> NoDup (names la) -> NoDup (names lb) ->
    (forall x s, In (x, s) la -> forall s', free_in x s' a = true -> s' = s) ->
    (forall x s, In (x, s) lb -> forall s', free_in x s' b = true -> s' = s) ->
    V (combine (names la) (seq c (List.length (names la))) :: ra) (combine (names lb) (seq c (List.length (names la))) :: rb) a b ->
    V ra rb (TBind q la a) (TBind q lb b).
  Proof.
    intros HD Hs N1 N2 S1 S2 [HV HS].
    assert (HL : List.length (names la) = List.length (names lb)).
    { pose proof (f_equal (@List.length _) Hs) as HL. rewrite !map_length in HL. unfold names. rewrite !map_length. exact HL. }
    destruct (dwf_lt _ _ _ HD) as [L1 L2]. cbn [hd] in L1, L2. split.
    - intros I E1 E2 HE1 HE2 HR. cbn [eval]. rewrite (eval_bind_srt q la (sort_of a) (sort_of b)) by exact HS.
      apply eval_bind_ext2; auto. intros vals Hd. apply HV; [apply env_ok_upds; auto; rewrite Hs; exact Hd|apply env_ok_upds; auto|].
      pose proof (doms_length _ _ Hd) as HLv. rewrite map_length in HLv.
      assert (HLb : List.length lb = List.length (names la)) by (rewrite HL; unfold names; rewrite map_length; reflexivity).
      intros x y s Hx Hy Hc. unfold dbc in Hc. cbn [scopes_get] in Hc.
      destruct (im_get String.eqb (combine (names la) _) x) as [i|] eqn:Gx; destruct (im_get String.eqb (combine (names lb) _) y) as [j|] eqn:Gy.
      + apply Nat.eqb_eq in Hc. subst j. rewrite HL in Gy. apply combine_get in Gx; auto. apply combine_get in Gy; auto.
        destruct Gx as [Gx1 Gx2], Gy as [Gy1 Gy2]. unfold names in Gx2, Gy2. rewrite nth_error_map in Gx2, Gy2.
        destruct (nth_error la (i - c)) as [[x' s1]|] eqn:Ea; [|discriminate]. destruct (nth_error lb (i - c)) as [[y' s2]|] eqn:Eb; [|discriminate].
        cbn in Gx2, Gy2. injection Gx2 as ->. injection Gy2 as ->.
        assert (s = s1) by (eapply S1; [apply (nth_error_In _ _ Ea)|exact Hx]). assert (s = s2) by (eapply S2; [apply (nth_error_In _ _ Eb)|exact Hy]). subst s1 s2.
        destruct (nth_error vals (i - c)) as [v|] eqn:Ev; [|apply nth_error_None in Ev; lia].
        rewrite (upds_nth la vals E1 (i - c) x s v), (upds_nth lb vals E2 (i - c) y s v); auto.
      + destruct (scopes_get rb y) as [j|] eqn:Gy'; [|discriminate]. apply Nat.eqb_eq in Hc. subst j. apply L2 in Gy'. apply combine_get in Gx; auto. lia.
      + destruct (scopes_get ra x) as [i|] eqn:Gx'; [|discriminate]. apply Nat.eqb_eq in Hc. subst i. apply L1 in Gx'. rewrite HL in Gy. apply combine_get in Gy; auto. lia.
      + apply combine_get_none in Gx; auto. apply combine_get_none in Gy; auto.
        assert (Nx : forall s, ~ In (x, s) la) by (intros s' Hi; apply Gx; apply (in_map fst) in Hi; exact Hi).
        assert (Ny : forall s, ~ In (y, s) lb) by (intros s' Hi; apply Gy; apply (in_map fst) in Hi; exact Hi).
        rewrite !upds_notin by auto. apply HR; auto; cbn [free_in].
        * rewrite Hx. destruct (existsb (svar_eqb (x, s)) la) eqn:E; [|reflexivity]. apply svar_mem in E. destruct (Nx s E).
        * rewrite Hy. destruct (existsb (svar_eqb (y, s)) lb) eqn:E; [|reflexivity]. apply svar_mem in E. destruct (Ny s E).
    - unfold srt_eq in *. destruct q; cbn [sort_of]; try reflexivity; [|cbn; rewrite !map_app; cbn; rewrite HS, Hs; reflexivity].
      destruct la as [|[? ?] ?], lb as [|[? ?] ?]; try discriminate; try reflexivity. cbn in Hs. injection Hs as -> _. reflexivity.
  Qed.
  Lemma im_insert_new (m : list (string * nat)) k v : ~ In k (map fst m) -> im_insert String.eqb m k v = m ++ [(k, v)].
  Proof.
    induction m as [|[y n] m IH]; cbn; intros H; [reflexivity|]. destruct (String.eqb_spec k y) as [->|Hn]; [tauto|]. rewrite IH by tauto. reflexivity.
  Qed.
  Lemma combine_snoc (xs : list string) x : forall c, combine (xs ++ [x]) (seq c (List.length (xs ++ [x]))) = combine xs (seq c (List.length xs)) ++ [(x, c + List.length xs)].
  Proof.
    induction xs as [|y xs IH]; intros c; cbn; [rewrite Nat.add_0_r; reflexivity|]. rewrite IH. cbn. rewrite Nat.add_succ_r. reflexivity.
  Qed.
  Lemma map_fst_combine (xs : list string) : forall c, map fst (combine xs (seq c (List.length xs))) = xs.
  Proof. induction xs as [|x xs IH]; intros c; cbn; [reflexivity|]. rewrite IH. reflexivity. Qed.
  Lemma db_sorts_ok la : forall lb (xs ys : list string) c0 ra rb rc st r st',
    ps_db st = Some {| db_a := combine xs (seq c0 (List.length xs)) :: ra; db_b := combine ys (seq c0 (List.length ys)) :: rb; db_cnt := c0 + List.length xs :: rc |} ->
    List.length xs = List.length ys -> NoDup (xs ++ names la) -> NoDup (ys ++ names lb) ->
    db_sorts la lb st = ROk (r, st') ->
    ps_cache st' = ps_cache st /\ (exists ma mb c, ps_db st' = Some {| db_a := ma :: ra; db_b := mb :: rb; db_cnt := c :: rc |}) /\
    (r = true -> existsb (fun p => negb (sort_eqb (fst p) (snd p))) (combine (map snd la) (map snd lb)) = false /\
      (List.length la = List.length lb -> map snd la = map snd lb /\
       ps_db st' = Some {| db_a := combine (xs ++ names la) (seq c0 (List.length (xs ++ names la))) :: ra;
                           db_b := combine (ys ++ names lb) (seq c0 (List.length (ys ++ names lb))) :: rb;
                           db_cnt := c0 + List.length (xs ++ names la) :: rc |})).
  Proof.
    induction la as [|[x s] la IH]; intros lb xs ys c0 ra rb rc st r st' Hdb HL N1 N2 H.
    { cbn in H. injection H as <- <-. split; auto. split; [eauto|]. intros _. split; [reflexivity|]. intros Hl. destruct lb; [|discriminate].
      cbn. rewrite !app_nil_r. auto. }
    destruct lb as [|[y s'] lb].
    { cbn in H. injection H as <- <-. split; auto. split; [eauto|]. intros _. split; [reflexivity|]. intros Hl. discriminate. }
    cbn [db_sorts] in H. unfold cand in H. cbn [obind] in H. unfold sort_cmp in H at 1. cbn [obind fst snd] in H.
    destruct (sort_eqb s s' && (negb (renamed st) || no_svar s)) eqn:Es.
    - unfold db_ins in H. rewrite Hdb in H. cbn [db_insert db_a db_b db_cnt obind fst snd] in H.
      assert (Nx : ~ In x xs /\ ~ In y ys).
      { cbn in N1, N2. apply NoDup_remove_2 in N1, N2. rewrite in_app_iff in N1, N2. tauto. }
      rewrite im_insert_new in H by (rewrite map_fst_combine; tauto). rewrite im_insert_new in H by (rewrite map_fst_combine; tauto).
      rewrite HL, <- combine_snoc, <- HL, <- combine_snoc in H.
      apply (IH lb (xs ++ [x]) (ys ++ [y]) c0 ra rb rc) in H.
      + cbn [ps_cache] in H. destruct H as [H1 [H2 H3]]. split; auto. split; auto. intros Hr. specialize (H3 Hr). cbn [map combine existsb fst snd].
        apply andb_true_iff in Es. destruct Es as [Es _]. rewrite Es. cbn [negb orb]. destruct H3 as [H3 H4]. split; auto. intros Hl. cbn in Hl. injection Hl as Hl.
        destruct (H4 Hl) as [H5 H6]. apply sort_eqb_eq in Es. subst s'. split; [f_equal; auto|]. rewrite <- !app_assoc in H6. exact H6.
      + cbn [ps_db]. rewrite !app_length. cbn [List.length]. repeat f_equal. lia.
      + rewrite !app_length, HL. reflexivity.
      + rewrite <- app_assoc. exact N1.
      + rewrite <- app_assoc. exact N2.
    - cbn [obind fst snd] in H. injection H as <- <-. split; auto. split; [eauto|]. discriminate.
  Qed.

  Definition rec_ok (rec : term -> term -> cmp) : Prop :=
    forall ra rb rc a b, dwf ra rb rc -> GA ra a -> GB rb b -> csound ra rb rc (V ra rb a b) (rec a b).
  Section Rec2.
    Context (rec : term -> term -> cmp) (Hrec : rec_ok rec).
    Lemma cs_rc' ra rb rc a b : dwf ra rb rc -> GA ra a -> GB rb b -> csound ra rb rc (V ra rb a b) (eq_rc rec a b).
    Proof. intros HD. apply cs_rc; auto. Qed.
    Lemma cs_binder ra rb rc q la lb a b : dwf ra rb rc -> GA ra (TBind q la a) -> GB rb (TBind q lb b) ->
      csound ra rb rc (V ra rb (TBind q la a) (TBind q lb b)) (cmp_binder rec la lb a b).
    Proof.
      intros HD Ga Gb. unfold cmp_binder. apply cs_nodb. intros st r st' Hi He. unfold in_scope in He.
      destruct Hi as [Hdb [Hc Hl]]. unfold push_all in He. rewrite Hdb in He.
      assert (Hrc : exists c rc', rc = c :: rc') by (inversion HD; eauto). destruct Hrc as [c [rc' ->]].
      cbn [db_push db_cnt db_a db_b obind] in He. unfold cand in He.
      pose proof Ga as (_ & _ & Oa & Fa & Ca). pose proof Gb as (_ & _ & Ob & Fb & Cb). apply bind_conds in Oa, Ob.
      destruct Oa as (N1 & D1 & S1 & _), Ob as (N2 & D2 & S2 & _).
      match type of He with context [db_sorts la lb ?s] => set (st1 := s) in * end.
      destruct (db_sorts la lb st1) as [[r1 st2]| |] eqn:Ed; try discriminate. cbn [obind fst snd] in He.
      pose proof (db_sorts_ok la lb [] [] c ra rb (c :: rc') st1 r1 st2) as K. cbn [List.length seq combine app] in K. rewrite Nat.add_0_r in K.
      destruct (K eq_refl eq_refl N1 N2 Ed) as [K1 [K2 K3]]. clear K.
      assert (Hpop : forall st3 st4 ma mb c', ps_db st3 = Some {| db_a := ma :: ra; db_b := mb :: rb; db_cnt := c' :: c :: rc' |} ->
         cwf ra rb (tl (ps_cache st3)) -> List.length (ps_cache st3) = S (List.length ra) -> pop_all st3 = ROk st4 -> Inv ra rb (c :: rc') st4).
      { intros st3 st4 ma mb c' P1 P2 P3 P4. unfold pop_all in P4. rewrite P1 in P4. unfold db_pop in P4. cbn [db_a db_b db_cnt] in P4.
        destruct ra as [|? ra0]; [discriminate|]. destruct rb as [|? rb0]; [discriminate|]. cbn [obind] in P4. unfold cache_pop in P4.
        destruct (ps_cache st3) as [|c0 [|c1 cr]]; try discriminate. cbn [obind ps_cache tl] in *. injection P4 as <-. split; [reflexivity|]. split; [exact P2|]. cbn [ps_cache]. cbn in P3. cbn [List.length]. lia. }
      assert (Hc1 : ps_cache st2 = [] :: ps_cache st) by (rewrite K1; reflexivity).
      destruct r1.
      - destruct (K3 eq_refl) as [K4 K5]. 
        assert (Hlen : List.length la = List.length lb).
        { assert (Hcmp : compat la lb = true). { apply (Ca q la); [left; reflexivity|]. apply Cb. left. reflexivity. }
          unfold compat in Hcmp. rewrite K4, orb_false_r in Hcmp. apply Nat.eqb_eq in Hcmp. exact Hcmp. }
        destruct (K5 Hlen) as [Hs Hdb2].
        assert (HLn : List.length (names la) = List.length (names lb)) by (unfold names; rewrite !map_length; exact Hlen).
        assert (HD2 : dwf (combine (names la) (seq c (List.length (names la))) :: ra) (combine (names lb) (seq c (List.length (names la))) :: rb) (c + List.length (names la) :: c :: rc')).
        { constructor; auto. }
        rewrite <- HLn in Hdb2.
        destruct (eq_rc rec a b st2) as [[r3 st3]| |] eqn:Er; try discriminate. cbn [obind fst snd] in He.
        destruct (cs_rc' _ _ _ a b HD2 (GA_bind ra q la a c Ga) (GB_bind rb q lb b c _ HLn Gb) st2 r3 st3) as [I3 P3]; auto.
        { split; [exact Hdb2|]. rewrite Hc1. cbn [cwf tl List.length]. split; [split; [constructor|exact Hc]|]. lia. }
        destruct (pop_all st3) as [st4| |] eqn:Ep; try discriminate. cbn [obind] in He. injection He as <- <-.
        destruct I3 as [J1 [J2 J3]]. split.
        + eapply Hpop; [exact J1| | |exact Ep].
          * destruct (ps_cache st3); [exact Logic.I|]. cbn [cwf tl] in J2. apply J2.
          * exact J3.
        + intros ->. eapply V_bind; eauto.
      - cbn [obind fst snd] in He. destruct (pop_all st2) as [st4| |] eqn:Ep; try discriminate. cbn [obind] in He. injection He as <- <-.
        split; [|discriminate]. destruct K2 as [ma [mb [c' K2]]]. eapply Hpop; [exact K2| | |exact Ep].
        + rewrite Hc1. exact Hc.
        + rewrite Hc1. cbn [List.length]. rewrite Hl. reflexivity.
    Qed.

    Section At.
    Context (ra rb : scopes) (rc : list nat) (HD : dwf ra rb rc).
    Notation cs := (csound ra rb rc).
    Notation V := (V ra rb).
    Lemma cs_op n oa la ob lb : GA ra (TOp oa la) -> GB rb (TOp ob lb) -> cs (V (TOp oa la) (TOp ob lb)) (cmp_op cfg_alpha rec n oa la ob lb).
    Proof.
      intros Ga Gb. pose proof (GA_op _ _ _ Ga) as La. pose proof (GB_op _ _ _ Gb) as Lb.
      assert (HG : cs (V (TOp oa la) (TOp ob lb)) (if op_eqb oa ob then eq_list rec la lb else cret false)).
      { apply cs_if; intros H; [|apply cs_false]. apply op_eqb_eq in H. subst ob.
        eapply cs_weak; [apply cs_list; auto|]. intros HF. apply V_op; auto; [apply Ga|apply Gb]. }
      unfold cmp_op. destruct la as [|a1 [|a2 [|? ?]]]; try exact HG. destruct lb as [|b1 [|b2 [|? ?]]]; try exact HG.
      apply cs_if; intros H; [|exact HG]. rewrite !andb_true_iff in H. destruct H as [[_ H1] H2]. apply op_eqb_eq in H1, H2. subst.
      inversion La as [|? ? L1 La']; subst. inversion La' as [|? ? L2 _]; subst. inversion Lb as [|? ? M1 Lb']; subst. inversion Lb' as [|? ? M2 _]; subst.
      apply cs_or.
      - eapply cs_weak; [apply cs_and; [apply cs_rc'; auto|intros _; apply cs_rc'; auto]|]. intros [H1 H2]. apply V_op; auto; [apply Ga|apply Gb].
      - eapply cs_weak; [apply cs_and; [apply cs_rc'; auto|intros _; apply cs_rc'; auto]|]. intros [H1 H2]. apply V_eq_flip; auto.
    Qed.
    Lemma std_top t : std_lits t = true -> std1 t = true.
    Proof. unfold std_lits. destruct t; cbn [all_sub]; intros H; apply andb_true_iff in H; tauto. Qed.
    Lemma V_sym_R3 a b : R3 a b -> (forall x s, free_in x s a = false) -> V b a.
    Proof. intros H Hc. apply V_closed; [apply R3_sym; auto|]. intros x s. destruct H as [_ [H _]]. rewrite <- H. auto. Qed.
    Lemma cs_real_div r args : GB rb (TOp ORealDiv args) -> cs (V (TConst (CReal r)) (TOp ORealDiv args)) (real_div r args).
    Proof.
      intros Gb. unfold real_div. destruct (idx2 args) as [[x y]|] eqn:Hi; [|apply cs_panic].
      destruct x as [[|r1| |]| | | | | | |]; try apply cs_false; destruct y as [[|r2| |]| | | | | | |]; try apply cs_false.
      apply cs_if; intros H; [|apply cs_false]. apply andb_true_iff in H. destruct H as [H1 H2].
      apply cs_ratio. intros Hz Hq. destruct Gb as (_ & G2 & _). apply std_top in G2. cbn [std1] in G2. apply Nat.eqb_eq in G2.
      destruct args as [|x [|y [|? ?]]]; try discriminate G2. injection Hi as -> ->. apply V_closed; [apply R_ratio; auto|reflexivity].
    Qed.
    Lemma cs_div_real r args : GA ra (TOp ORealDiv args) -> GB rb (TConst (CReal r)) -> cs (V (TOp ORealDiv args) (TConst (CReal r))) (div_real args r).
    Proof.
      intros Ga Gb.
      assert (HN : qneg r = true -> V (TOp ORealDiv args) (TConst (CReal r))).
      { intros Hr. destruct Gb as (_ & G2 & _). apply std_top in G2. cbn [std1] in G2. unfold qneg in Hr. lia. }
      unfold div_real. destruct (idx2 args) as [[x y]|] eqn:Hi; [|apply cs_panic].
      assert (HI : forall x r2, cs (V (TOp ORealDiv args) (TConst (CReal r)))
        (if qneg r then match x with TConst (CInt r1) => ratio_is r1 r2 (qabs r) | _ => cret false end else cret false)).
      { intros x0 r2. apply cs_if; intros H; [|apply cs_false]. destruct x0 as [[]| | | | | | |]; try apply cs_false.
        apply cs_ratio. auto. }
      destruct x as [[]| | |o l| | | |]; try apply cs_false.
      - destruct y as [| | |o l| | | |]; try apply cs_false. destruct o; try apply cs_false.
        destruct l as [|? [|? ?]]; try apply cs_false. apply HI.
      - destruct y as [[|r2| |]| | | | | | |]; try apply cs_false.
        apply cs_if; intros H; [|apply cs_false]. rewrite !andb_true_iff in H. destruct H as [[_ H1] H2].
        apply cs_ratio. intros Hz Hq. destruct Ga as (_ & G1 & _). apply std_top in G1. cbn [std1] in G1. apply Nat.eqb_eq in G1.
        destruct args as [|x [|y [|? ?]]]; try discriminate G1. injection Hi as -> ->. apply V_sym_R3; [apply R_ratio; auto|reflexivity].
      - destruct o; try apply cs_false. destruct l as [|? [|? ?]]; try apply cs_false.
        destruct y as [[]| | | | | | |]; try apply cs_false. apply HI.
    Qed.
    Lemma cs_int_neg (P : Prop) i args : (Z.ltb i 0 = true -> P) -> cs P (int_neg i args).
    Proof.
      intros HP. unfold int_neg. apply cs_if; intros H; [|apply cs_false].
      destruct args as [|[[]| | | | | | |] [|? ?]]; try apply cs_false; apply cs_ret; auto.
    Qed.
    Lemma cs_real_neg (P : Prop) r args : (qneg r = true -> P) -> cs P (real_neg r args).
    Proof.
      intros HP. unfold real_neg. apply cs_if; intros H; [|apply cs_false].
      destruct args as [|t [|? ?]]; try apply cs_false; [|destruct t as [[]| | |[]| | | |]; apply cs_false].
      destruct t as [[]| | |o l| | | |]; try apply cs_false; [apply cs_ret; auto|].
      destruct o; try apply cs_false. destruct (idx2 l) as [[x y]|]; [|apply cs_panic].
      destruct x as [[|r1| |]| | | | | | |]; try apply cs_false; destruct y as [[|r2| |]| | | | | | |]; try apply cs_false.
      apply cs_if; intros; [apply cs_ratio; auto|apply cs_false].
    Qed.
    Lemma no_int i : std_lits (TConst (CInt i)) = true -> Z.ltb i 0 = true -> False.
    Proof. intros G H. apply std_top in G. cbn [std1] in G. lia. Qed.
    Lemma no_real r : std_lits (TConst (CReal r)) = true -> qneg r = true -> False.
    Proof. intros G H. apply std_top in G. cbn [std1] in G. unfold qneg in H. lia. Qed.
    Lemma cs_single a b P : cs P (single cfg_alpha rec a b).
    Proof.
      unfold single. destruct a as [| | |o l| | | |]; try apply cs_false. destruct l as [|x [|? ?]]; try apply cs_false.
    Qed.
    Lemma cs_term n a b : GA ra a -> GB rb b -> cs (V a b) (eq_term cfg_alpha rec n a b).
    Proof.
      intros Ga Gb. destruct a, b;
      try (apply cs_or; [apply cs_single|apply cs_or; [apply cs_single|try (solve [apply cs_false|match goal with k : const |- _ => destruct k; apply cs_false end])]]).
      - apply cs_ret. intros H. apply V_closed; [|reflexivity]. apply (R_const false) in H. apply H.
        + destruct Ga as (W & S & _). apply good_plain; auto.
        + destruct Gb as (W & S & _). apply good_plain; auto.
      - destruct c; try apply cs_false.
        + apply cs_if; intros _; [|apply cs_false]. apply cs_int_neg. intros H. destruct Ga as (_ & G & _). destruct (no_int _ G H).
        + apply cs_if; intros H; [|apply cs_if; intros _; [|apply cs_false]].
          * apply op_eqb_eq in H. subst. apply cs_real_div; auto.
          * apply cs_real_neg. intros Hr. destruct Ga as (_ & G & _). destruct (no_real _ G Hr).
      - cbn [eq_term]. intros st b st' Hi He. pose proof Hi as [D [F L]]. rewrite D in He. unfold db_compare in He. cbn [db_a db_b] in He.
        fold (dbc ra rb x x0) in He. destruct (dbc ra rb x x0) eqn:Ec; [|injection He as <- <-; split; [auto|discriminate]].
        destruct (cs_sort ra rb rc s s0 st b st' Hi He) as [Hi' Hs]. split; auto. intros Hb. specialize (Hs Hb). subst s0. split; [|reflexivity].
        intros I E1 E2 _ _ HR. cbn [eval]. apply HR; auto; cbn [free_in]; rewrite String.eqb_refl; apply sort_eqb_eq; reflexivity.
      - cbn [eq_term]. pose proof (GA_app _ _ _ Ga) as La. pose proof (GB_app _ _ _ Gb) as Lb. inversion La; inversion Lb; subst.
        eapply cs_weak; [apply cs_and; [apply cs_rc'; auto|intros _; apply cs_list; auto]|]. intros [K1 K2]. apply V_app; auto.
      - destruct c; try apply cs_false.
        + apply cs_if; intros _; [|apply cs_false]. apply cs_int_neg. intros H. destruct Gb as (_ & G & _). destruct (no_int _ G H).
        + apply cs_if; intros H; [|apply cs_if; intros _; [|apply cs_false]].
          * apply op_eqb_eq in H. subst. apply cs_div_real; auto.
          * apply cs_real_neg. intros Hr. destruct Gb as (_ & G & _). destruct (no_real _ G Hr).
      - apply cs_op; auto.
      - cbn [eq_term]. destruct Ga as (W & _). discriminate W.
      - cbn [eq_term]. apply cs_if; intros H; [|apply cs_false]. apply binder_eqb_eq in H. subst. apply cs_binder; auto.
      - destruct Ga as (_ & _ & W & _). discriminate W.
      - cbn [eq_term]. apply cs_if; intros H; [|apply cs_false]. apply andb_true_iff in H. destruct H as [H1 H2].
        apply pop_eqb_eq in H1. apply list_eqb_eq in H2; [|apply term_eqb_eq]. subst.
        eapply cs_weak; [apply cs_list; auto; [eapply GA_pop; eauto|eapply GB_pop; eauto]|]. apply V_pop.
    Qed.
    End At.
  End Rec2.
  Lemma cs_fuel n : rec_ok (eq_term_fuel cfg_alpha n).
  Proof.
    induction n as [|n IH]; intros ra rb rc a b HD Ga Gb; [intros st x st' _ He; discriminate|]. cbn [eq_term_fuel]. apply cs_term; auto.
  Qed.
End Sec.

Theorem alpha_equiv_sound a b : alpha_equiv a b = ROk true -> wt a = true -> wt b = true -> alpha_side a b = true ->
  forall (I : interp) (E : env I), env_ok E -> eval a E = eval b E.
Proof.
  unfold alpha_equiv, peq, alpha_side, alpha_side1. rewrite !andb_true_iff. intros H W1 W2 [[[L1 O1] [L2 O2]] HB].
  destruct (eq_rc _ a b (st_new cfg_alpha)) as [[x st]| |] eqn:E; try discriminate. cbn in H. injection H as ->.
  pose proof (cs_rc' (names (fvars a)) (names (fvars b)) (binders b) _ (cs_fuel _ _ _ (peq_fuel a b)) [[]] [[]] [0] a b (dwf0 _ _)) as K.
  assert (Hfin : forall t, a_ok (names (fvars t)) t = true -> fin (names (fvars t)) [[]] t).
  { intros t Ht x s Hx. cbn. apply fvars_spec in Hx; [|eapply a_ok_no_let; eauto]. apply (in_map fst) in Hx. exact Hx. }
  assert (HV : V [[]] [[]] a b).
  { refine (proj2 (K _ _ (st_new cfg_alpha) true st _ E) eq_refl).
    - split; [|split; [|split; [|split]]]; auto. intros q vs Hq vs' Hq'. rewrite forallb_forall in HB. specialize (HB _ Hq).
      rewrite forallb_forall in HB. specialize (HB _ Hq'). cbn [fst snd] in HB. destruct (binder_beq q q) eqn:Eq; [exact HB|].
      destruct q; discriminate.
    - split; [|split; [|split; [|split]]]; auto. apply incl_refl.
    - split; [reflexivity|]. split; [|reflexivity]. cbn. split; constructor. }
  intros I E0 HE. destruct HV as [HV _]. apply HV; auto. intros x y s _ _ Hc. cbn in Hc. apply String.eqb_eq in Hc. subst. reflexivity.
Qed.

(** the condition used by the rules that compare terms in this way *)
Definition alpha_ok (a b : term) : bool := term_eqb a b || alpha_side a b.
Lemma alpha_ok_sound a b : alpha_equiv a b = ROk true -> wt a = true -> wt b = true -> alpha_ok a b = true ->
  forall (I : interp) (E : env I), env_ok E -> eval a E = eval b E.
Proof.
  intros H Ha Hb Hs I E HE. unfold alpha_ok in Hs. apply orb_true_iff in Hs. destruct Hs as [Hs|Hs].
  - apply term_eqb_eq in Hs. subst. reflexivity.
  - eapply alpha_equiv_sound; eauto.
Qed.
