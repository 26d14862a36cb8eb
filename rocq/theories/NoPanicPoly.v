(** Comparisons modulo reordering, n-ary expansion and renaming never panic on terms without empty applications of associative
    operators and without fractions whose denominator is zero. *)
From Coq Require Import List String ZArith NArith QArith Bool Arith Lia.
From Verif Require Import Base Term Sem Sorting Rules Utils Num Polyeq Checker NoPanic.
Import ListNotations.
Local Open Scope nat_scope.

(** ** The terms that are safe to compare *)
Definition int0 (t : term) : bool := match t with TConst (CInt z) => Z.eqb z 0 | _ => false end.
(** the first two arguments of a division: there are two, the second is not zero; in (/ a (- b)) the first is not zero either *)
Definition frac_ok (l : list term) : bool :=
  match l with
  | x :: y :: _ => negb (zero_lit y) && negb (int0 x && match y with TOp OSub [_] => true | _ => false end)
  | _ => false
  end.
Definition op_tame (o : op) (l : list term) : bool :=
  (negb (is_left o || is_right o) || negb (Nat.eqb (List.length l) 0)) && (negb (op_eqb o ORealDiv) || frac_ok l).
Fixpoint tame (t : term) : bool :=
  match t with
  | TOp o l => op_tame o l && forallb tame l
  | TApp f l => tame f && forallb tame l
  | TBind _ _ b => tame b
  | TLet bs b => forallb (fun p => tame (snd p)) bs && tame b
  | TPOp _ _ l => forallb tame l
  | _ => true
  end.

(** ** The states of a comparison *)
Definition pshape (st : pst) : nat * option (nat * nat * nat) :=
  (List.length (ps_cache st), option_map (fun d => (List.length (db_a d), List.length (db_b d), List.length (db_cnt d))) (ps_db st)).
Definition sok (st : pst) : Prop :=
  0 < List.length (ps_cache st) /\ match ps_db st with Some d => 0 < List.length (db_a d) /\ 0 < List.length (db_b d) /\ 0 < List.length (db_cnt d) | None => True end.
Lemma sok_shape st st' : pshape st' = pshape st -> sok st -> sok st'.
Proof.
  unfold pshape, sok. intros H [H1 H2]. injection H as Hc Hd. rewrite Hc. split; [auto|]. destruct (ps_db st'), (ps_db st); cbn in Hd; try discriminate; [|exact Logic.I].
  injection Hd as -> -> ->. exact H2.
Qed.
Definition fine (o : outcome (bool * pst)) (st : pst) : Prop := exists b st', o = ROk (b, st') /\ pshape st' = pshape st.
Definition csafe (x : cmp) : Prop := forall st, sok st -> fine (x st) st.
Lemma fine_ret b st : fine (ROk (b, st)) st.
Proof. exists b, st. auto. Qed.
Lemma cs_ret b : csafe (cret b).
Proof. intros st _. apply fine_ret. Qed.
Lemma cs_bind x (f : bool * pst -> outcome (bool * pst)) :
  csafe x -> (forall b st, sok st -> fine (f (b, st)) st) -> csafe (fun st => do r <- x st ; f r).
Proof.
  intros Hx Hf st Hs. destruct (Hx st Hs) as [b [s1 [H1 H2]]]. rewrite H1. cbn [obind].
  destruct (Hf b s1 (sok_shape _ _ H2 Hs)) as [b' [s2 [H3 H4]]]. exists b', s2. split; [exact H3|congruence].
Qed.
Lemma cs_and x y : csafe x -> csafe y -> csafe (cand x y).
Proof. intros Hx Hy. unfold cand. apply cs_bind; [exact Hx|]. intros [|] st Hs; cbn [fst snd]; [apply Hy; auto|apply fine_ret]. Qed.
Lemma cs_or x y : csafe x -> csafe y -> csafe (cor x y).
Proof. intros Hx Hy. unfold cor. apply cs_bind; [exact Hx|]. intros [|] st Hs; cbn [fst snd]; [apply fine_ret|apply Hy; auto]. Qed.
Lemma cs_sort a b : csafe (sort_cmp a b).
Proof. intros st _. apply fine_ret. Qed.
Lemma cs_if (b : bool) x y : csafe x -> csafe y -> csafe (if b then x else y).
Proof. destruct b; auto. Qed.
Lemma cs_ifst (b : bool) x : csafe x -> csafe (fun st => if b then x st else ROk (false, st)).
Proof. destruct b; [auto|intros _; apply cs_ret]. Qed.
Lemma cs_ratio n d q : d <> 0%Z -> csafe (ratio_is n d q).
Proof. intros H. unfold ratio_is. destruct (Z.eqb_spec d 0); [contradiction|apply cs_ret]. Qed.

Definition lsize (l : list term) : nat := list_sum (map tsize l).
Lemma tsize_pos t : 1 <= tsize t.
Proof. destruct t; cbn [tsize]; lia. Qed.
Lemma lsize_cons a l : lsize (a :: l) = tsize a + lsize l.
Proof. reflexivity. Qed.
Section Cmp.
  Context (c : pcfg) (rec : term -> term -> cmp) (n : nat).
  Hypothesis Hrec : forall a b, tame a = true -> tame b = true -> tsize a + tsize b < n -> csafe (rec a b).
  Lemma cs_rc a b : tame a = true -> tame b = true -> tsize a + tsize b < n -> csafe (eq_rc rec a b).
  Proof.
    intros Ha Hb Hn st Hs. unfold eq_rc. destruct (negb (renamed st) && term_eqb a b); [apply fine_ret|]. destruct (cache_mem st a b); [apply fine_ret|].
    destruct (Hrec a b Ha Hb Hn st Hs) as [r [s1 [H1 H2]]]. rewrite H1. cbn [obind fst snd].
    destruct r; [|exists false, s1; auto].
    pose proof (sok_shape _ _ H2 Hs) as [K _]. unfold cache_insert. destruct (ps_cache s1) as [|m r] eqn:E; [cbn in K; lia|].
    cbn [obind]. eexists _, _. split; [reflexivity|]. rewrite <- H2. unfold pshape. cbn [ps_cache ps_db List.length]. rewrite E. reflexivity.
  Qed.
  Lemma cs_zip la : forall lb, forallb tame la = true -> forallb tame lb = true -> lsize la + lsize lb < n -> csafe (eq_zip rec la lb).
  Proof.
    induction la as [|a la IH]; intros [|b lb] Ha Hb Hn; cbn [eq_zip]; try apply cs_ret. cbn [forallb] in Ha, Hb. apply andb_true_iff in Ha, Hb. rewrite !lsize_cons in Hn.
    apply cs_and; [apply cs_rc|apply IH]; try tauto; lia.
  Qed.
  Lemma cs_list la lb : forallb tame la = true -> forallb tame lb = true -> lsize la + lsize lb < n -> csafe (eq_list rec la lb).
  Proof. intros Ha Hb Hn. unfold eq_list. apply cs_if; [apply cs_zip; auto|apply cs_ret]. Qed.
  Lemma cs_sorts la : forall lb, csafe (eq_sorts la lb).
  Proof.
    induction la as [|[x s] la IH]; intros [|[y s'] lb]; cbn [eq_sorts]; try apply cs_ret. apply cs_and; [|apply IH]. apply cs_ifst, cs_sort.
  Qed.
  Definition bsize (l : list (string * term)) : nat := list_sum (map (fun p => tsize (snd p)) l).
  Lemma bsize_cons x a l : bsize ((x, a) :: l) = tsize a + bsize l.
  Proof. reflexivity. Qed.
  Lemma cs_binds la : forall lb, forallb (fun p => tame (snd p)) la = true -> forallb (fun p => tame (snd p)) lb = true -> bsize la + bsize lb < n -> csafe (eq_binds rec la lb).
  Proof.
    induction la as [|[x s] la IH]; intros [|[y s'] lb] Ha Hb Hn; cbn [eq_binds]; try apply cs_ret. cbn [forallb snd] in Ha, Hb. apply andb_true_iff in Ha, Hb. rewrite !bsize_cons in Hn.
    apply cs_and; [|apply IH; try tauto; lia]. apply cs_ifst, cs_rc; try tauto; lia.
  Qed.

  (** comparisons with a De Bruijn map *)
  Definition has_db (st : pst) : Prop := ps_db st <> None.
  Lemma has_db_shape st st' : pshape st' = pshape st -> has_db st -> has_db st'.
  Proof. unfold pshape, has_db. intros H. injection H as _ H. destruct (ps_db st'), (ps_db st); cbn in H; congruence. Qed.
  Definition dsafe (x : cmp) : Prop := forall st, sok st -> has_db st -> fine (x st) st.
  Lemma ds_of x : csafe x -> dsafe x.
  Proof. intros H st Hs _. auto. Qed.
  Lemma ds_bind x (f : bool * pst -> outcome (bool * pst)) :
    dsafe x -> (forall b st, sok st -> has_db st -> fine (f (b, st)) st) -> dsafe (fun st => do r <- x st ; f r).
  Proof.
    intros Hx Hf st Hs Hd. destruct (Hx st Hs Hd) as [b [s1 [H1 H2]]]. rewrite H1. cbn [obind].
    destruct (Hf b s1 (sok_shape _ _ H2 Hs) (has_db_shape _ _ H2 Hd)) as [b' [s2 [H3 H4]]]. exists b', s2. split; [exact H3|congruence].
  Qed.
  Lemma ds_and x y : dsafe x -> dsafe y -> dsafe (cand x y).
  Proof. intros Hx Hy. unfold cand. apply ds_bind; [exact Hx|]. intros [|] st Hs Hd; cbn [fst snd]; [apply Hy; auto|apply fine_ret]. Qed.
  Lemma ds_ins x y st : sok st -> has_db st -> fine (do st' <- db_ins x y st ; ROk (true, st')) st.
  Proof.
    unfold has_db, sok, db_ins. destruct (ps_db st) as [d|] eqn:E; [|congruence]. intros [H1 [H2 [H3 H4]]] _. unfold db_insert.
    destruct (db_a d) as [|ma ra] eqn:Ea; [cbn in H2; lia|]. destruct (db_b d) as [|mb rb] eqn:Eb; [cbn in H3; lia|]. destruct (db_cnt d) as [|k rc] eqn:Ec; [cbn in H4; lia|].
    cbn [obind]. eexists _, _. split; [reflexivity|]. unfold pshape. cbn [ps_cache ps_db option_map db_a db_b db_cnt List.length]. rewrite E. cbn [option_map]. rewrite Ea, Eb, Ec. reflexivity.
  Qed.
  Lemma ds_sorts la : forall lb, dsafe (db_sorts la lb).
  Proof.
    induction la as [|[x s] la IH]; intros [|[y s'] lb]; cbn [db_sorts]; try (apply ds_of, cs_ret). apply ds_and; [|apply IH].
    apply ds_bind; [apply ds_of, cs_sort|]. intros [|] st Hs Hd; cbn [fst snd]; [apply ds_ins; auto|apply fine_ret].
  Qed.
  Lemma ds_binds la : forall lb, forallb (fun p => tame (snd p)) la = true -> forallb (fun p => tame (snd p)) lb = true -> bsize la + bsize lb < n -> dsafe (db_binds rec la lb).
  Proof.
    induction la as [|[x s] la IH]; intros [|[y s'] lb] Ha Hb Hn; cbn [db_binds]; try (apply ds_of, cs_ret). cbn [forallb snd] in Ha, Hb. apply andb_true_iff in Ha, Hb. rewrite !bsize_cons in Hn.
    apply ds_and; [|apply IH; try tauto; lia].
    apply ds_bind; [apply ds_of, cs_rc; try tauto; lia|]. intros [|] st Hs Hd; cbn [fst snd]; [apply ds_ins; auto|apply fine_ret].
  Qed.
  Lemma ds_scope b i : dsafe b -> csafe i -> dsafe (in_scope b i).
  Proof.
    intros Hb Hi st Hs Hd. unfold in_scope, push_all. unfold has_db in Hd. destruct (ps_db st) as [d|] eqn:E; [|congruence]. clear Hd.
    pose proof Hs as [K1 K2]. rewrite E in K2. destruct K2 as [K2 [K3 K4]]. unfold db_push. destruct (db_cnt d) as [|k rc] eqn:Ec; [cbn in K4; lia|]. cbn [obind].
    set (d1 := {| db_a := [] :: db_a d; db_b := [] :: db_b d; db_cnt := k :: k :: rc |}). set (s1 := {| ps_cache := [] :: ps_cache st; ps_db := Some d1 |}).
    assert (Hs1 : sok s1) by (unfold sok, s1, d1; cbn; lia). assert (Hd1 : has_db s1) by discriminate.
    destruct (ds_and b i Hb (ds_of _ Hi) s1 Hs1 Hd1) as [r [s2 [H1 H2]]]. rewrite H1. cbn [obind fst snd].
    unfold pop_all. unfold pshape in H2. destruct (ps_db s2) as [d2|] eqn:E2; [|cbn in H2; discriminate H2].
    cbn in H2. injection H2 as Hc Ha Hb' Hn. unfold db_pop.
    destruct (db_a d2) as [|a1 [|a2 ra]] eqn:Ea; cbn in Ha; [lia..|]. destruct (db_b d2) as [|b1 [|b2 rb]] eqn:Eb; cbn in Hb'; [lia..|]. cbn [obind].
    unfold cache_pop. destruct (ps_cache s2) as [|c1 [|c2 rcc]] eqn:Ecc; cbn in Hc; [lia..|]. cbn [obind ps_cache].
    eexists _, _. split; [reflexivity|]. unfold pshape. cbn [ps_cache ps_db option_map db_a db_b db_cnt List.length].
    rewrite E. cbn [option_map]. rewrite Ec. destruct (db_cnt d2) as [|n1 n2]; cbn in Hn |- *; [lia|]. repeat f_equal; lia.
  Qed.
  Lemma cs_binder la lb a b : tame a = true -> tame b = true -> tsize a + tsize b < n -> csafe (cmp_binder rec la lb a b).
  Proof.
    intros Ha Hb Hn st Hs. unfold cmp_binder. destruct (ps_db st) as [d|] eqn:E.
    - apply ds_scope; auto; [apply ds_sorts|apply cs_rc; auto|]. unfold has_db. congruence.
    - apply cs_and; auto; [apply cs_ifst, cs_sorts|apply cs_rc; auto].
  Qed.
  Lemma cs_let la lb a b : forallb (fun p => tame (snd p)) la = true -> forallb (fun p => tame (snd p)) lb = true ->
    tame a = true -> tame b = true -> bsize la + tsize a + (bsize lb + tsize b) < n -> csafe (cmp_let rec la lb a b).
  Proof.
    intros Hla Hlb Ha Hb Hn st Hs. unfold cmp_let. destruct (ps_db st) as [d|] eqn:E.
    - apply ds_scope; auto; [apply ds_binds; auto; lia|apply cs_rc; auto; lia|]. unfold has_db. congruence.
    - apply cs_and; auto; [apply cs_ifst, cs_binds; auto; lia|apply cs_rc; auto; lia].
  Qed.
  Lemma tame_args o l : tame (TOp o l) = true -> forallb tame l = true.
  Proof. cbn [tame]. intros H. apply andb_true_iff in H. tauto. Qed.
  Lemma size_op o l : tsize (TOp o l) = S (lsize l).
  Proof. reflexivity. Qed.
  Lemma cs_chain_zip o args : forall ch, forallb tame args = true -> forallb tame ch = true -> lsize args + lsize ch < n -> csafe (cmp_chain_zip rec o args ch).
  Proof.
    induction args as [|a args IH]; intros ch Ha Hc Hn; [apply cs_ret|]. cbn [cmp_chain_zip]. destruct args as [|b r]; [apply cs_ret|].
    destruct ch as [|t rc]; [apply cs_ret|]. cbn [forallb] in Ha, Hc. apply andb_true_iff in Ha, Hc. destruct Ha as [Ha Hbr], Hc as [Ht Hc]. rewrite !lsize_cons in Hn.
    destruct t as [| | |o' l| | | |]; try apply cs_ret. destruct l as [|x [|y [|? ?]]]; try apply cs_ret. destruct (op_eqb o' o); [|apply cs_ret].
    apply tame_args in Ht. cbn [forallb] in Ht. rewrite andb_true_r in Ht. apply andb_true_iff in Ht. pose proof Hbr as Hbr'. apply andb_true_iff in Hbr.
    rewrite size_op, !lsize_cons in Hn.
    apply cs_and; [apply cs_and; apply cs_rc; try tauto; lia|]. apply IH; auto. rewrite lsize_cons. lia.
  Qed.
  Lemma cs_chainable o args ch : forallb tame args = true -> forallb tame ch = true -> lsize args + lsize ch < n -> csafe (cmp_chainable rec o args ch).
  Proof. intros. unfold cmp_chainable. apply cs_if; [apply cs_chain_zip; auto|apply cs_ret]. Qed.
  Lemma flatten_ok o l : (is_left o || is_right o) = true -> l <> [] -> forallb tame l = true ->
    flatten_single o l <> [] /\ forallb tame (flatten_single o l) = true /\ lsize (flatten_single o l) <= lsize l.
  Proof.
    intros Ho Hne Hl. unfold flatten_single. destruct l as [|t [|? ?]]; [congruence| |destruct t; auto].
    destruct t as [| | |o' l| | | |]; auto. destruct (op_eqb o' o) eqn:E; [|auto]. apply op_eqb_eq in E. subst o'. cbn [forallb] in Hl. rewrite andb_true_r in Hl.
    cbn [tame] in Hl. apply andb_true_iff in Hl. destruct Hl as [Ht Hl]. split; [|split; [exact Hl|rewrite lsize_cons, size_op; lia]]. intros ->. unfold op_tame in Ht. rewrite Ho in Ht. discriminate.
  Qed.
  Lemma lsize_app l1 l2 : lsize (l1 ++ l2) = lsize l1 + lsize l2.
  Proof. unfold lsize. rewrite map_app. apply list_sum_app. Qed.
  Lemma split_ok r l h t : split_args r l = Some (h, t) -> forallb tame l = true -> tame h = true /\ t <> [] /\ forallb tame t = true /\ tsize h + lsize t = lsize l.
  Proof.
    unfold split_args. destruct l as [|x [|y l]]; try discriminate. intros H Hl. destruct r; injection H as <- <-.
    - cbn [forallb] in Hl |- *. apply andb_true_iff in Hl. split; [tauto|]. split; [discriminate|split; [tauto|reflexivity]].
    - assert (Hne : x :: y :: l <> []) by discriminate. pose proof (app_removelast_last x Hne) as Hd.
      change (match l with [] => y | _ => last l x end) with (last (x :: y :: l) x). change (x :: match l with [] => [] | _ => y :: removelast l end) with (removelast (x :: y :: l)).
      rewrite Hd in Hl. rewrite forallb_app in Hl. apply andb_true_iff in Hl. destruct Hl as [H1 H2]. cbn [forallb] in H2. rewrite andb_true_r in H2.
      split; [exact H2|]. split; [discriminate|]. split; [exact H1|]. rewrite Hd at 3. rewrite lsize_app, lsize_cons. unfold lsize at 3. cbn. lia.
  Qed.
  Lemma split_some r l : 2 <= List.length l -> split_args r l <> None.
  Proof. destruct l as [|x [|y l]]; cbn [List.length]; try lia. intros _. cbn [split_args]. destruct r; discriminate. Qed.
  Lemma cs_assoc o (Ho : (is_left o || is_right o) = true) k : forall l r, l <> [] -> r <> [] -> forallb tame l = true -> forallb tame r = true ->
    lsize l + lsize r < n -> lsize l + lsize r <= k -> csafe (cmp_assoc rec k o l r).
  Proof.
    induction k as [|k IH]; intros l r Hl Hr Tl Tr Hn Hk.
    { destruct l as [|a l]; [congruence|]. rewrite lsize_cons in Hk. pose proof (tsize_pos a). lia. }
    cbn [cmp_assoc].
    assert (G : 2 <= List.length l -> 2 <= List.length r -> csafe
      match split_args (is_right o) l, split_args (is_right o) r with
      | Some (hl, tl), Some (hr, tr) => cand (eq_rc rec hl hr) (cmp_assoc rec k o (flatten_single o tl) (flatten_single o tr))
      | _, _ => cpanic end).
    { intros L1 L2. destruct (split_args (is_right o) l) as [[hl tl]|] eqn:E1; [|destruct (split_some _ _ L1 E1)].
      destruct (split_args (is_right o) r) as [[hr tr]|] eqn:E2; [|destruct (split_some _ _ L2 E2)].
      apply split_ok in E1, E2; auto. destruct E1 as [A1 [A2 [A3 A4]]], E2 as [B1 [B2 [B3 B4]]]. apply (flatten_ok o) in A3; auto. apply (flatten_ok o) in B3; auto.
      pose proof (tsize_pos hl). pose proof (tsize_pos hr).
      apply cs_and; [apply cs_rc; auto; lia|]. apply IH; try tauto; lia. }
    destruct l as [|a [|a' l]]; [congruence| |].
    - destruct r as [|b [|b' r]]; [congruence| |apply cs_ret]. cbn [forallb] in Tl, Tr. rewrite andb_true_r in Tl, Tr. rewrite !lsize_cons in Hn. apply cs_rc; auto; lia.
    - destruct r as [|b [|b' r]]; [congruence|apply cs_ret|]. apply G; cbn [List.length]; lia.
  Qed.
  Lemma cs_op oa la ob lb : tame (TOp oa la) = true -> tame (TOp ob lb) = true -> lsize la + lsize lb < n -> csafe (cmp_op c rec n oa la ob lb).
  Proof.
    intros Ha Hb Hlt. pose proof (tame_args _ _ Ha) as Ta. pose proof (tame_args _ _ Hb) as Tb. unfold cmp_op.
    set (general := if op_eqb oa ob then eq_list rec la lb else cret false).
    assert (Hg : csafe general) by (apply cs_if; [apply cs_list; auto|apply cs_ret]).
    set (nary := if p_nary c then _ else general).
    assert (Hn : csafe nary).
    { unfold nary. apply cs_if; [|exact Hg]. destruct (op_eqb oa ob) eqn:Eo; cbn [negb].
      - destruct (negb (Nat.eqb (List.length la) (List.length lb))); [|exact Hg]. destruct (is_left oa || is_right oa) eqn:El; [|apply cs_ret].
        apply op_eqb_eq in Eo. subst ob. cbn [tame] in Ha, Hb. apply andb_true_iff in Ha, Hb. unfold op_tame in Ha, Hb. rewrite El in Ha, Hb. cbn [negb orb] in Ha, Hb.
        destruct Ha as [Ha _], Hb as [Hb _]. apply andb_true_iff in Ha, Hb. apply cs_assoc; auto; try lia.
        + intros ->. destruct Ha; discriminate.
        + intros ->. destruct Hb; discriminate.
      - apply cs_if; [apply cs_if; [apply cs_chainable; auto|apply cs_ret]|]. apply cs_if; [apply cs_if; [apply cs_chainable; auto; lia|apply cs_ret]|apply cs_ret]. }
    destruct la as [|a1 [|a2 [|? ?]]]; auto. destruct lb as [|b1 [|b2 [|? ?]]]; auto. apply cs_if; [|exact Hn].
    cbn [forallb] in Ta, Tb. rewrite andb_true_r in Ta, Tb. apply andb_true_iff in Ta, Tb. rewrite !lsize_cons in Hlt.
    apply cs_or; apply cs_and; apply cs_rc; try tauto; lia.
  Qed.
  Lemma qis_zero r : Qis_int r = true -> Qnumer r = 0%Z -> Qeq_bool r 0 = true.
  Proof.
    unfold Qnumer. intros _ H. apply Qeq_bool_iff. rewrite <- (Qred_correct r). unfold Qeq. rewrite H. reflexivity.
  Qed.
  Lemma zero_real r : zero_lit (TConst (CReal r)) = Qeq_bool r 0.
  Proof. reflexivity. Qed.
  Lemma cs_real_div r l : frac_ok l = true -> csafe (real_div r l).
  Proof.
    unfold real_div, frac_ok. destruct l as [|x [|y l]]; try discriminate. cbn [idx2]. intros H. apply andb_true_iff in H. destruct H as [H _].
    destruct x as [[| r1 | |]| | | | | | |]; try apply cs_ret. destruct y as [[| r2 | |]| | | | | | |]; try apply cs_ret.
    destruct (Qis_int r1 && Qis_int r2) eqn:E; [|apply cs_ret]. apply andb_true_iff in E. apply cs_ratio. intros K. destruct E as [_ E].
    apply (qis_zero _ E) in K. rewrite zero_real, K in H. discriminate.
  Qed.
  Lemma cs_div_real r l : frac_ok l = true -> csafe (div_real l r).
  Proof.
    unfold div_real, frac_ok. destruct l as [|x [|y l]]; try discriminate. cbn [idx2]. intros H. apply andb_true_iff in H. destruct H as [H H'].
    assert (G : forall z, y = TConst (CInt z) -> z <> 0%Z).
    { intros z -> ->. discriminate H. }
    assert (G' : forall z w, y = TOp OSub [w] -> x = TConst (CInt z) -> z <> 0%Z).
    { intros z w -> -> ->. discriminate H'. }
    destruct x as [[z1| r1 | |]| | |ox lx| | | |]; try apply cs_ret.
    - destruct y as [| | |oy ly| | | |]; try apply cs_ret. destruct oy; try apply cs_ret. destruct ly as [|w [|? ?]]; try apply cs_ret.
      apply cs_if; [|apply cs_ret]. destruct w as [[zw| | |]| | | | | | |]; try apply cs_ret. apply cs_ratio. eapply G'; eauto.
    - destruct y as [[| r2 | |]| | | | | | |]; try apply cs_ret.
      destruct (qpos r && Qis_int r1 && Qis_int r2) eqn:E; [|apply cs_ret]. apply andb_true_iff in E. apply cs_ratio. intros K. destruct E as [_ E].
      apply (qis_zero _ E) in K. rewrite zero_real, K in H. discriminate.
    - destruct ox; try apply cs_ret. destruct lx as [|w [|? ?]]; try apply cs_ret. destruct y as [[z2| | |]| | | | | | |]; try apply cs_ret.
      apply cs_if; [|apply cs_ret]. destruct w as [[zw| | |]| | | | | | |]; try apply cs_ret. apply cs_ratio. eapply G; eauto.
  Qed.
  Lemma cs_real_neg r l : forallb tame l = true -> csafe (real_neg r l).
  Proof.
    intros Hl. unfold real_neg. apply cs_if; [|apply cs_ret]. destruct l as [|t [|? ?]]; try apply cs_ret.
    2:{ destruct t as [[| | |]| | |[] | | | |]; apply cs_ret. }
    destruct t as [[| | |]| | |o l| | | |]; try apply cs_ret. destruct o; try apply cs_ret.
    cbn [forallb tame] in Hl. rewrite andb_true_r in Hl. apply andb_true_iff in Hl. destruct Hl as [Hl _]. unfold op_tame in Hl. apply andb_true_iff in Hl. destruct Hl as [_ Hl].
    rewrite (proj2 (op_eqb_eq ORealDiv ORealDiv) eq_refl) in Hl. cbn [negb orb] in Hl. unfold frac_ok in Hl.
    destruct l as [|x [|y l]]; try discriminate. cbn [idx2]. apply andb_true_iff in Hl. destruct Hl as [H _].
    destruct x as [[| r1 | |]| | | | | | |]; try apply cs_ret. destruct y as [[| r2 | |]| | | | | | |]; try apply cs_ret.
    destruct (Qis_int r1 && Qis_int r2) eqn:E; [|apply cs_ret]. apply andb_true_iff in E. apply cs_ratio. intros K. destruct E as [_ E].
    apply (qis_zero _ E) in K. rewrite zero_real, K in H. discriminate.
  Qed.
  Lemma cs_int_neg i l : csafe (int_neg i l).
  Proof. unfold int_neg. apply cs_if; [|apply cs_ret]. destruct l as [|t [|? ?]]; try apply cs_ret; destruct t as [[| | |]| | | | | | |]; apply cs_ret. Qed.
  Lemma cs_single a b : tame a = true -> tame b = true -> tsize a + tsize b <= n -> csafe (single c rec a b).
  Proof.
    intros Ha Hb Hn. unfold single. destruct a as [| | |o l| | | |]; try apply cs_ret. destruct l as [|x [|? ?]]; try apply cs_ret. apply tame_args in Ha. cbn [forallb] in Ha.
    rewrite andb_true_r in Ha. rewrite size_op, lsize_cons in Hn. apply cs_if; [|apply cs_ret]. apply cs_if; [apply cs_ret|]. apply Hrec; auto; lia.
  Qed.
  Lemma cs_term a b : tame a = true -> tame b = true -> tsize a + tsize b <= n -> csafe (eq_term c rec n a b).
  Proof.
    intros Ha Hb Hn. pose proof (cs_single a b Ha Hb Hn) as S1. assert (Hn' : tsize b + tsize a <= n) by lia. pose proof (cs_single b a Hb Ha Hn') as S2. clear Hn'.
    assert (Hdiv : forall o l, tame (TOp o l) = true -> op_eqb o ORealDiv = true -> frac_ok l = true).
    { intros o l H E. cbn [tame] in H. apply andb_true_iff in H. destruct H as [H _]. unfold op_tame in H. apply andb_true_iff in H. destruct H as [_ H]. rewrite E in H. exact H. }
    destruct a as [ka|xa sa|fa la|oa la|sa|qa va ta|ba ta|pa oa la], b as [kb|xb sb|fb lb|ob lb|sb|qb vb tb|bb tb|pb ob lb];
      try (cbn [eq_term]; apply cs_or; [exact S1|apply cs_or; [exact S2|apply cs_ret]]); try (cbn [eq_term]; apply cs_ret).
    all: cbn [eq_term].
    all: try (apply cs_or; [exact S1|apply cs_or; [exact S2|]]).
    all: try (destruct ka; apply cs_ret).
    - destruct ka; try apply cs_ret; [apply cs_if; [apply cs_int_neg|apply cs_ret]|].
      destruct (op_eqb ob ORealDiv) eqn:Ed; [apply cs_real_div; eauto|]. apply cs_if; [apply cs_real_neg; eapply tame_args; eauto|apply cs_ret].
    - intros st Hs. destruct (ps_db st); [|apply fine_ret]. destruct (db_compare d xa xb); [apply cs_sort; auto|apply fine_ret].
    - cbn [tame] in Ha, Hb. apply andb_true_iff in Ha, Hb. cbn [tsize] in Hn. apply cs_and; [apply cs_rc|apply cs_list]; unfold lsize; try tauto; lia.
    - destruct kb; try apply cs_ret; [apply cs_if; [apply cs_int_neg|apply cs_ret]|].
      destruct (op_eqb oa ORealDiv) eqn:Ed; [apply cs_div_real; eauto|]. apply cs_if; [apply cs_real_neg; eapply tame_args; eauto|apply cs_ret].
    - rewrite !size_op in Hn. apply cs_op; auto. lia.
    - apply cs_sort.
    - cbn [tsize] in Hn. apply cs_if; [apply cs_binder; auto; lia|apply cs_ret].
    - cbn [tame] in Ha, Hb. apply andb_true_iff in Ha, Hb. cbn [tsize] in Hn. apply cs_let; unfold bsize; try tauto; lia.
    - cbn [tsize] in Hn. apply cs_if; [apply cs_list; auto; unfold lsize; lia|apply cs_ret].
  Qed.
End Cmp.
Lemma cs_fuel c n : forall a b, tame a = true -> tame b = true -> tsize a + tsize b < n -> csafe (eq_term_fuel c n a b).
Proof.
  induction n as [|n IH]; intros a b Ha Hb Hn; [lia|]. cbn [eq_term_fuel]. apply cs_term; auto. lia.
Qed.
(** the comparison of two safe terms has a result: it neither panics nor runs out of fuel *)
Theorem peq_total c a b : tame a = true -> tame b = true -> exists r, peq c a b = ROk r.
Proof.
  intros Ha Hb. unfold peq. assert (Hs : sok (st_new c)).
  { unfold sok, st_new. cbn [ps_cache ps_db List.length]. split; [lia|]. destruct (p_alpha c); [cbn; lia|exact Logic.I]. }
  destruct (cs_rc _ (S (tsize a + tsize b)) (fun x y Hx Hy Hn => cs_fuel c (peq_fuel a b) x y Hx Hy Hn) a b Ha Hb ltac:(lia) (st_new c) Hs) as [r [st' [H _]]].
  exists r. unfold peq_fuel in H. unfold peq_fuel. rewrite H. reflexivity.
Qed.
Lemma np_assert_polyeq a b : tame a = true -> tame b = true -> assert_polyeq a b <> RPanic.
Proof.
  intros Ha Hb. unfold assert_polyeq, polyeq. destruct (peq_total cfg_polyeq a b Ha Hb) as [r ->]. cbn [obind]. apply np_rassert.
Qed.
