(** Proofs about ElabSolver.v. *)
From Coq Require Import List String ZArith Bool Arith Lia.
From Verif Require Import Base Term Rules Polyeq Checker Nodes ElabIds R_Taut R_Resolution Table StrSound ElabSolver.
Import ListNotations.
Local Open Scope string_scope.
Local Open Scope nat_scope.
Local Open Scope list_scope.

Section Pnode_ind.
  Variable P : pnode -> Prop.
  Hypothesis HA : forall a id d t, P (PAssume a id d t).
  Hypothesis HS : forall a id d cl r ps args ds prev, Forall P ps -> Forall P ds -> match prev with Some p => P p | None => True end -> P (PStep a id d cl r ps args ds prev).
  Hypothesis HB : forall a l args out extra, P l -> Forall P out -> Forall P extra -> P (PSub a l args out extra).
  Fixpoint pnode_ind' (n : pnode) : P n :=
    let all := fix go (l : list pnode) : Forall P l := match l with [] => Forall_nil _ | y :: r => Forall_cons _ (pnode_ind' y) (go r) end in
    match n with
    | PAssume a id d t => HA a id d t
    | PStep a id d cl r ps args ds prev => HS a id d cl r ps args ds prev (all ps) (all ds) (match prev with Some p => pnode_ind' p | None => Logic.I end)
    | PSub a l args out extra => HB a l args out extra (pnode_ind' l) (all out) (all extra)
    end.
End Pnode_ind.

Lemma fold_and l : fold_right and True l <-> Forall (fun P : Prop => P) l.
Proof. induction l as [|x r IH]; cbn; [split; auto|]. rewrite IH. split; [intros [H1 H2]; constructor; auto|intros H; inversion H; auto]. Qed.
Lemma fold_and_map {A} (f : A -> Prop) l : fold_right and True (map f l) <-> Forall f l.
Proof. rewrite fold_and, Forall_map. reflexivity. Qed.

(** ** Shifting *)
Section Shift.
  Variables (delta : nat) (prefix : string).
  Notation sh := (shift delta prefix).
  Lemma sh_addr n : paddr (sh n) = paddr n. Proof. destruct n; reflexivity. Qed.
  Lemma sh_clause n : pclause (sh n) = pclause n.
  Proof. induction n using pnode_ind'; cbn; auto. Qed.
  Lemma sh_depth n : deep n = true -> pdepth (sh n) = pdepth n + delta.
  Proof.
    induction n using pnode_ind'; cbn [shift pdepth]; auto. intros H2. cbn [deep] in H2. rewrite !andb_true_iff in H2. destruct H2 as [[[H2 H3] _] _].
    rewrite IHn by exact H3. apply Nat.leb_le in H2. lia.
  Qed.
  Lemma sh_subnodes n : subnodes (sh n) = map sh (subnodes n).
  Proof.
    assert (F : forall l, Forall (fun n => subnodes (sh n) = map sh (subnodes n)) l -> flat_map subnodes (map sh l) = map sh (flat_map subnodes l)).
    { induction 1 as [|x r Hx _ IH]; [reflexivity|]. cbn [map flat_map]. rewrite Hx, IH, map_app. reflexivity. }
    induction n as [|a id d cl r ps args ds prev Hp Hd Hv|a l args out extra Hl Ho He] using pnode_ind'; [reflexivity| |].
    - cbn [shift subnodes map]. rewrite !map_app, !F by assumption. destruct prev as [p|]; [rewrite Hv|]; reflexivity.
    - cbn [shift subnodes map]. rewrite !map_app, !F, Hl by assumption. reflexivity.
  Qed.
  Lemma sh_scope d n : deep n = true -> scope (d + delta) (sh n) = map sh (scope d n).
  Proof.
    assert (F : forall l, Forall (fun n => deep n = true -> scope (d + delta) (sh n) = map sh (scope d n)) l -> forallb deep l = true -> flat_map (scope (d + delta)) (map sh l) = map sh (flat_map (scope d) l)).
    { induction 1 as [|x r Hx _ IH]; [reflexivity|]. cbn [forallb]. rewrite andb_true_iff. intros [D1 D2]. cbn [map flat_map]. rewrite Hx, IH, map_app by assumption. reflexivity. }
    assert (L : forall n, deep n = true -> Nat.ltb (pdepth (sh n)) (d + delta) = Nat.ltb (pdepth n) d).
    { intros m Hm. rewrite sh_depth by exact Hm. destruct (Nat.ltb_spec (pdepth m + delta) (d + delta)), (Nat.ltb_spec (pdepth m) d); auto; lia. }
    induction n as [a id e t|a id e cl r ps args ds prev Hp Hd Hv|a l args out extra Hl Ho He] using pnode_ind'; intros D.
    - pose proof (L _ D) as E. cbn [shift scope] in *. rewrite E. destruct (Nat.ltb _ d); reflexivity.
    - pose proof (L _ D) as E. cbn [deep] in D. rewrite !andb_true_iff in D. destruct D as [[D1 D2] D3]. cbn [shift scope] in *. rewrite E. destruct (Nat.ltb _ d); [reflexivity|].
      cbn [map shift]. rewrite !map_app, !F by assumption. destruct prev as [p|]; [rewrite Hv by exact D3|]; reflexivity.
    - pose proof (L _ D) as E. cbn [deep] in D. rewrite !andb_true_iff in D. destruct D as [[[D1 D2] D3] D4]. cbn [shift scope] in *. rewrite E. destruct (Nat.ltb _ d); [reflexivity|].
      cbn [map shift]. rewrite !map_app, !F, Hl by assumption. reflexivity.
  Qed.
  Lemma sh_visit n : forall seen acc, visit (sh n) (seen, map sh acc) = (fst (visit n (seen, acc)), map sh (snd (visit n (seen, acc)))).
  Proof.
    assert (F : forall l, Forall (fun n => forall seen acc, visit (sh n) (seen, map sh acc) = (fst (visit n (seen, acc)), map sh (snd (visit n (seen, acc))))) l ->
      forall seen acc, fold_left (fun s p => visit p s) (map sh l) (seen, map sh acc) =
        (fst (fold_left (fun s p => visit p s) l (seen, acc)), map sh (snd (fold_left (fun s p => visit p s) l (seen, acc))))).
    { induction 1 as [|x r Hx _ IH]; intros seen acc; [reflexivity|]. cbn [map fold_left]. rewrite Hx.
      destruct (visit x (seen, acc)) as [s a]. cbn [fst snd]. apply IH. }
    assert (G : forall l, Forall (fun n => forall seen acc, visit (sh n) (seen, map sh acc) = (fst (visit n (seen, acc)), map sh (snd (visit n (seen, acc))))) l ->
      forall seen acc, fold_right (fun p s => visit p s) (seen, map sh acc) (map sh l) =
        (fst (fold_right (fun p s => visit p s) (seen, acc) l), map sh (snd (fold_right (fun p s => visit p s) (seen, acc) l)))).
    { induction 1 as [|x r Hx _ IH]; intros seen acc; [reflexivity|]. cbn [map fold_right]. rewrite IH.
      destruct (fold_right (fun p s => visit p s) (seen, acc) r) as [s a]. cbn [fst snd]. apply Hx. }
    induction n as [a id d t|a id d cl r ps args ds prev Hp Hd Hv|a l args out extra Hl Ho He] using pnode_ind'; intros seen acc.
    - cbn [shift visit paddr fst snd]. destruct (memb Nat.eqb a seen); [reflexivity|]. cbn [fst snd]. rewrite map_app. reflexivity.
    - cbn [shift visit paddr fst snd]. destruct (memb Nat.eqb a seen); [reflexivity|]. rewrite F by exact Hp.
      destruct (fold_left (fun s p => visit p s) ps (seen, acc)) as [s1 a1]. cbn [fst snd]. rewrite F by exact Hd.
      destruct (fold_left (fun s p => visit p s) ds (s1, a1)) as [s2 a2]. cbn [fst snd]. destruct prev as [p|].
      + rewrite Hv. destruct (visit p (s2, a2)) as [s3 a3]. cbn [fst snd]. rewrite map_app. reflexivity.
      + cbn [fst snd]. rewrite map_app. reflexivity.
    - cbn [shift visit paddr fst snd]. destruct (memb Nat.eqb a seen); [reflexivity|]. rewrite G by exact Ho.
      destruct (fold_right (fun p s => visit p s) (seen, acc) out) as [s1 a1]. cbn [fst snd]. rewrite Hl.
      destruct (visit l (s1, a1)) as [s2 a2]. cbn [fst snd]. rewrite map_app. reflexivity.
  Qed.
  Lemma sh_assume d n : is_assume_at (d + delta) (sh n) = is_assume_at d n.
  Proof. destruct n; cbn; auto. destruct (Nat.eqb_spec (depth + delta) (d + delta)), (Nat.eqb_spec depth d); auto; lia. Qed.
  Lemma sh_assumptions d n : assumptions_of (d + delta) (sh n) = map sh (assumptions_of d n).
  Proof.
    unfold assumptions_of. pose proof (sh_visit n [] []) as H. cbn [map] in H. rewrite H. cbn [snd]. clear H.
    induction (snd (visit n ([], []))) as [|x r IH]; [reflexivity|]. cbn [map filter]. rewrite sh_assume. destruct (is_assume_at d x); cbn [map]; rewrite IH; reflexivity.
  Qed.
  Lemma sh_deep n : deep n = true -> deep (sh n) = true.
  Proof.
    assert (F : forall l, Forall (fun n => deep n = true -> deep (sh n) = true) l -> forallb deep l = true -> forallb deep (map sh l) = true).
    { induction 1 as [|x r Hx _ IH]; [reflexivity|]. cbn. rewrite !andb_true_iff. intros [H1 H2]. auto. }
    induction n as [a id d t|a id d cl r ps args ds prev Hp Hd Hv|a l args out extra Hl Ho He] using pnode_ind'; [reflexivity| |].
    - cbn [shift deep]. rewrite !andb_true_iff. intros [[H1 H2] H3]. split; [split; auto|]. destruct prev; auto.
    - cbn [shift deep]. rewrite !andb_true_iff. intros [[[H1 H2] H3] H4]. repeat split; auto. apply Nat.leb_le. rewrite sh_depth by exact H2. apply Nat.leb_le in H1. lia.
  Qed.
  Lemma disch_shift ds : forall c, disch_ok (map as_command (map sh ds)) c = disch_ok (map as_command ds) c.
  Proof.
    induction ds as [|n ds IH]; intros c; [reflexivity|]. destruct c as [|t c]; destruct n; try reflexivity. cbn [map as_command disch_ok shift]. rewrite IH. reflexivity.
  Qed.
  Lemma gok_shift table : table "subproof" = Some subproof -> forall n cx, deep n = true -> gok table cx n -> gok table cx (sh n).
  Proof.
    intros Ht. induction n as [a id d t|a id d cl r ps args ds prev Hp Hd Hv|a l args out extra Hl Ho He] using pnode_ind'; intros cx Hdeep H; [exact Logic.I| |].
    - cbn [deep] in Hdeep. rewrite !andb_true_iff in Hdeep. destruct Hdeep as [[D1 D2] D3]. rewrite forallb_forall in D1.
      cbn [gok] in H. destruct H as (H1 & H2 & H3 & H4). rewrite fold_and_map in H3. cbn [shift gok]. split; [|split; [|split]].
      + destruct H1 as (f & Hf & Hr). exists f. split; [exact Hf|]. rewrite map_map. rewrite (map_ext (fun x => pclause (sh x)) pclause) by apply sh_clause.
        replace (match match prev with Some p => Some (sh p) | None => None end with Some p => Some (pclause p) | None => None end) with (match prev with Some p => Some (pclause p) | None => None end)
          by (destruct prev; [rewrite sh_clause|]; reflexivity).
        destruct H2 as [->|E]; [exact Hr|]. rewrite E, Ht in Hf. injection Hf as <-. unfold subproof in *. cbn [ra_concl ra_prev ra_disch] in *. rewrite disch_shift. rewrite !map_length in *. exact Hr.
      + destruct H2 as [->|H2]; [left; reflexivity|right; exact H2].
      + rewrite fold_and_map, Forall_map. rewrite Forall_forall in H3, Hp |- *. intros p Hin. rewrite sh_depth by auto. replace (d + delta - (pdepth p + delta)) with (d - pdepth p) by lia. auto.
      + destruct prev as [p|]; [|exact Logic.I]. rewrite sh_depth by auto. replace (d + delta - (pdepth p + delta)) with (d - pdepth p) by lia. auto.
    - cbn [deep] in Hdeep. rewrite !andb_true_iff in Hdeep. destruct Hdeep as [[[D1 D2] D3] D4]. rewrite forallb_forall in D4.
      cbn [gok] in H. destruct H as (H1 & H2 & H3). rewrite fold_and_map in H2. cbn [shift gok]. split; [|split].
      + auto.
      + rewrite fold_and_map, Forall_map. rewrite Forall_forall in H2, He |- *. auto.
      + intros x Hx Ha. rewrite sh_depth in Hx by exact D2. rewrite sh_scope in Hx by exact D2.
        assert (Hx' : In x (map sh (flat_map (scope (pdepth l)) extra ++ scope (pdepth l) l))).
        { rewrite map_app. apply in_app_or in Hx. apply in_or_app. destruct Hx as [Hx|Hx]; [left|right; exact Hx]. apply in_flat_map in Hx. destruct Hx as (y & Hy & Hx). apply in_map_iff in Hy.
          destruct Hy as (z & <- & Hz). rewrite sh_scope in Hx by auto. apply in_map_iff in Hx. destruct Hx as (w & <- & Hw). apply in_map. apply in_flat_map. eauto. }
        apply in_map_iff in Hx'. destruct Hx' as (y & <- & Hy). rewrite sh_depth, sh_assume in Ha by exact D2. specialize (H3 y Hy Ha). rewrite sh_addr. destruct l; cbn [shift]; auto.
        rewrite map_map. rewrite (map_ext (fun x => paddr (sh x)) paddr) by apply sh_addr. exact H3.
  Qed.
End Shift.
Lemma scope_sub d n x : In x (scope d n) -> In x (subnodes n).
Proof.
  assert (F : forall l, Forall (fun n => In x (scope d n) -> In x (subnodes n)) l -> In x (flat_map (scope d) l) -> In x (flat_map subnodes l)).
  { intros l Hl H. apply in_flat_map in H. destruct H as (y & Hy & H). apply in_flat_map. exists y. split; [exact Hy|]. rewrite Forall_forall in Hl. auto. }
  induction n as [a id e t|a id e cl r ps args ds prev Hp Hd Hv|a l args out extra Hl Ho He] using pnode_ind'; cbn [scope]; destruct (Nat.ltb _ d); try (intros []; fail); cbn [subnodes].
  - intros H. exact H.
  - intros [H|H]; [left; exact H|right]. rewrite !in_app_iff in *. destruct H as [H|[H|H]]; auto. right. right. destruct prev; auto.
  - intros [H|H]; [left; exact H|right]. rewrite !in_app_iff in *. destruct H as [H|H]; auto.
Qed.
Lemma gok_ctx table n : forall cx cx', (forall r, In r (rules_in n) -> ctx_free table r) -> gok table cx n -> gok table cx' n.
Proof.
  induction n as [a id d t|a id d cl r ps args ds prev Hp Hd Hv|a l args out extra Hl Ho He] using pnode_ind'; intros cx cx' Hc H; [exact Logic.I| |].
  - cbn [gok rules_in] in *. destruct H as (H1 & H2 & H3 & H4). split; [|split; [exact H2|split]].
    + destruct H1 as (f & Hf & Hr). exists f. split; [exact Hf|]. rewrite <- Hr. apply (Hc r); [left; reflexivity|exact Hf].
    + rewrite fold_and_map in *. rewrite Forall_forall in *. intros p Hin. eapply Hp; [exact Hin| |apply H3; exact Hin]. intros q Hq. apply Hc. right. apply in_or_app. left. apply in_flat_map. eauto.
    + destruct prev as [p|]; [|exact Logic.I]. eapply Hv; [|exact H4]. intros q Hq. apply Hc. right. apply in_or_app. right. exact Hq.
  - cbn [gok rules_in] in *. destruct H as (H1 & H2 & H3). split; [|split; [|exact H3]].
    + eapply Hl; [|exact H1]. intros q Hq. apply Hc. apply in_or_app. left. exact Hq.
    + rewrite fold_and_map in *. rewrite Forall_forall in *. intros p Hin. eapply He; [exact Hin| |apply H2; exact Hin]. intros q Hq. apply Hc. apply in_or_app. right. apply in_flat_map. eauto.
Qed.

(** ** The traversal visits every node *)
Section Visit.
  Variable root : pnode.
  Hypothesis Hok : addr_ok root.
  Definition closed (s : list nat) : Prop := forall x, In x (subnodes root) -> In (paddr x) s -> forall y, In y (subnodes x) -> In (paddr y) s.
  Definition done_ (st : list nat * list pnode) : Prop := forall a, In a (fst st) -> exists x, In x (snd st) /\ paddr x = a.
  Definition good (n : pnode) : Prop := incl (subnodes n) (subnodes root) -> forall st, closed (fst st) -> done_ st ->
    closed (fst (visit n st)) /\ done_ (visit n st) /\ incl (fst st) (fst (visit n st)) /\ incl (snd st) (snd (visit n st)) /\ In (paddr n) (fst (visit n st)) /\
    (forall x, In x (snd (visit n st)) -> In x (snd st) \/ In x (subnodes n)).
  Definition goods (ns : list pnode) (st st' : list nat * list pnode) : Prop :=
    closed (fst st') /\ done_ st' /\ incl (fst st) (fst st') /\ incl (snd st) (snd st') /\ (forall n, In n ns -> In (paddr n) (fst st')) /\
    (forall x, In x (snd st') -> In x (snd st) \/ In x (flat_map subnodes ns)).
  Lemma good_fold l : Forall good l -> incl (flat_map subnodes l) (subnodes root) -> forall st, closed (fst st) -> done_ st -> goods l st (fold_left (fun s p => visit p s) l st).
  Proof.
    induction 1 as [|x r Hx _ IH]; intros Hin st Hc Hd; cbn [fold_left].
    - repeat split; auto using incl_refl. intros n [].
    - destruct (Hx) with (st := st) as (A1 & A2 & A3 & A4 & A5 & A6); auto. { intros y Hy. apply Hin. cbn. apply in_or_app. auto. }
      destruct (IH) with (st := visit x st) as (B1 & B2 & B3 & B4 & B5 & B6); auto. { intros y Hy. apply Hin. cbn. apply in_or_app. auto. }
      split; [exact B1|]. split; [exact B2|]. split; [eapply incl_tran; eauto|]. split; [eapply incl_tran; eauto|]. split.
      + intros n [<-|Hn]; auto.
      + intros y Hy. cbn [flat_map]. rewrite in_app_iff. destruct (B6 y Hy) as [H|H]; [|auto]. destruct (A6 y H); auto.
  Qed.
  Lemma good_foldr l : Forall good l -> incl (flat_map subnodes l) (subnodes root) -> forall st, closed (fst st) -> done_ st -> goods l st (fold_right (fun p s => visit p s) st l).
  Proof.
    induction 1 as [|x r Hx _ IH]; intros Hin st Hc Hd; cbn [fold_right].
    - repeat split; auto using incl_refl. intros n [].
    - destruct (IH) with (st := st) as (B1 & B2 & B3 & B4 & B5 & B6); auto. { intros y Hy. apply Hin. cbn. apply in_or_app. auto. }
      destruct (Hx) with (st := fold_right (fun p s => visit p s) st r) as (A1 & A2 & A3 & A4 & A5 & A6); auto. { intros y Hy. apply Hin. cbn. apply in_or_app. auto. }
      split; [exact A1|]. split; [exact A2|]. split; [eapply incl_tran; eauto|]. split; [eapply incl_tran; eauto|]. split.
      + intros n [<-|Hn]; auto.
      + intros y Hy. cbn [flat_map]. rewrite in_app_iff. destruct (A6 y Hy) as [H|H]; [|auto]. destruct (B6 y H); auto.
  Qed.
  (** marking a node whose children are marked *)
  Lemma finish n kids st st' : subnodes n = n :: flat_map subnodes kids -> incl (subnodes n) (subnodes root) -> goods kids st st' ->
    closed (paddr n :: fst st') /\ done_ (paddr n :: fst st', snd st' ++ [n]) /\ incl (fst st) (paddr n :: fst st') /\ incl (snd st) (snd st' ++ [n]) /\ In (paddr n) (paddr n :: fst st') /\
    (forall x, In x (snd st' ++ [n]) -> In x (snd st) \/ In x (subnodes n)).
  Proof.
    intros Es Hin (B1 & B2 & B3 & B4 & B5 & B6). split; [|split; [|split; [|split; [|split]]]].
    - intros x Hx Ha y Hy. cbn [In] in Ha. destruct Ha as [Ha|Ha].
      + assert (x = n). { symmetry. apply Hok; auto. apply Hin. rewrite Es. left. reflexivity. } subst x. rewrite Es in Hy. destruct Hy as [<-|Hy]; [left; reflexivity|]. right.
        apply in_flat_map in Hy. destruct Hy as (k & Hk & Hy). apply (B1 k); auto. apply Hin. rewrite Es. right. apply in_flat_map. exists k. split; [exact Hk|]. destruct k; left; reflexivity.
      + right. eapply B1; eauto.
    - intros a [<-|Ha]; cbn [snd].
      + exists n. split; [apply in_or_app; right; left; reflexivity|reflexivity].
      + destruct (B2 a Ha) as (x & H1 & H2). exists x. split; [apply in_or_app; auto|exact H2].
    - intros a Ha. right. auto.
    - intros a Ha. apply in_or_app. auto.
    - left. reflexivity.
    - intros x Hx. apply in_app_or in Hx. destruct Hx as [Hx|[<-|[]]].
      + rewrite Es. destruct (B6 x Hx); auto. right. right. assumption.
      + right. rewrite Es. left. reflexivity.
  Qed.
  Lemma goods_app a b st st1 st2 : goods a st st1 -> goods b st1 st2 -> goods (a ++ b) st st2.
  Proof.
    intros (A1 & A2 & A3 & A4 & A5 & A6) (B1 & B2 & B3 & B4 & B5 & B6). split; [exact B1|]. split; [exact B2|]. split; [eapply incl_tran; eauto|]. split; [eapply incl_tran; eauto|]. split.
    - intros n Hn. apply in_app_or in Hn. destruct Hn; auto.
    - intros x Hx. rewrite flat_map_app, in_app_iff. destruct (B6 x Hx) as [H|H]; auto. destruct (A6 x H); auto.
  Qed.
  Lemma goods_one n st : good n -> incl (subnodes n) (subnodes root) -> closed (fst st) -> done_ st -> goods [n] st (visit n st).
  Proof.
    intros H Hin Hc Hd. destruct (H Hin st Hc Hd) as (A1 & A2 & A3 & A4 & A5 & A6). split; [exact A1|]. split; [exact A2|]. split; [exact A3|]. split; [exact A4|]. split.
    - intros m [<-|[]]. exact A5.
    - intros x Hx. cbn [flat_map]. rewrite app_nil_r. auto.
  Qed.
  Lemma goods_nil st : closed (fst st) -> done_ st -> goods [] st st.
  Proof. intros. repeat split; auto using incl_refl. intros n []. Qed.
  Lemma visit_good n : good n.
  Proof.
    assert (Skip : forall n st, memb Nat.eqb (paddr n) (fst st) = true -> closed (fst st) -> done_ st ->
      closed (fst st) /\ done_ st /\ incl (fst st) (fst st) /\ incl (snd st) (snd st) /\ In (paddr n) (fst st) /\ (forall x, In x (snd st) -> In x (snd st) \/ In x (subnodes n))).
    { intros m st Hm Hc Hd. split; [exact Hc|]. split; [exact Hd|]. split; [apply incl_refl|]. split; [apply incl_refl|]. split; [|auto]. apply (memb_In _ Nat.eqb_eq). exact Hm. }
    induction n as [a id d t|a id d cl r ps args ds prev Hp Hd Hv|a l args out extra Hl Ho He] using pnode_ind'; intros Hin st Hc Hdn.
    - cbn [visit]. destruct (memb Nat.eqb (paddr (PAssume a id d t)) (fst st)) eqn:E; [apply Skip; auto|].
      apply (finish _ []); auto using goods_nil.
    - cbn [visit]. destruct (memb Nat.eqb (paddr (PStep a id d cl r ps args ds prev)) (fst st)) eqn:E; [apply Skip; auto|].
      assert (Es : subnodes (PStep a id d cl r ps args ds prev) = PStep a id d cl r ps args ds prev :: flat_map subnodes ((ps ++ ds) ++ match prev with Some p => [p] | None => [] end)).
      { cbn [subnodes]. rewrite !flat_map_app, <- app_assoc. destruct prev; cbn [flat_map]; rewrite ?app_nil_r; reflexivity. }
      assert (I1 : incl (flat_map subnodes ((ps ++ ds) ++ match prev with Some p => [p] | None => [] end)) (subnodes root)) by (intros x Hx; apply Hin; rewrite Es; right; exact Hx).
      rewrite !flat_map_app in I1.
      pose proof (good_fold ps Hp (fun x H => I1 x (in_or_app _ _ _ (or_introl (in_or_app _ _ _ (or_introl H))))) st Hc Hdn) as G1.
      pose proof (good_fold ds Hd (fun x H => I1 x (in_or_app _ _ _ (or_introl (in_or_app _ _ _ (or_intror H))))) _ (proj1 G1) (proj1 (proj2 G1))) as G2.
      pose proof (goods_app _ _ _ _ _ G1 G2) as G3. apply (finish _ _ _ _ Es Hin). eapply goods_app; [exact G3|]. destruct prev as [p|].
      + apply goods_one; auto; [|apply G2|apply G2]. intros x H. apply I1. apply in_or_app. right. cbn [flat_map]. rewrite app_nil_r. exact H.
      + apply goods_nil; apply G2.
    - cbn [visit]. destruct (memb Nat.eqb (paddr (PSub a l args out extra)) (fst st)) eqn:E; [apply Skip; auto|].
      assert (Es : subnodes (PSub a l args out extra) = PSub a l args out extra :: flat_map subnodes (out ++ [l])).
      { cbn [subnodes]. rewrite flat_map_app. cbn [flat_map]. rewrite app_nil_r. reflexivity. }
      assert (I1 : incl (flat_map subnodes (out ++ [l])) (subnodes root)) by (intros x Hx; apply Hin; rewrite Es; right; exact Hx). rewrite flat_map_app in I1.
      pose proof (good_foldr out Ho (fun x H => I1 x (in_or_app _ _ _ (or_introl H))) st Hc Hdn) as G1.
      apply (finish _ _ _ _ Es Hin). eapply goods_app; [exact G1|]. apply goods_one; auto; [|apply G1|apply G1].
      intros x H. apply I1. apply in_or_app. right. cbn [flat_map]. rewrite app_nil_r. exact H.
  Qed.
End Visit.
Lemma subnodes_self n : In n (subnodes n). Proof. destruct n; left; reflexivity. Qed.
Lemma assumptions_complete n d x : addr_ok n -> (In x (assumptions_of d n) <-> In x (subnodes n) /\ is_assume_at d x = true).
Proof.
  intros Hok. destruct (visit_good n Hok n (incl_refl _) ([], [])) as (A1 & A2 & _ & _ & A5 & A6); [intros y _ []|intros a []|].
  unfold assumptions_of. rewrite filter_In. split; intros [H1 H2]; (split; [|exact H2]).
  - destruct (A6 x H1) as [[]|H]; exact H.
  - assert (H : In (paddr x) (fst (visit n ([], [])))) by (apply (A1 n); auto using subnodes_self). destruct (A2 _ H) as (y & H3 & H4).
    destruct (A6 y H3) as [[]|H5]. assert (y = x) by (apply Hok; auto). subst y. exact H3.
Qed.
Lemma addr_shift delta prefix n : addr_ok n -> addr_ok (shift delta prefix n).
Proof.
  intros H x y Hx Hy E. rewrite sh_subnodes in Hx, Hy. apply in_map_iff in Hx, Hy. destruct Hx as (a & <- & Ha), Hy as (b & <- & Hb). rewrite !sh_addr in E. f_equal. auto.
Qed.

(** ** The final resolution *)
Definition bneg (l : bool * term) : bool * term := (negb (fst l), snd l).
Lemma bneg_inv l : bneg (bneg l) = l. Proof. destruct l as [b t]. unfold bneg. cbn. rewrite negb_involutive. reflexivity. Qed.
Lemma bneg_neq l : bneg l <> l. Proof. destruct l as [b t]. unfold bneg. cbn. destruct b; discriminate. Qed.
Lemma smallest_le {A} (cs : list (list A)) : forall c d, In d (c :: cs) -> List.length (smallest c cs) <= List.length d.
Proof.
  induction cs as [|e cs IH]; intros c d H; cbn [smallest].
  - destruct H as [<-|[]]. lia.
  - destruct (Nat.ltb_spec (List.length e) (List.length c)).
    + destruct H as [<-|[<-|H]].
      * specialize (IH e e (or_introl eq_refl)). lia.
      * apply IH. left. reflexivity.
      * apply IH. right. exact H.
    + destruct H as [<-|[<-|H']].
      * apply IH. left. reflexivity.
      * specialize (IH c c (or_introl eq_refl)). lia.
      * apply IH. right. exact H'.
Qed.
Lemma set_remove_In (x y : bool * term) l : In y (set_remove blit_eqb x l) <-> In y l /\ y <> x.
Proof.
  unfold set_remove. rewrite filter_In, negb_true_iff. split; intros [H1 H2]; (split; [exact H1|]).
  - intros ->. assert (H : blit_eqb x x = true) by (apply blit_eqb_eq; reflexivity). congruence.
  - destruct (blit_eqb x y) eqn:E; [apply blit_eqb_eq in E; congruence|reflexivity].
Qed.
(** a clause all of whose literals are refuted by unit clauses *)
Definition conflict (cs : list (list (bool * term))) : Prop := exists D, In D cs /\ forall l, In l D -> In [bneg l] cs.
Lemma rup_conflict fuel : forall cs, List.length cs < fuel -> conflict cs -> rup_loop fuel cs = Some true.
Proof.
  induction fuel as [|f IH]; intros cs Hl (D & HD & Hu); [lia|]. cbn [rup_loop]. destruct cs as [|c0 r]; [destruct HD|].
  assert (Hsm : List.length (smallest c0 r) <= 1).
  { destruct D as [|l D]; [specialize (smallest_le r c0 [] HD); cbn; lia|]. specialize (smallest_le r c0 _ (Hu l (or_introl eq_refl))). cbn. lia. }
  pose proof (smallest_In r c0) as Hs. destruct (smallest c0 r) as [|m [|m2 q]] eqn:Es; [reflexivity| |cbn in Hsm; lia].
  apply IH.
  - rewrite map_length. assert (List.length (filter (fun c => negb (memb blit_eqb m c)) (c0 :: r)) < List.length (c0 :: r)); [|lia].
    eapply filter_length_lt; [exact Hs|]. unfold memb; simpl. assert (H : blit_eqb m m = true) by (apply blit_eqb_eq; reflexivity). rewrite H. reflexivity.
  - assert (K : forall d, In d (c0 :: r) -> ~ In m d -> In (set_remove blit_eqb (bneg m) d) (map (set_remove blit_eqb (bneg m)) (filter (fun c => negb (memb blit_eqb m c)) (c0 :: r)))).
    { intros d Hd Hm. apply in_map. apply filter_In. split; [exact Hd|]. apply negb_true_iff. destruct (memb blit_eqb m d) eqn:E; [|reflexivity]. apply (memb_In _ blit_eqb_eq) in E. contradiction. }
    destruct (memb blit_eqb m D) eqn:E.
    + apply (memb_In _ blit_eqb_eq) in E. exists []. split; [|intros l []]. pose proof (K [bneg m] (Hu m E)) as H.
      replace (set_remove blit_eqb (bneg m) [bneg m]) with (@nil (bool * term)) in H.
      * apply H. intros [X|[]]. apply (bneg_neq m X).
      * unfold set_remove. cbn. assert (B : blit_eqb (bneg m) (bneg m) = true) by (apply blit_eqb_eq; reflexivity). unfold bneg in *. rewrite B. reflexivity.
    + assert (Hm : ~ In m D) by (intros X; apply (memb_In _ blit_eqb_eq) in X; congruence).
      exists (set_remove blit_eqb (bneg m) D). split; [apply K; auto|]. intros l Hin. apply set_remove_In in Hin. destruct Hin as [H1 H2].
      assert (El : set_remove blit_eqb (bneg m) [bneg l] = [bneg l]).
      { unfold set_remove. cbn. destruct (blit_eqb (bneg m) (bneg l)) eqn:B; [|reflexivity]. apply blit_eqb_eq in B. exfalso. apply Hm. rewrite <- (bneg_inv m), B, bneg_inv. exact H1. }
      rewrite <- El. apply K; [apply Hu; exact H1|]. intros [X|[]]. apply H2. rewrite <- X, bneg_inv. reflexivity.
Qed.
Lemma polarity_not t : rm_neg_polarity (tNot t) = bneg (rm_neg_polarity t).
Proof. unfold rm_neg_polarity. change (remove_all_negations (tNot t)) with (let (n, u) := remove_all_negations t in (S n, u)). destruct (remove_all_negations t) as [n u]. cbn [fst snd]. unfold bneg. cbn [fst snd]. f_equal. rewrite Nat.even_succ, <- Nat.negb_even. reflexivity. Qed.
Lemma close_resolution concl ps : In [tNot tFalse] ps -> In (sub_clause concl) ps -> 2 <= List.length ps -> r_resolution concl ps [] = ROk tt.
Proof.
  intros H1 H2 H3. assert (R : rup_resolution concl ps = true).
  { unfold rup_resolution. rewrite (rup_conflict _ (rup_init concl ps)); [reflexivity|lia|].
    exists (set_of blit_eqb (map rm_neg_polarity (sub_clause concl))). split.
    - unfold rup_init. apply in_or_app. left. apply in_map_iff. eauto.
    - intros l Hl. rewrite set_of_In in Hl by apply blit_eqb_eq. apply in_map_iff in Hl. destruct Hl as (t & <- & Ht). unfold sub_clause in Ht. apply in_app_or in Ht. unfold rup_init. apply in_or_app. destruct Ht as [Ht|[<-|[]]].
      + right. apply in_map_iff in Ht. destruct Ht as (u & <- & Hu). apply in_map_iff. exists u. split; [|exact Hu]. unfold nn. rewrite !polarity_not, bneg_inv. destruct (rm_neg_polarity u). reflexivity.
      + left. apply in_map_iff. exists [tNot tFalse]. split; [reflexivity|exact H1]. }
  unfold r_resolution. assert (G : (len_ge ps 2 ;; match greedy_resolution concl ps with ROk _ => ROk tt | _ => rassert (rup_resolution concl ps) end) = ROk tt).
  { unfold len_ge. replace (Nat.leb 2 (List.length ps)) with true by (symmetry; apply Nat.leb_le; exact H3). cbn [rassert obind]. rewrite R. destruct (greedy_resolution concl ps); reflexivity. }
  destruct concl; [|exact G]. destruct ps as [|[|t [|u q]] [|p2 ps]]; try exact G. cbn in H3. lia.
Qed.

(** ** The assumptions *)
Definition assumes (d : nat) (n : pnode) (t : term) : Prop := exists a id, n = PAssume a id d t.
Lemma disch_all d asms concl rest : Forall2 (assumes d) asms (map tNot concl) -> disch_ok (map as_command asms) (map nn concl ++ rest) = ROk tt.
Proof.
  revert concl. induction asms as [|n asms IH]; intros concl H; [reflexivity|]. destruct concl as [|t concl]; [inversion H|]. cbn [map] in H. inversion H as [|? ? ? ? (a & id & ->) Hr]; subst.
  cbn [map as_command disch_ok app]. change (rm_neg (nn t)) with (ROk (tNot t)). cbn [obind]. unfold assert_polyeq. rewrite polyeq_refl. cbn [obind rassert]. apply IH. exact Hr.
Qed.
Lemma f2_length {A B} (R : A -> B -> Prop) l l' : Forall2 R l l' -> List.length l = List.length l'.
Proof. induction 1; cbn; auto. Qed.
Lemma subproof_ok d asms concl cx : Forall2 (assumes d) asms (map tNot concl) -> subproof (mkRA (sub_clause concl) [] [] cx (Some []) (map as_command asms)) = ROk tt.
Proof.
  intros H. unfold subproof. cbn [ra_prev ok_or obind ra_concl ra_disch]. unfold sub_clause. rewrite (disch_all d) by exact H. apply f2_length in H. rewrite app_length, !map_length in *. cbn [List.length]. rewrite <- H.
  rewrite Nat.eqb_refl. cbn [rassert obind]. rewrite nth_error_app2 by (rewrite map_length; lia). rewrite map_length. replace (List.length asms + 1 - 1 - List.length concl) with 0 by lia. cbn [nth_error unwrap obind].
  unfold assert_polyeq. rewrite polyeq_refl. reflexivity.
Qed.
Section Close.
  Variable other : bool -> string -> crule.
  Let table := rule_table other false.
  Lemma close_ok k d concl sid nid asms prf cx : List.length cx = d -> Forall2 (assumes (d + 1)) asms (map tNot concl) -> pclause prf = [] -> pdepth prf = d + 1 ->
    (forall x, In x (subnodes prf) -> is_assume_at (d + 1) x = true -> In (paddr x) (map paddr asms)) -> gok table ([] :: cx) prf -> gok table cx (close k d concl sid nid asms prf).
  Proof.
    intros Hcx Ha Hp Hd Hin Hg. cbn [close]. set (n := List.length concl). set (nns := map (not_not_step (k + 2) d nid) (combine (seq 0 n) concl)).
    cbn [gok]. split; [|split; [left; reflexivity|split; [|exact Logic.I]]].
    - exists (plain r_resolution). split; [reflexivity|]. unfold plain. cbn [ra_concl ra_prems ra_args]. apply close_resolution.
      + cbn [map]. right. rewrite map_app. apply in_or_app. right. left. reflexivity.
      + left. reflexivity.
      + cbn [map List.length]. rewrite map_length, app_length. cbn. lia.
    - cbn [map fold_right]. split.
      + cbn [pdepth]. replace (d - (S d - 1)) with 0 by lia. cbn [skipn gok map fold_right]. split; [|split; [exact Logic.I|]].
        * split; [|split; [right; reflexivity|split; [exact Logic.I|]]].
          -- exists subproof. split; [reflexivity|]. cbn [map]. rewrite Hp. eapply subproof_ok; eauto.
          -- rewrite Hd. replace (S d - (d + 1)) with 0 by lia. exact Hg.
        * intros x Hx Hq. cbn [flat_map app] in Hx. apply scope_sub in Hx. cbn [subnodes pdepth flat_map app] in Hx, Hq. destruct Hx as [<-|Hx]; [discriminate Hq|]. rewrite in_app_iff in Hx. destruct Hx as [Hx|Hx].
          -- apply in_flat_map in Hx. destruct Hx as (y & Hy & Hx). assert (G : Forall (fun y => exists a id t, y = PAssume a id (d + 1) t) asms).
             { clear - Ha. revert Ha. generalize (map tNot concl). induction asms as [|z r IH]; intros l H; [constructor|]. inversion H as [|? ? ? ? (a & id & ->) Hr]; subst. constructor; eauto. }
             rewrite Forall_forall in G. destruct (G y Hy) as (a & id & t & ->). destruct Hx as [<-|[]]. apply (in_map paddr) in Hy. exact Hy.
          -- apply Hin; [exact Hx|]. replace (d + 1) with (S d) by lia. exact Hq.
      + rewrite fold_and_map. apply Forall_app. split; [|constructor; [|constructor]].
        * unfold nns. rewrite Forall_map. apply Forall_forall. intros [i t] _. cbn [not_not_step fst snd gok map fold_right]. split; [|split; [left; reflexivity|split; exact Logic.I]].
          exists (plain r_not_not). split; [reflexivity|]. unfold plain. cbn [ra_concl ra_prems ra_args]. unfold r_not_not. cbn. unfold teq. assert (E : term_eqb t t = true) by (apply term_eqb_eq; reflexivity). rewrite E. reflexivity.
        * cbn [gok map fold_right]. split; [|split; [left; reflexivity|split; exact Logic.I]]. exists (plain r_false). split; reflexivity.
  Qed.
  Lemma root_clause forest prf : solver_root forest = ROk prf -> pclause prf = [] /\ In prf forest.
  Proof.
    unfold solver_root. destruct (find _ forest) as [n|] eqn:E; [|discriminate]. intros [= <-]. apply find_some in E. destruct E as [H1 H2]. destruct (pclause n); [auto|discriminate].
  Qed.
  Lemma filter_assumes d l : Forall (fun n => exists t, assumes d n t) (filter (is_assume_at d) l).
  Proof. apply Forall_forall. intros x Hx. apply filter_In in Hx. destruct Hx as [_ Hx]. destruct x; try discriminate. cbn in Hx. apply Nat.eqb_eq in Hx. subst. exists t, a, id. reflexivity. Qed.

  (** the step is accepted in its context, given the solver's proof *)
  Definition solver_fits (prf : pnode) : Prop :=
    pdepth prf = 0 /\ deep prf = true /\ addr_ok prf /\ gok table [] prf /\ forall r, In r (rules_in prf) -> ctx_free table r.
  Lemma solver_shift d prefix prf cx : solver_fits prf ->
    pdepth (shift (d + 1) prefix prf) = d + 1 /\ addr_ok (shift (d + 1) prefix prf) /\ gok table ([] :: cx) (shift (d + 1) prefix prf).
  Proof.
    intros (H1 & H2 & H3 & H4 & H5). split; [rewrite sh_depth by exact H2; lia|]. split; [apply addr_shift; exact H3|]. apply gok_shift; [reflexivity|exact H2|]. eapply gok_ctx; eauto.
  Qed.
  Lemma assumes_shift delta prefix d asms ts : Forall2 (assumes d) asms ts -> Forall2 (assumes (d + delta)) (map (shift delta prefix) asms) ts.
  Proof. induction 1 as [|n t asms ts (a & id & ->) _ IH]; constructor; auto. exists a, (prefix ++ "." ++ id)%string. reflexivity. Qed.
  Lemma hole_ok k root d concl forest prf cx : List.length cx = d -> solver_root forest = ROk prf -> solver_fits prf -> Forall2 (assumes 0) (assumptions_of 0 prf) (map tNot concl) ->
    exists n, hole_insert k root d concl forest = ROk n /\ pclause n = concl /\ gok table cx n.
  Proof.
    intros Hcx Hr Hf Ha. destruct (root_clause _ _ Hr) as [Hcl _]. unfold hole_insert. rewrite Hr. cbn [obind]. eexists. split; [reflexivity|]. split; [reflexivity|].
    destruct (solver_shift d root prf cx Hf) as (S1 & S2 & S3). apply close_ok; auto.
    - replace (d + 1) with (0 + (d + 1)) at 1 2 by lia. rewrite sh_assumptions. apply assumes_shift. exact Ha.
    - rewrite sh_clause. exact Hcl.
    - intros x Hx Hq. apply in_map. apply assumptions_complete; auto.
  Qed.
  (** every assumption of the solver's proof is the negation of a literal, and no two assume the same *)
  Definition distinct (asms : list pnode) : Prop := forall n m, In n asms -> In m asms -> assume_term n = assume_term m -> n = m.
  Definition lia_fits (concl : clause) (asms : list pnode) : Prop :=
    (forall n, In n asms -> exists l, In l concl /\ assume_term n = Some (tNot l)) /\ distinct asms.
  Lemma node_for_some asms u n : node_for asms u = Some n -> In n asms /\ assume_term n = Some u.
  Proof.
    unfold node_for. intros H. apply find_some in H. destruct H as [H1 H2]. rewrite <- in_rev in H1. split; [exact H1|]. destruct (assume_term n) as [v|]; [|discriminate]. apply term_eqb_eq in H2. subst. reflexivity.
  Qed.
  Lemma node_for_in asms n u : distinct asms -> In n asms -> assume_term n = Some u -> node_for asms u = Some n.
  Proof.
    intros Hd Hn Hu. destruct (node_for asms u) as [m|] eqn:E.
    - apply node_for_some in E. destruct E as [H1 H2]. f_equal. apply Hd; congruence.
    - exfalso. unfold node_for in E. pose proof (find_none _ _ E n) as H. rewrite <- in_rev in H. specialize (H Hn). rewrite Hu in H. assert (X : term_eqb u u = true) by (apply term_eqb_eq; reflexivity). cbn in H. congruence.
  Qed.
  Lemma rebuild_assumes k d nid asms : Forall (fun n => exists t, assumes (d + 1) n t) asms -> forall concl covered j,
    Forall2 (assumes (d + 1)) (fst (rebuild k d nid asms covered j concl)) (map tNot concl).
  Proof.
    intros Ha. induction concl as [|t concl IH]; intros covered j; cbn [rebuild map]; [constructor|].
    destruct (if memb term_eqb (tNot t) covered then None else node_for asms (tNot t)) as [n|] eqn:E; cbn [fst].
    - constructor; [|apply IH]. destruct (memb term_eqb (tNot t) covered); [discriminate|]. apply node_for_some in E. destruct E as [H1 H2]. rewrite Forall_forall in Ha. destruct (Ha n H1) as (u & a & id & ->). cbn in H2. injection H2 as ->. exists a, id. reflexivity.
    - constructor; [|apply IH]. exists (k + j), (nid j). reflexivity.
  Qed.
  Lemma rebuild_covers k d nid asms n l : distinct asms -> In n asms -> assume_term n = Some (tNot l) -> forall concl covered j, In l concl -> ~ In (tNot l) covered ->
    In n (fst (rebuild k d nid asms covered j concl)).
  Proof.
    intros Hd Hn Hu. induction concl as [|t concl IH]; intros covered j Hl Hc; [destruct Hl|]. cbn [rebuild].
    destruct (term_eqb t l) eqn:E.
    - apply term_eqb_eq in E. subst t. assert (M : memb term_eqb (tNot l) covered = false) by (destruct (memb term_eqb (tNot l) covered) eqn:M; [apply (memb_In _ term_eqb_eq) in M; contradiction|reflexivity]).
      rewrite M, (node_for_in asms n (tNot l)) by assumption. left. reflexivity.
    - assert (Ht : t <> l) by (intros ->; assert (X : term_eqb l l = true) by (apply term_eqb_eq; reflexivity); congruence).
      assert (Hl' : In l concl) by (destruct Hl as [Hl|Hl]; [contradiction|exact Hl]).
      assert (Hc' : ~ In (tNot l) (tNot t :: covered)) by (intros [X|X]; [injection X as X; contradiction|contradiction]).
      destruct (if memb term_eqb (tNot t) covered then None else node_for asms (tNot t)); cbn [fst]; right; apply IH; auto.
  Qed.
  Lemma lia_ok k root d concl forest prf cx : List.length cx = d -> solver_root forest = ROk prf -> solver_fits prf -> lia_fits concl (assumptions_of 0 prf) ->
    exists n, lia_insert k root d concl forest = ROk n /\ pclause n = concl /\ gok table cx n.
  Proof.
    intros Hcx Hr Hf [Ha Hd]. destruct (root_clause _ _ Hr) as [Hcl _]. unfold lia_insert. rewrite Hr. cbn [obind]. eexists. split; [reflexivity|]. split; [reflexivity|].
    set (sid := pos root 0). destruct (solver_shift d sid prf cx Hf) as (S1 & S2 & S3).
    assert (Es : assumptions_of (d + 1) (shift (d + 1) sid prf) = map (shift (d + 1) sid) (assumptions_of 0 prf)) by (apply (sh_assumptions (d + 1) sid 0)).
    assert (Et : forall n, assume_term (shift (d + 1) sid n) = assume_term n) by (intros []; reflexivity).
    apply close_ok; auto.
    - apply rebuild_assumes. unfold assumptions_of. apply filter_assumes.
    - rewrite sh_clause. exact Hcl.
    - intros x Hx Hq. apply in_map. assert (Hin : In x (assumptions_of (d + 1) (shift (d + 1) sid prf))) by (apply assumptions_complete; auto).
      assert (Hin' := Hin). rewrite Es in Hin'. apply in_map_iff in Hin'. destruct Hin' as (y & <- & Hy). destruct (Ha y Hy) as (l & Hl & Hy').
      apply rebuild_covers with (l := l); auto.
      + rewrite Es. intros n m Hn Hm. apply in_map_iff in Hn, Hm. destruct Hn as (n' & <- & Hn), Hm as (m' & <- & Hm). rewrite !Et. intros E. f_equal. apply Hd; assumption.
      + rewrite Et. exact Hy'.
  Qed.
End Close.
