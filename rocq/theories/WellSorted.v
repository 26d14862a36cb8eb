(** The terms that are read are well sorted. *)
From Coq Require Import List Bool NArith ZArith String Arith Lia ZifyBool.
From Verif Require Import Base Term Sem Sorting Utils Rules Num R_Simp PolyeqSound Subst SubstSound Context ContextSound Checker CheckerSem Lexer TermIO Parser ProofIO.
Import ListNotations.
Local Open Scope nat_scope.

(** ** Substitution keeps sorts, whatever it captures *)
Definition same_sort (t t' : term) : Prop := wt t' = true /\ sort_of t' = sort_of t.
Definition wsm (m : smap) : Prop := forall k v, In (k, v) m -> exists x s, k = TVar x s /\ wt v = true /\ sort_of v = s.
Definition wsc (c : smap) : Prop := forall k v, In (k, v) c -> wt k = true -> same_sort k v.
Definition wss (S : sub) : Prop := wsm (sm S) /\ wsc (sc S).
Lemma wsm_nil : wsm []. Proof. intros k v []. Qed.
Lemma wsc_nil : wsc []. Proof. intros k v []. Qed.
Lemma wsm_sins m x s v : wsm m -> wt v = true -> sort_of v = s -> wsm (sins m (TVar x s) v).
Proof. intros H H1 H2 k v' Hk. apply sins_In in Hk. destruct Hk as [Hk|[-> ->]]; [auto|]. exists x, s. auto. Qed.
Lemma wsc_sins m k v : wsc m -> (wt k = true -> same_sort k v) -> wsc (sins m k v).
Proof. intros H H1 k' v' Hk. apply sins_In in Hk. destruct Hk as [Hk|[-> ->]]; [auto|auto]. Qed.
Lemma rename_wsm sb vs : forall newv ren vs' ren', rename_vars sb newv ren vs = (vs', ren') -> wsm ren -> wsm ren'.
Proof.
  induction vs as [|[x s] vs IH]; intros newv ren vs' ren' H Hr; cbn [rename_vars] in H; [injection H as _ <-; exact Hr|].
  destruct (rename_vars _ _ _ vs) as [r' ren''] eqn:E. injection H as _ <-. eapply IH; [exact E|].
  destruct (negb _); [apply wsm_sins; auto|exact Hr].
Qed.
Section Apply.
  Variable app : sub -> term -> outcome sres.
  Hypothesis Happ : forall S t t' S' ok, wss S -> wt t = true -> app S t = ROk (t', S', ok) -> wss S' /\ same_sort t t'.
  Lemma seq_wt : forall l S l' S' ok, wss S -> forallb wt l = true -> apply_seq app S l = ROk (l', S', ok) ->
    wss S' /\ forallb wt l' = true /\ map sort_of l' = map sort_of l.
  Proof.
    induction l as [|a l IH]; intros S l' S' ok Hs Hw H; cbn [apply_seq] in H; [injection H as <- <- _; auto|].
    apply obind_ok in H. destruct H as [[[a' S1] ok1] [H1 H]]. apply obind_ok in H. destruct H as [[[r' S2] ok2] [H2 H]]. injection H as <- <- _.
    cbn [forallb] in Hw. apply andb_true_iff in Hw. destruct Hw as [Hw1 Hw2]. destruct (Happ _ _ _ _ _ Hs Hw1 H1) as [A1 [A2 A3]].
    destruct (IH _ _ _ _ A1 Hw2 H2) as [B1 [B2 B3]]. split; [exact B1|]. cbn. rewrite A2, B2, A3, B3. auto.
  Qed.
  Lemma lets_wt names : forall bs newv R bs' R', wss R -> forallb (fun p => wt (snd p)) bs = true -> rename_lets app names newv R bs = ROk (bs', R') ->
    wss R' /\ forallb (fun p => wt (snd p)) bs' = true.
  Proof.
    induction bs as [|[x v] bs IH]; intros newv R bs' R' Hs Hw H; cbn [rename_lets] in H; [injection H as <- <-; auto|].
    cbn [forallb snd] in Hw. apply andb_true_iff in Hw. destruct Hw as [Hw1 Hw2]. set (R1 := if negb _ then _ else _) in H.
    assert (HR : wss R1).
    { unfold R1. destruct (negb _); [|exact Hs]. destruct Hs as [A B]. split; [apply wsm_sins; auto|]. intros k r Hk. cbn [sub_insert sc] in Hk. apply filter_In in Hk. apply B. tauto. }
    apply obind_ok in H. destruct H as [[[v' R2] ok] [H1 H]]. apply obind_ok in H. destruct H as [[r' R3] [H2 H]]. injection H as <- <-.
    destruct (Happ _ _ _ _ _ HR Hw1 H1) as [A1 [A2 _]]. destruct (IH _ _ _ _ A1 Hw2 H2) as [B1 B2]. split; [exact B1|]. cbn. rewrite A2, B2. reflexivity.
  Qed.
  Lemma body_wt S t t' S' ok : wss S -> wt t = true -> apply_body app S t = ROk (t', S', ok) -> wss S' /\ same_sort t t'.
  Proof.
    intros Hs Hw H. assert (Hn : wss (with_names S)) by exact Hs. unfold same_sort.
    destruct t as [c|x s|f args|o args|s|b vs inner|bs inner|o oa args]; cbn [apply_body] in H.
    - injection H as <- <- _. auto.
    - injection H as <- <- _. auto.
    - apply obind_ok in H. destruct H as [[[args' S2] ok2] [H1 H]]. apply obind_ok in H. destruct H as [[[f' S3] ok3] [H2 H]]. injection H as <- <- _.
      cbn [wt] in Hw. rewrite !andb_true_iff in Hw. destruct Hw as [[Hw1 Hw2] Hw3]. destruct (seq_wt _ _ _ _ _ Hs Hw2 H1) as [A1 [A2 A3]]. destruct (Happ _ _ _ _ _ A1 Hw1 H2) as [B1 [B2 B3]].
      split; [auto|]. split; [cbn [wt]; rewrite A2, B2, A3, B3, Hw3; reflexivity|cbn [sort_of]; rewrite B3; reflexivity].
    - apply obind_ok in H. destruct H as [[[args' S2] ok2] [H1 H]]. injection H as <- <- _. pose proof Hw as Hw'. cbn [wt] in Hw. rewrite !andb_true_iff in Hw. destruct Hw as [Hw1 Hw2].
      destruct (seq_wt _ _ _ _ _ Hs Hw1 H1) as [A1 [A2 A3]]. assert (Ho : o <> OBvConst) by (intros ->; discriminate Hw2).
      split; [auto|]. split; [cbn [wt]; rewrite A2, A3, Hw2; reflexivity|rewrite !sort_of_op, A3; auto].
    - discriminate Hw.
    - cbv zeta in H. destruct (can_skip _ _ vs); [injection H as <- <- _; auto|]. destruct (rename_vars (sub_names S) [] [] vs) as [vs' ren] eqn:Er.
      destruct (rename_vars_notin _ _ _ _ _ _ Er) as [_ Hsn]. assert (Hlen : List.length vs' = List.length vs) by (rewrite <- (map_length snd vs'), Hsn, map_length; reflexivity).
      pose proof (rename_wsm _ _ _ _ _ _ Er wsm_nil) as Hren. cbn [wt] in Hw. rewrite !andb_true_iff in Hw. destruct Hw as [[Hw1 Hw2] Hw3].
      assert (HW : forall i', wt i' = true -> sort_of i' = sort_of inner -> wt (TBind b vs' i') = true).
      { intros i' Hi1 Hi2. cbn [wt]. rewrite Hi1, Hi2, Hlen. replace (min_len 1 vs') with (min_len 1 vs); [rewrite Hw2; auto|]. unfold min_len. rewrite Hlen. reflexivity. }
      assert (HSo : forall i', sort_of i' = sort_of inner -> sort_of (TBind b vs' i') = sort_of (TBind b vs inner)).
      { intros i' Hi'. destruct b; cbn [sort_of]; auto; rewrite ?Hi', ?Hsn; auto. destruct vs as [|[? ?] ?], vs' as [|[? ?] ?]; try discriminate; auto. cbn in Hsn. congruence. }
      destruct ren as [|p ren].
      + apply obind_ok in H. destruct H as [[[i' S2] ok2] [H1 H]]. injection H as <- <- _. destruct (Happ _ _ _ _ _ Hn Hw1 H1) as [B1 [B2 B3]]. auto.
      + set (R := p :: ren) in *. apply obind_ok in H. destruct H as [[[i1 S2] ok2] [H1 H]]. apply obind_ok in H. destruct H as [[[i2 S3] ok3] [H2 H]]. injection H as <- <- _.
        assert (HR : wss (sub_of R)) by (split; [exact Hren|apply wsc_nil]). destruct (Happ _ _ _ _ _ HR Hw1 H1) as [_ [A2 A3]].
        destruct (Happ _ _ _ _ _ Hn A2 H2) as [B1 [B2 B3]]. rewrite A3 in B3. auto.
    - apply obind_ok in H. destruct H as [names [_ H]]. apply obind_ok in H. destruct H as [[bs' R] [H1 H]]. apply obind_ok in H. destruct H as [y [H2 H]].
      apply obind_ok in H. destruct H as [[[i2 S2] ok2] [H3 H]]. injection H as <- <- _. cbn [wt] in Hw. apply andb_true_iff in Hw. destruct Hw as [Hw1 Hw2].
      destruct (lets_wt _ _ _ _ _ _ (conj wsm_nil wsc_nil : wss sub_empty) Hw1 H1) as [A1 A2].
      assert (Hy : same_sort inner y).
      { destruct (sm R); [injection H2 as <-; split; auto|]. apply obind_ok in H2. destruct H2 as [[[i1 S1] ok1] [H4 H2]]. injection H2 as <-. apply (Happ _ _ _ _ _ A1 Hw2 H4). }
      destruct Hy as [Hy1 Hy2]. destruct (Happ _ _ _ _ _ Hs Hy1 H3) as [B1 [B2 B3]]. split; [exact B1|]. cbn [wt sort_of]. rewrite A2, B2, B3, Hy2. auto.
    - apply obind_ok in H. destruct H as [[[args' S2] ok2] [H1 H]]. injection H as <- <- _. cbn [wt] in Hw. rewrite !andb_true_iff in Hw. destruct Hw as [Hw1 Hw2].
      destruct (seq_wt _ _ _ _ _ Hs Hw1 H1) as [A1 [A2 A3]]. split; [auto|]. split; [cbn [wt]; rewrite A2, A3, Hw2; reflexivity|cbn [sort_of]; rewrite A3; reflexivity].
  Qed.
End Apply.
Lemma apply_wt : forall n S t t' S' ok, wss S -> wt t = true -> apply n S t = ROk (t', S', ok) -> wss S' /\ same_sort t t'.
Proof.
  induction n as [|n IH]; intros S t t' S' ok Hs Hw H; [discriminate|]. cbn [apply] in H.
  destruct (sget (sc S) t) as [v|] eqn:Ec; [injection H as <- <- _; split; [auto|]; apply Hs; [apply sget_In; exact Ec|exact Hw]|].
  destruct (sget (sm S) t) as [v|] eqn:Eg.
  { injection H as <- <- _. split; [auto|]. destruct Hs as [Hm _]. destruct (Hm _ _ (sget_In _ _ _ Eg)) as [x [s [-> [H1 H2]]]]. split; auto. }
  apply obind_ok in H. destruct H as [[[r S1] ok1] [H1 H]]. injection H as <- <- _. destruct (body_wt (apply n) IH _ _ _ _ _ Hs Hw H1) as [A B].
  split; [|exact B]. destruct A as [A1 A2]. split; [exact A1|]. apply wsc_sins; auto.
Qed.
Lemma subst_wt m t t' : wsm m -> wt t = true -> subst m t = ROk t' -> same_sort t t'.
Proof.
  intros Hm Hw H. unfold subst in H. apply obind_ok in H. destruct H as [[[r S] ok] [H1 H]]. injection H as <-. apply (apply_wt _ (sub_of m) _ _ _ _ (conj Hm wsc_nil) Hw H1).
Qed.

(** ** The parser of terms *)
(** the bodies of the definitions are well sorted *)
Definition defs_wt (D : defs) : Prop := forall x d, assoc x D = Some d -> wt (snd d) = true.
Definition good {A S : Type} (P : A -> Prop) (Q : S -> Prop) (o : outcome (A * S * list token)) : Prop := match o with ROk (a, s, _) => P a /\ Q s | _ => True end.
Lemma bind_good {A S B T} (P : A -> Prop) (Q : S -> Prop) (P' : B -> Prop) (Q' : T -> Prop) (o : outcome (A * S * list token)) f :
  good P Q o -> (forall a s r, P a -> Q s -> good P' Q' (f (a, s, r))) -> good P' Q' (do x <- o ; f x).
Proof. destruct o as [[[a s] r]| |]; cbn; auto. intros [H1 H2] H. auto. Qed.
Lemma any_good {A B T} (P' : B -> Prop) (Q' : T -> Prop) (o : outcome A) f : (forall a, o = ROk a -> good P' Q' (f a)) -> good P' Q' (do x <- o ; f x).
Proof. destruct o; cbn; auto. Qed.
Lemma seq_good {A S} (P : A -> Prop) (Q : S -> Prop) (p : S -> list token -> outcome (A * S * list token)) : (forall s ts, Q s -> good P Q (p s ts)) ->
  forall n s ts, Q s -> good (Forall P) Q (seq p n s ts).
Proof.
  intros Hp. induction n as [|n IH]; intros s ts Hs; [destruct ts as [|[] r]; cbn; auto|].
  assert (H : good (Forall P) Q (do x <- p s ts ; let '(a, s1, r1) := x in do y <- seq p n s1 r1 ; let '(l, s2, r2) := y in ROk (a :: l, s2, r2))).
  { apply (bind_good P Q); [auto|]. intros a s1 r1 Ha Hs1. apply (bind_good (Forall P) Q); [auto|]. intros l s2 r2 Hl Hs2. split; [constructor; auto|auto]. }
  destruct ts as [|[] r]; try exact H. split; [constructor|exact Hs].
Qed.
Lemma seq1_good {A S} (P : A -> Prop) (Q : S -> Prop) (p : S -> list token -> outcome (A * S * list token)) n s ts : (forall s ts, Q s -> good P Q (p s ts)) ->
  Q s -> good (fun l => Forall P l /\ l <> []) Q (seq1 p n s ts).
Proof.
  intros Hp Hs. unfold seq1. apply (bind_good (Forall P) Q); [apply seq_good; auto|]. intros l s1 r1 Hl Hs1. cbn [fst]. destruct l; cbn; [exact Logic.I|]. repeat split; auto. discriminate.
Qed.
Definition W (t : term) : Prop := wt t = true.
Lemma Forall_W l : Forall W l -> forallb wt l = true.
Proof. intros H. apply forallb_forall. rewrite Forall_forall in H. exact H. Qed.
Section Terms.
  Variables (cf : pcfg) (sdecl : sdecls).
  Lemma ret_good D r (o : outcome term) : defs_wt D -> (forall t, o = ROk t -> W t) -> good W defs_wt (ret D r o).
  Proof. intros HD H. unfold ret. destruct o; cbn; auto. Qed.
  Lemma make_op_wt o args t : Forall W args -> make_op cf o args = ROk t -> W t.
  Proof.
    intros Ha H. unfold make_op in H. destruct (op_eqb o ODelete && _); [discriminate|]. destruct (op_ok cf o _) eqn:Eo; [|discriminate].
    assert (Hw : wt (TOp o args) = true). { cbn [wt]. rewrite (Forall_W _ Ha). unfold op_ok in Eo. apply andb_true_iff in Eo. tauto. }
    destruct o; try (injection H as <-; exact Hw). destruct args as [|a [|b l]]; try (injection H as <-; exact Hw). destruct (div_lit cf a b); injection H as <-; [reflexivity|exact Hw].
  Qed.
  Lemma make_app_wt f args t : W f -> Forall W args -> make_app f args = ROk t -> W t.
  Proof.
    intros Hf Ha H. unfold make_app in H. destruct (sort_of f) as [| | | | | | | |ss| | |] eqn:E; try discriminate.
    destruct (min_len 1 ss && _) eqn:Eb; [|discriminate]. injection H as <-. unfold W. cbn [wt]. rewrite Hf, (Forall_W _ Ha), E. exact Eb.
  Qed.
  Lemma fapply_wt d args t : wt (snd d) = true -> Forall W args -> fapply d args = ROk t -> W t.
  Proof.
    intros Hd Ha H. unfold fapply in H. destruct (negb _); [discriminate|]. destruct args as [|a args]; [injection H as <-; exact Hd|].
    apply obind_ok in H. destruct H as [u [Hs H]]. unfold rassert in Hs. destruct (list_eqb _ _ _) eqn:El; [|discriminate]. apply list_eqb_eq in El; [|intros; apply sort_eqb_eq].
    refine (proj1 (subst_wt _ _ _ _ Hd H)).
    assert (Hg : forall ps l m, map snd ps = map sort_of l -> Forall W l -> wsm m ->
      wsm (fold_left (fun m p => sins m (TVar (fst (fst p)) (snd (fst p))) (snd p)) (combine ps l) m)).
    { induction ps as [|[x s] ps IH]; intros [|b l] m Hm Hl Hw; try discriminate; [exact Hw|]. cbn in Hm. injection Hm as -> Hm. inversion Hl; subst. cbn. apply IH; auto. apply wsm_sins; auto. }
    apply Hg; auto. apply wsm_nil.
  Qed.
  Lemma expand_wt bs t t' : Forall (fun b => W (snd b)) bs -> W t -> expand bs t = ROk t' -> W t'.
  Proof.
    intros Hb Ht H. unfold expand in H. refine (proj1 (subst_wt _ _ _ _ Ht H)). clear H.
    assert (Hg : forall m, wsm m -> wsm (fold_left (fun m b => sins m (TVar (fst b) (sort_of (snd b))) (snd b)) bs m)).
    { induction Hb as [|b bs Hb1 Hb2 IH]; intros m Hm; [exact Hm|]. cbn. apply IH. apply wsm_sins; auto. }
    apply Hg. apply wsm_nil.
  Qed.
  Lemma to_usize_ok z n : to_usize z = ROk n -> (0 <= z)%Z /\ n = Z.to_nat z.
  Proof. unfold to_usize. destruct (_ && _) eqn:E; [|discriminate]. intros H. injection H as <-. split; [lia|reflexivity]. Qed.
  Lemma idx z : (0 <= z)%Z -> as_const_nat (TConst (CInt z)) = Some (Z.to_nat z).
  Proof. intros H. unfold as_const_nat. cbn. destruct (Z.leb_spec 0 z); [reflexivity|lia]. Qed.
  Lemma make_indexed_wt o zs args t : Forall W args -> make_indexed_op o zs args = ROk t -> W t.
  Proof.
    intros Ha H. apply Forall_W in Ha. unfold make_indexed_op in H. unfold W.
    destruct o; try discriminate;
      repeat match goal with
        | H : match ?x with _ => _ end = ROk _ |- _ => destruct x eqn:?; try discriminate
        | H : (do _ <- rassert ?b ; _) = ROk _ |- _ => unfold rassert at 1 in H; destruct b eqn:?; cbn [obind] in H; [|discriminate]
        | H : (do _ <- to_usize ?z ; _) = ROk _ |- _ => destruct (to_usize z) eqn:?; cbn [obind] in H; [|discriminate|discriminate]
        | H : ROk _ = ROk _ |- _ => injection H as <-
        | H : to_usize _ = ROk _ |- _ => apply to_usize_ok in H; destruct H as [? ->]
        end; try reflexivity; try congruence; cbn [wt map pop_wt]; rewrite Ha; cbn [andb]; rewrite ?idx by lia; try reflexivity.
    all: destruct (map sort_of args) as [|s0 [|? ?]] eqn:Es; try discriminate; try destruct s0; try discriminate; try reflexivity; try congruence; auto.
  Qed.
  Lemma make_qualified_wt o s args t : Forall W args -> make_qualified_op o s args = ROk t -> W t.
  Proof.
    intros Ha H. apply Forall_W in Ha. unfold make_qualified_op in H. destruct o; try discriminate. destruct s as [| | | |s| | |]; try discriminate. destruct s; try discriminate.
    destruct (map sort_of args) as [|v [|]] eqn:E; try discriminate. destruct (sort_eqb _ _) eqn:Es; [|discriminate]. injection H as <-. unfold W. cbn [wt]. rewrite Ha, E. cbn. exact Es.
  Qed.
  Notation pg := (good W defs_wt).
  Section Step.
    Variables pT pA pS : venv -> defs -> list token -> outcome (term * defs * list token).
    Variable n : nat.
    Hypothesis HT : forall E D ts, defs_wt D -> pg (pT E D ts).
    Hypothesis HA : forall E D ts, defs_wt D -> pg (pA E D ts).
    Hypothesis HS : forall E D ts, defs_wt D -> good (fun _ => True) defs_wt (pS E D ts).
    Notation anyg := (good (fun _ => True) defs_wt).
    Lemma terms1 E D ts : defs_wt D -> good (fun l => Forall W l /\ l <> []) defs_wt (seq1 (pT E) n D ts).
    Proof. intros HD. apply seq1_good; auto. Qed.
    Lemma ints_good E D r : defs_wt D -> anyg (ints pT n E D r).
    Proof. intros HD. unfold ints. apply (bind_good (fun l => Forall W l /\ l <> []) defs_wt); [apply terms1; auto|]. intros l D1 r1 _ H1. apply any_good. intros zs _. cbn. auto. Qed.
    Lemma indexed_good E D ts : defs_wt D -> anyg (indexed pT n E D ts).
    Proof.
      intros HD. unfold indexed. apply any_good. intros [s r] _. destruct (prefix "bv" s).
      - destruct (parse_int _); [|exact Logic.I]. apply (bind_good (fun _ => True) defs_wt); [apply ints_good; auto|]. intros zs D1 r1 _ H1. cbn. auto.
      - destruct (pop_of s); [|exact Logic.I]. apply (bind_good (fun _ => True) defs_wt); [apply ints_good; auto|]. intros zs D1 r1 _ H1. cbn. auto.
    Qed.
    Lemma qualified_good E D ts : defs_wt D -> anyg (qualified pS E D ts).
    Proof.
      intros HD. unfold qualified. apply any_good. intros x _. destruct (pop_of (fst x)); [|exact Logic.I]. apply (bind_good (fun _ => True) defs_wt); [apply HS; auto|].
      intros s D1 r1 _ H1. apply any_good. intros r2 _. cbn. auto.
    Qed.
    Lemma sorted_var_good ED ts : defs_wt (snd ED) -> good (fun _ => True) (fun p : venv * defs => defs_wt (snd p)) (sorted_var pS ED ts).
    Proof.
      destruct ED as [E D]. cbn [snd]. intros HD. unfold sorted_var. apply any_good. intros r0 _. apply any_good. intros x _. apply (bind_good (fun _ => True) defs_wt); [apply HS; auto|].
      intros s D2 r2 _ H2. apply any_good. intros r3 _. destruct s; cbn; auto.
    Qed.
    Lemma binding_good E D ts : defs_wt D -> good (fun b => W (snd b)) defs_wt (binding pT E D ts).
    Proof.
      intros HD. unfold binding. apply any_good. intros r0 _. apply any_good. intros x _. apply (bind_good W defs_wt); [apply HT; auto|]. intros v D1 r1 Hv H1. apply any_good. intros r2 _. cbn. auto.
    Qed.
    Lemma bound_vars_good b E D r0 : defs_wt D ->
      good (fun vs => vs <> [] /\ (b = BChoice -> List.length vs = 1)) (fun p : venv * defs => defs_wt (snd p)) (bound_vars pS n b E D r0).
    Proof.
      intros HD. unfold bound_vars.
      assert (Hs : b <> BChoice -> good (fun vs => vs <> [] /\ (b = BChoice -> List.length vs = 1)) (fun p : venv * defs => defs_wt (snd p)) (seq1 (sorted_var pS) n (E, D) r0)).
      { intros Hb. pose proof (seq1_good (fun _ : string * sort => True) (fun p : venv * defs => defs_wt (snd p)) (sorted_var pS) n (E, D) r0 sorted_var_good HD) as H.
        destruct (seq1 _ n (E, D) r0) as [[[vs ED] r]| |]; cbn in *; auto. destruct H as [[_ H1] H2]. split; [|exact H2]. split; [exact H1|congruence]. }
      destruct b; try (apply Hs; discriminate). apply (bind_good (fun _ => True) (fun p : venv * defs => defs_wt (snd p))); [apply sorted_var_good; auto|].
      intros v ED r1 _ H1. apply any_good. intros r2 _. cbn. split; [split; [discriminate|auto]|exact H1].
    Qed.
    Lemma binder_good b E D ts : defs_wt D -> pg (binder_term pT pS n b E D ts).
    Proof.
      intros HD. unfold binder_term. apply any_good. intros r0 _. apply (bind_good _ _ _ _ _ _ (bound_vars_good b E D r0 HD)). intros vs ED r1 [Hv Hc] H1.
      apply (bind_good W defs_wt); [apply HT; auto|]. intros t D2 r2 Ht H2. apply any_good. intros u Hu. apply any_good. intros r3 _. cbn. split; [|exact H2].
      unfold W. cbn [wt]. rewrite Ht. replace (min_len 1 vs) with true by (destruct vs; [congruence|reflexivity]). cbn [andb].
      assert (Hb : b <> BLambda -> sort_eqb (sort_of t) SBool = true).
      { intros Hb. destruct b; try congruence; unfold rassert in Hu; destruct (sort_eqb SBool (sort_of t)) eqn:Es; try discriminate; apply sort_eqb_eq in Es; apply sort_eqb_eq; congruence. }
      destruct b; auto; try (apply Hb; discriminate). rewrite Hc by reflexivity. apply Hb. discriminate.
    Qed.
    Lemma let_good E D r : defs_wt D -> pg (let_term cf pT n E D r).
    Proof.
      intros HD. unfold let_term. apply any_good. intros r0 _. apply (bind_good (fun bs => Forall (fun b => W (snd b)) bs /\ bs <> []) defs_wt); [apply seq1_good; auto; intros; apply binding_good; auto|].
      intros bs D1 r1 [Hb _] H1. apply (bind_good W defs_wt); [apply HT; auto|]. intros t D2 r2 Ht H2. apply any_good. intros r3 _. destruct (expand_lets cf).
      - apply ret_good; auto. intros t' H. eapply expand_wt; eauto.
      - cbn. split; [|exact H2]. unfold W. cbn [wt]. rewrite Ht, andb_true_r. apply forallb_forall. rewrite Forall_forall in Hb. exact Hb.
    Qed.
    Lemma eo_good E D r : defs_wt D -> pg (eo_define pT n E D r).
    Proof.
      intros HD. unfold eo_define. apply any_good. intros r0 _. apply any_good. intros r1 _. apply (bind_good (fun bs => Forall (fun b => W (snd b)) bs /\ bs <> []) defs_wt); [apply seq1_good; auto; intros; apply binding_good; auto|].
      intros bs D1 r2 [Hb _] H1. apply (bind_good W defs_wt); [apply HT; auto|]. intros t D2 r3 Ht H2. apply any_good. intros r4 _. apply ret_good; auto. intros t' H. eapply expand_wt; eauto.
    Qed.
    Lemma attribute_good t D ts : W t -> defs_wt D -> anyg (attribute t D ts).
    Proof.
      intros Ht HD. unfold attribute. destruct ts as [|[] r]; try exact Logic.I. destruct (text_eqb s (chars "named")).
      - apply any_good. intros x _. cbn. split; [auto|]. intros y d. cbn. destruct (String.eqb _ _); [intros H; injection H as <-; exact Ht|apply HD].
      - destruct r as [|[] r]; try (cbn; auto; fail). apply any_good. intros r2 _. cbn. auto.
    Qed.
    Lemma annotated_good E D r : defs_wt D -> pg (annotated pT n E D r).
    Proof.
      intros HD. unfold annotated. apply (bind_good W defs_wt); [apply HT; auto|]. intros t D1 r1 Ht H1.
      apply (bind_good (fun l => Forall (fun _ : unit => True) l /\ l <> []) defs_wt); [apply seq1_good; auto; intros; apply attribute_good; auto|]. intros l D2 r2 _ H2. cbn. auto.
    Qed.
    Lemma app_args_good E f : pg f -> pg (app_args pT n E f).
    Proof.
      intros Hf. unfold app_args. apply (bind_good W defs_wt); [exact Hf|]. intros t D1 r1 Ht H1. apply (bind_good _ _ _ _ _ _ (terms1 E D1 r1 H1)). intros l D2 r2 [Hl _] H2.
      apply ret_good; auto. intros t' H. eapply make_app_wt; eauto.
    Qed.
    Lemma indexed_args_good E D r : defs_wt D -> pg (indexed_args pT n E D r).
    Proof.
      intros HD. unfold indexed_args. apply (bind_good (fun _ => True) defs_wt); [apply indexed_good; auto|]. intros [o zs] D1 r1 _ H1. apply (bind_good _ _ _ _ _ _ (terms1 E D1 r1 H1)). intros l D2 r2 [Hl _] H2.
      apply ret_good; auto. intros t' H. eapply make_indexed_wt; eauto.
    Qed.
    Lemma qualified_args_good E D r : defs_wt D -> pg (qualified_args pT pS n E D r).
    Proof.
      intros HD. unfold qualified_args. apply (bind_good (fun _ => True) defs_wt); [apply qualified_good; auto|]. intros [o s] D1 r1 _ H1. apply (bind_good _ _ _ _ _ _ (terms1 E D1 r1 H1)). intros l D2 r2 [Hl _] H2.
      apply ret_good; auto. intros t' H. eapply make_qualified_wt; eauto.
    Qed.
    Lemma reserved_good w E D r : defs_wt D -> pg (reserved_app cf pT pS n w E D r).
    Proof.
      intros HD. unfold reserved_app. destruct (text_eqb w (chars "_")).
      { apply (bind_good (fun _ => True) defs_wt); [apply indexed_good; auto|]. intros [o zs] D1 r1 _ H1. apply ret_good; auto. intros t' H. eapply make_indexed_wt; eauto. }
      destruct (text_eqb w (chars "as")).
      { apply (bind_good (fun _ => True) defs_wt); [apply qualified_good; auto|]. intros [o s] D1 r1 _ H1. apply ret_good; auto. intros t' H. eapply make_qualified_wt; eauto. }
      repeat (match goal with |- pg (if ?b then _ else _) => destruct b end; [first [apply binder_good; auto|apply annotated_good; auto|apply let_good; auto|idtac]|]); try exact Logic.I.
      apply (bind_good (Forall W) defs_wt); [apply seq_good; auto|]. intros l D1 r1 Hl H1. apply ret_good; auto. intros t' H. eapply make_op_wt; eauto.
    Qed.
    Lemma symbol_good x E D r whole : defs_wt D -> pg (symbol_app cf pT n x E D r whole).
    Proof.
      intros HD. unfold symbol_app. destruct (op_of x).
      - apply (bind_good _ _ _ _ _ _ (terms1 E D r HD)). intros l D1 r1 [Hl _] H1. apply ret_good; auto. intros t' H. eapply make_op_wt; eauto.
      - destruct (String.eqb x "eo"); [apply eo_good; auto|]. destruct (assoc x D); [|apply app_args_good; auto].
        apply (bind_good _ _ _ _ _ _ (terms1 E D r HD)). intros l D1 r1 [Hl _] H1. destruct (assoc x D1) eqn:E1; [|exact Logic.I]. apply ret_good; auto. intros t' H. eapply fapply_wt; [|exact Hl|exact H]. eapply H1; eauto.
    Qed.
    Lemma term_body_good E D ts : defs_wt D -> pg (term_body cf pA E D ts).
    Proof.
      intros HD. unfold term_body. destruct ts as [|[] r]; try exact Logic.I; try (cbn; split; [reflexivity|exact HD]); auto.
      destruct (assoc (string_of s) D) eqn:Ed; [apply ret_good; auto; intros t H; eapply fapply_wt; [|constructor|exact H]; eapply HD; eauto|].
      destruct (op_of _); [apply ret_good; auto; intros t H; eapply make_op_wt; [constructor|exact H]|]. destruct (assoc _ E); cbn; auto. split; [reflexivity|exact HD].
    Qed.
    Lemma app_body_good E D ts : defs_wt D -> pg (app_body cf pT pA pS n E D ts).
    Proof.
      intros HD. unfold app_body. destruct ts as [|k r]; [apply app_args_good; auto|].
      destruct k; try (apply app_args_good; auto; fail).
      - destruct r as [|k r]; [apply app_args_good; auto|]. destruct k; try (apply app_args_good; auto; fail).
        destruct (text_eqb s (chars "_")); [apply indexed_args_good; auto|]. destruct (text_eqb s (chars "as")); [apply qualified_args_good; auto|]. apply app_args_good; auto.
      - apply symbol_good; auto.
      - apply reserved_good; auto.
    Qed.
    Lemma sort_body_good E D ts : defs_wt D -> anyg (sort_body sdecl pT pS n E D ts).
    Proof.
      intros HD. unfold sort_body. 
      assert (Hret : forall D1 r1 o, defs_wt D1 -> anyg (ret D1 r1 o)) by (intros D1 r1 o H1; unfold ret; destruct o; cbn; auto).
      assert (Hd : forall r, anyg (do x <- expect_symbol r ; do y <- seq1 (pS E) n D (snd x) ; let '(l, D1, r1) := y in do ss <- unsorts l ; ret D1 r1 (make_sort sdecl (fst x) ss))).
      { intros r. apply any_good. intros x _. apply (bind_good (fun l => Forall (fun _ : term => True) l /\ l <> []) defs_wt); [apply seq1_good; auto|]. intros l D1 r1 _ H1. apply any_good. intros ss _. auto. }
      destruct ts as [|k r]; [exact Logic.I|]. destruct k; try exact Logic.I; auto. destruct r as [|k r]; [apply Hd|]. destruct k; try apply Hd.
      destruct (text_eqb s (chars "_")); [|exact Logic.I]. apply any_good. intros x _. apply (bind_good _ _ _ _ _ _ (terms1 E D (snd x) HD)). intros l D1 r1 _ H1.
      destruct (String.eqb _ _); [|exact Logic.I]. destruct l as [|a [|]]; try exact Logic.I. destruct (as_integer a); [|exact Logic.I]. apply any_good. intros w _. cbn. auto.
    Qed.
  End Step.
  Lemma parse_good : forall n E D ts, defs_wt D ->
    pg (parse cf sdecl n MTerm E D ts) /\ pg (parse cf sdecl n MApp E D ts) /\ good (fun _ => True) defs_wt (parse cf sdecl n MSort E D ts).
  Proof.
    induction n as [|n IH]; intros E D ts HD; [repeat split|]. cbn [parse].
    split; [apply term_body_good; auto; intros; apply IH; auto|]. split; [apply app_body_good; auto; intros; apply IH; auto|apply sort_body_good; auto; intros; apply IH; auto].
  Qed.
  Lemma parse_wt n E D ts t D' r : defs_wt D -> parse cf sdecl n MTerm E D ts = ROk (t, D', r) -> wt t = true /\ defs_wt D'.
  Proof. intros HD H. pose proof (proj1 (parse_good n E D ts HD)) as Hg. rewrite H in Hg. exact Hg. Qed.
End Terms.

(** ** Whole proofs *)
(** all terms of a command are well sorted, literals are Boolean and the value of an anchor's assignment has the sort of the variable *)
Fixpoint all_wt (c : command) : bool :=
  match c with
  | CAssume _ t => bool_term t
  | CStep s => clause_wt (s_clause s) && forallb wt (s_args s)
  | CSub cs args _ => forallb anchor_wt args && forallb all_wt cs
  end.
Lemma all_cmd_wt c : all_wt c = true -> cmd_wt c = true.
Proof.
  induction c using command_ind'; cbn [all_wt cmd_wt]; auto.
  - intros H. apply andb_true_iff in H. tauto.
  - intros H1. apply andb_true_iff in H1. destruct H1 as [-> H1]. cbn [andb]. rewrite forallb_forall in *. rewrite Forall_forall in H. auto.
Qed.
Definition raw_wt (r : raw) : Prop :=
  match r with
  | RwAssume _ t => bool_term t = true
  | RwStep _ cl _ _ args _ => clause_wt cl = true /\ forallb wt args = true
  | RwAnchor _ args => forallb anchor_wt args = true
  | RwDefine => True
  end.
Section Proofs.
  Variables (cf : pcfg) (holes : bool) (sdecl : sdecls).
  Variable F : nat.
  Notation pterm := (parse cf sdecl F MTerm).
  Notation psort := (parse cf sdecl F MSort).
  Definition WS (s : sort) (t : term) : Prop := wt t = true /\ sort_of t = s.
  Lemma term_of_sort_good s E D ts : defs_wt D -> good (WS s) defs_wt (term_of_sort cf sdecl F s E D ts).
  Proof.
    intros HD. unfold term_of_sort. apply (bind_good W defs_wt); [apply parse_good; auto|]. intros t D1 r Ht H1. apply any_good. intros u Hu. unfold rassert in Hu. destruct (sort_eqb s (sort_of t)) eqn:E1; [|discriminate].
    apply sort_eqb_eq in E1. cbn. split; [split; [exact Ht|congruence]|exact H1].
  Qed.
  Lemma WS_bool t : WS SBool t -> bool_term t = true.
  Proof. intros [H1 H2]. unfold bool_term. rewrite H1, H2. reflexivity. Qed.
  Lemma read_assume_good E D ts : defs_wt D -> good raw_wt defs_wt (read_assume cf sdecl F E D ts).
  Proof.
    intros HD. unfold read_assume. apply any_good. intros x _. apply (bind_good (WS SBool) defs_wt); [apply term_of_sort_good; auto|]. intros t D1 r1 Ht H1.
    apply any_good. intros r2 _. cbn. split; [apply WS_bool; exact Ht|exact H1].
  Qed.
  Lemma read_step_good ids E D ts : defs_wt D -> good raw_wt defs_wt (read_step cf holes sdecl F ids E D ts).
  Proof.
    intros HD. unfold read_step. apply any_good. intros x _. apply any_good. intros r1 _. apply any_good. intros r2 _.
    apply (bind_good (Forall (WS SBool)) defs_wt); [apply seq_good; auto; intros; apply term_of_sort_good; auto|]. intros cl D1 r3 Hcl H1. apply any_good. intros r4 _.
    assert (Hc : clause_wt cl = true) by (apply forallb_forall; rewrite Forall_forall in Hcl; intros t Ht; apply WS_bool; auto).
    assert (Ht : forall rule r5, good raw_wt defs_wt (do z <- opt_seq F "premises" (read_ref (parse_premise ids)) tt r5 ;
        let '(prems, _, r6) := z in
        do a <- (if is_key "args" r6 then
                   do r <- expect is_open (tl r6) ;
                   if String.eqb rule "hole" && negb holes then do r7 <- skip_parens 1 r ; ROk ([], D1, r7) else seq1 (pterm E) F D1 r
                 else ROk ([], D1, r6)) ;
        let '(args, D2, r7) := a in
        do d <- opt_seq F "discharge" (read_ref (parse_discharge ids (fst x))) tt r7 ;
        let '(disch, _, r8) := d in
        do r9 <- close_cmd F r8 ; ROk (RwStep (fst x) cl rule prems args disch, D2, r9))).
    { intros rule r5. apply any_good. intros [[prems u] r6] _. apply (bind_good (Forall W) defs_wt).
      - destruct (is_key "args" r6); [|cbn; auto]. apply any_good. intros r _. destruct (_ && negb holes); [apply any_good; intros r7 _; cbn; auto|].
        pose proof (seq1_good W defs_wt (pterm E) F D1 r (fun s ts H => proj1 (parse_good cf sdecl F E s ts H)) H1) as H. destruct (seq1 _ F D1 r) as [[[l D2] r7]| |]; cbn in *; tauto.
      - intros args D2 r7 Ha H2. apply any_good. intros [[disch u'] r8] _. apply any_good. intros r9 _. cbn. split; [split; [exact Hc|apply Forall_W; exact Ha]|exact H2]. }
    destruct r4 as [|[] r5]; try exact Logic.I; apply Ht.
  Qed.
  Lemma svar_good E ND ts : defs_wt (snd ND) -> good (fun _ => True) (fun p : venv * defs => defs_wt (snd p)) (TermIO.sorted_var (fun _ => psort E) ND ts).
  Proof. intros H. apply sorted_var_good; auto. intros E' D' ts' H'. apply parse_good. exact H'. Qed.
  Lemma anchor_arg_good E ND ts : defs_wt (snd ND) -> good (fun a => anchor_wt a = true) (fun p : venv * defs => defs_wt (snd p)) (read_anchor_arg cf sdecl F E ND ts).
  Proof.
    destruct ND as [N D]. cbn [snd]. intros HD.
    assert (Hv : good (fun a => anchor_wt a = true) (fun p : venv * defs => defs_wt (snd p)) (do x <- TermIO.sorted_var (fun _ => psort (N ++ E)) (N, D) ts ; let '(v, ND1, r1) := x in ROk (AVar v, ND1, r1))).
    { apply (bind_good (fun _ => True) (fun p : venv * defs => defs_wt (snd p))); [apply svar_good; auto|]. intros v ND1 r1 _ H1. cbn. auto. }
    assert (Ha : forall r, good (fun a => anchor_wt a = true) (fun p : venv * defs => defs_wt (snd p)) (do x <- TermIO.sorted_var (fun _ => psort (N ++ E)) (N, D) r ;
              let '(v, ND1, r1) := x in
              do y <- term_of_sort cf sdecl F (snd v) (N ++ E) (snd ND1) r1 ;
              let '(t, D1, r2) := y in
              do r3 <- expect is_close r2 ; ROk (AAssign v t, (v :: N, D1), r3))).
    { intros r. apply (bind_good (fun _ => True) (fun p : venv * defs => defs_wt (snd p))); [apply svar_good; auto|]. intros v ND1 r1 _ H1.
      apply (bind_good (WS (snd v)) defs_wt); [apply term_of_sort_good; auto|]. intros t D1 r2 [Ht1 Ht2] H2. apply any_good. intros r3 _. cbn. split; [|exact H2].
      destruct v as [y s]. cbn in *. rewrite Ht1, Ht2. apply sort_eqb_eq. reflexivity. }
    unfold read_anchor_arg. destruct ts as [|k0 ts0]; [exact Hv|]. destruct k0; try exact Hv. destruct ts0 as [|k1 r]; [exact Hv|]. destruct k1; try exact Hv.
    destruct (text_eqb s (chars "=")); [|exact Logic.I]. destruct r as [|k r']; [apply Ha|]. destruct k; try apply Ha. destruct (strict cf); [exact Logic.I|].
    apply (bind_good W defs_wt); [apply parse_good; auto|]. intros t D1 r1 Ht H1. apply any_good. intros r2 _. cbn. split; [|exact H1]. rewrite Ht. apply sort_eqb_eq. reflexivity.
  Qed.
  Lemma read_anchor_good E D ts : defs_wt D -> good (fun x => raw_wt (fst x)) defs_wt (read_anchor cf sdecl F E D ts).
  Proof.
    intros HD. unfold read_anchor. apply any_good. intros r0 _. apply any_good. intros x _.
    apply (bind_good (Forall (fun a => anchor_wt a = true)) (fun p : venv * defs => defs_wt (snd p))).
    - unfold opt_seq. destruct (is_key "args" (snd x)); [|cbn; auto]. apply any_good. intros r _.
      pose proof (seq1_good _ _ (read_anchor_arg cf sdecl F E) F ([], D) r (fun s ts H => anchor_arg_good E s ts H) HD) as H. destruct (seq1 _ F _ r) as [[[l D2] r7]| |]; cbn in *; tauto.
    - intros args ND r1 Ha H1. apply any_good. intros r2 _. cbn. split; [|exact H1]. apply forallb_forall. rewrite Forall_forall in Ha. exact Ha.
  Qed.
  Lemma read_define_wt E D ts D' r : defs_wt D -> read_define cf sdecl F E D ts = ROk (D', r) -> defs_wt D'.
  Proof.
    intros HD H. unfold read_define in H. apply obind_ok in H. destruct H as [x [_ H]]. apply obind_ok in H. destruct H as [r0 [_ H]]. apply obind_ok in H. destruct H as [[[params ND] r1] [H1 H]].
    pose proof (seq_good (fun _ => True) (fun p : venv * defs => defs_wt (snd p)) (TermIO.sorted_var (fun _ => psort E)) (fun s ts H => svar_good E s ts H) F ([], D) r0 HD) as Hg. rewrite H1 in Hg. destruct Hg as [_ HD1].
    apply obind_ok in H. destruct H as [[[s D1] r2] [H2 H]]. pose proof (proj2 (proj2 (parse_good cf sdecl F E (snd ND) r1 HD1))) as Hg. rewrite H2 in Hg. destruct Hg as [_ HD2].
    destruct s as [| | | |s| | |]; try discriminate. apply obind_ok in H. destruct H as [[[body D2] r3] [H3 H]]. pose proof (term_of_sort_good s (fst ND ++ E) D1 r2 HD2) as Hg. rewrite H3 in Hg. destruct Hg as [[Hb _] HD3].
    apply obind_ok in H. destruct H as [r4 [_ H]]. injection H as <- _. intros y d. cbn. destruct (String.eqb _ _); [intros H; injection H as <-; exact Hb|apply HD3].
  Qed.
  (** the state: the commands read so far and the arguments of the open anchors are well sorted *)
  Definition frame_wt (f : frame) : Prop := forallb all_wt (f_cmds f) = true /\ forallb anchor_wt (f_args f) = true.
  Definition state_wt (st : pstate) : Prop := Forall frame_wt (ps_frames st).
  Lemma push_wt f c : frame_wt f -> all_wt c = true -> frame_wt (push_cmd f c).
  Proof. intros [H1 H2] Hc. split; [|exact H2]. cbn. rewrite forallb_app, H1. cbn. rewrite Hc. reflexivity. Qed.
  Lemma add_command_wt id c st st' : state_wt st -> all_wt c = true -> add_command id c st = ROk st' -> state_wt st'.
  Proof.
    intros Hs Hc H. unfold add_command in H. destruct (hs_get _ _ _); [discriminate|]. unfold state_wt in *. destruct (ps_frames st) as [|f out]; [discriminate|]. inversion Hs as [|f0 l0 Hf Ho]; subst.
    pose proof (push_wt f c Hf Hc) as Hp. destruct (String.eqb (f_end f) id).
    - apply obind_ok in H. destruct H as [ids [_ H]]. apply obind_ok in H. destruct H as [u [_ H]]. apply obind_ok in H. destruct H as [u' [_ H]]. destruct out as [|g out]; [discriminate|].
      apply obind_ok in H. destruct H as [ids' [_ H]]. injection H as <-. cbn [ps_frames]. inversion Ho as [|g0 l0 Hg Ho']; subst. constructor; [|exact Ho']. apply push_wt; [exact Hg|].
      destruct Hp as [Hp1 Hp2]. change (forallb anchor_wt (f_args (push_cmd f c)) && forallb all_wt (f_cmds (push_cmd f c)) = true). rewrite Hp1, Hp2. reflexivity.
    - apply obind_ok in H. destruct H as [ids' [_ H]]. injection H as <-. cbn [ps_frames]. constructor; auto.
  Qed.
  Lemma parse_cmd_wt st r st' : state_wt st -> raw_wt r -> parse_cmd st r = ROk st' -> state_wt st'.
  Proof.
    intros Hs Hr H. unfold parse_cmd in H. destruct (ps_frames st) as [|f out] eqn:Ef; [discriminate|]. destruct r as [id t|id cl rule prems args disch|e args|].
    - destruct (_ && _); [discriminate|]. eapply (add_command_wt id (CAssume id t)); [exact Hs|exact Hr|exact H].
    - apply obind_ok in H. destruct H as [ps [_ H]]. apply obind_ok in H. destruct H as [ds [_ H]]. destruct Hr as [Hr1 Hr2]. eapply add_command_wt; [| |exact H].
      + unfold state_wt in *. rewrite Ef in Hs. cbn [ps_frames]. inversion Hs; subst. constructor; auto.
      + change (clause_wt cl && forallb wt args = true). rewrite Hr1, Hr2. reflexivity.
    - injection H as <-. unfold state_wt in *. rewrite Ef in Hs. cbn [ps_frames]. constructor; [|exact Hs]. split; [reflexivity|exact Hr].
    - injection H as <-. exact Hs.
  Qed.
  Definition rs_wt (s : rstate) : Prop := state_wt (rs_st s) /\ defs_wt (rs_defs s).
  Lemma read_cmd_wt s ts s' r : rs_wt s -> read_cmd cf holes sdecl F s ts = ROk (s', r) -> rs_wt s'.
  Proof.
    intros [Hs HD] H. unfold read_cmd in H. destruct ts as [|[] r0]; try discriminate.
    destruct (text_eqb s0 (chars "assume")).
    { apply obind_ok in H. destruct H as [[[c D] r1] [H1 H]]. pose proof (read_assume_good (List.concat (rs_vars s)) (rs_defs s) r0 HD) as Hg. rewrite H1 in Hg. destruct Hg as [Hc HD1].
      apply obind_ok in H. destruct H as [st [H2 H]]. injection H as <- _. split; [eapply parse_cmd_wt; eauto|exact HD1]. }
    destruct (text_eqb s0 (chars "step")).
    { apply obind_ok in H. destruct H as [[[c D] r1] [H1 H]]. pose proof (read_step_good (ps_ids (rs_st s)) (List.concat (rs_vars s)) (rs_defs s) r0 HD) as Hg. rewrite H1 in Hg. destruct Hg as [Hc HD1].
      apply obind_ok in H. destruct H as [st [H2 H]]. injection H as <- _. split; [eapply parse_cmd_wt; eauto|exact HD1]. }
    destruct (text_eqb s0 (chars "anchor")).
    { apply obind_ok in H. destruct H as [[[[c N] D] r1] [H1 H]]. pose proof (read_anchor_good (List.concat (rs_vars s)) (rs_defs s) r0 HD) as Hg. rewrite H1 in Hg. destruct Hg as [Hc HD1].
      apply obind_ok in H. destruct H as [st [H2 H]]. injection H as <- _. split; [eapply parse_cmd_wt; eauto|exact HD1]. }
    destruct (text_eqb s0 (chars "define-fun")); [|discriminate]. apply obind_ok in H. destruct H as [[D' r1] [H1 H]]. injection H as <- _. split; [exact Hs|]. eapply read_define_wt; eauto.
  Qed.
  Lemma read_cmds_wt : forall n first extra s ts s', rs_wt s -> read_cmds cf holes sdecl F n first extra s ts = ROk s' -> rs_wt s'.
  Proof.
    assert (Hlast : forall extra s s' r, rs_wt s -> (if extra : bool then match r : list token with [] => ROk s | _ => RErr end else RErr) = ROk s' -> rs_wt s').
    { intros extra s s' r Hs H. destruct extra; [|discriminate]. destruct r; [|discriminate]. injection H as <-. exact Hs. }
    assert (Hend : forall extra s s', rs_wt s -> (if extra : bool then RErr else ROk s) = ROk s' -> rs_wt s').
    { intros extra s s' Hs H. destruct extra; [discriminate|]. injection H as <-. exact Hs. }
    induction n as [|n IH]; intros first extra s ts s' Hs H.
    - destruct ts as [|[] r]; try discriminate; eauto.
    - destruct ts as [|[] r]; try discriminate; eauto. cbn [read_cmds] in H.
      destruct (match r with KOpen :: _ => first | KClose :: _ => true | _ => false end); [eapply IH; eauto|]. apply obind_ok in H. destruct H as [[s1 r1] [H1 H]]. cbn [fst snd] in H.
      eapply IH; [|exact H]. eapply read_cmd_wt; eauto.
  Qed.
End Proofs.
Theorem read_proof_wt cf holes sdecl E D txt proof : defs_wt D -> read_proof_text cf holes sdecl E D txt = ROk proof -> forallb all_wt proof = true.
Proof.
  intros HD H. unfold read_proof_text in H. apply obind_ok in H. destruct H as [ts [_ H]]. set (ts' := match ts with KSym w :: r => _ | _ => _ end) in *. clearbody ts'. cbv zeta in H.
  apply obind_ok in H. destruct H as [s [H1 H]]. apply read_cmds_wt in H1.
  - destruct H1 as [H1 _]. unfold state_wt in H1. destruct (ps_frames (rs_st s)) as [|f [|]]; try discriminate. injection H as <-. inversion H1 as [|f0 l0 Hf Hl]; subst. apply Hf.
  - split; [|exact HD]. constructor; [|constructor]. split; reflexivity.
Qed.
