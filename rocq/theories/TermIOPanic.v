(** Reading a term does not panic, under explicit conditions on the tokens. *)
From Coq Require Import List Bool NArith ZArith QArith String Arith Lia.
From Verif Require Import Base Term Field Sem Rules Num Utils R_Simp Subst SubstSound SubstClean Lexer LexerSound TermIO.
Import ListNotations.
Local Open Scope nat_scope.

Definition usize (z : Z) : bool := Z.leb 0 z && Z.ltb z 18446744073709551616.
(** numerals that fit in 64 bits, up to the closing parenthesis *)
Fixpoint numerals (ts : list token) : bool :=
  match ts with
  | KClose :: _ => true
  | KNum z :: r => usize z && numerals r
  | _ => false
  end.
Section Safe.
  Variable cf : pcfg.
  (** conditions on symbols and reserved words (for callers of the parser of terms) *)
  Variables (sy wo : text -> bool).
  (** conditions on a token and what follows it: the indices after [_] are numerals below 2^64, and a symbol that begins
      with [bv] there goes on with a number; no [let] if they are expanded; no [@d] and no [eo] *)
  Definition safe_tok (k : token) (r : list token) : bool :=
    match k with
    | KSym s => negb (String.eqb (string_of s) "@d") && negb (String.eqb (string_of s) "eo") && sy s
    | KRes w =>
        if text_eqb w (chars "_") then
          match r with
          | KSym s :: r1 =>
              (if prefix "bv" (string_of s) then match parse_int (skipn 2 (chars (string_of s))) with Some _ => true | None => false end else true)
              && numerals r1
          | _ => true
          end
        else if text_eqb w (chars "let") then negb (expand_lets cf)
        else wo w
    | _ => true
    end.
  Fixpoint safe (ts : list token) : bool := match ts with [] => true | k :: r => safe_tok k r && safe r end.
  (** bodies of functions with parameters have no [let] *)
  Definition safe_defs (D : defs) : Prop := forall x d, assoc x D = Some d -> fst d = [] \/ no_let (snd d) = true.

  (** moreover the names [N] are defined *)
  Definition okD (N : list string) (D : defs) : Prop := safe_defs D /\ forall x, In x N -> assoc x D <> None.

  Definition nice {A S : Type} (okS : S -> Prop) (ts : list token) (o : outcome (A * S * list token)) : Prop :=
    match o with
    | RPanic => False
    | RErr => True
    | ROk (_, D, r) => List.length r < List.length ts /\ safe r = true /\ okS D
    end.
  Lemma nice_mono {A S} (okS : S -> Prop) ts ts' (o : outcome (A * S * list token)) :
    List.length ts <= List.length ts' -> nice okS ts o -> nice okS ts' o.
  Proof. destruct o as [[[a s] r]| |]; cbn; auto. intros H [H1 H2]. split; [lia|exact H2]. Qed.
  Lemma bind_nice {A S B T} (okS : S -> Prop) (okT : T -> Prop) ts (o : outcome (A * S * list token)) (f : A * S * list token -> outcome (B * T * list token)) :
    nice okS ts o ->
    (forall a s r, o = ROk (a, s, r) -> List.length r < List.length ts -> safe r = true -> okS s -> nice okT ts (f (a, s, r))) ->
    nice okT ts (do x <- o ; f x).
  Proof. destruct o as [[[a s] r]| |]; cbn; auto. intros [H1 [H2 H3]] H. apply (H a s r); auto. Qed.
  Lemma seq_nice {A S} (okS : S -> Prop) (p : S -> list token -> outcome (A * S * list token)) :
    forall n s ts, List.length ts < n -> safe ts = true -> okS s ->
    (forall s' ts', List.length ts' <= List.length ts -> safe ts' = true -> okS s' -> nice okS ts' (p s' ts')) ->
    nice okS ts (seq p n s ts).
  Proof.
    induction n as [|n IH]; intros s ts Hn Hs Ho Hp; [lia|].
    assert (Hc : ts = KClose :: tl ts \/ seq p (Datatypes.S n) s ts =
      (do x <- p s ts ; let '(a, s1, r1) := x in do y <- seq p n s1 r1 ; let '(l, s2, r2) := y in ROk (a :: l, s2, r2))).
    { destruct ts as [|[] r]; auto. }
    destruct Hc as [Hc|Hc].
    - rewrite Hc in *. cbn. split; [lia|]. split; [cbn in Hs; exact Hs|exact Ho].
    - rewrite Hc. apply (bind_nice okS); [apply Hp; auto|]. intros a s1 r1 _ H1 H2 H3.
      apply (bind_nice okS).
      + apply (nice_mono _ r1); [lia|]. apply IH; [lia|auto|auto|]. intros s' ts' Hl. apply Hp. lia.
      + intros l s2 r2 _ H4 H5 H6. cbn. auto.
  Qed.
  Lemma seq1_nice {A S} (okS : S -> Prop) (p : S -> list token -> outcome (A * S * list token)) n s ts :
    List.length ts < n -> safe ts = true -> okS s ->
    (forall s' ts', List.length ts' <= List.length ts -> safe ts' = true -> okS s' -> nice okS ts' (p s' ts')) ->
    nice okS ts (seq1 p n s ts).
  Proof.
    intros H1 H2 H3 H4. unfold seq1. apply (bind_nice okS); [apply seq_nice; auto|]. intros a s1 r1 _ H5 H6 H7. cbn [fst].
    destruct a; cbn; auto.
  Qed.
  Lemma expect_nice {B T} (okT : T -> Prop) t ts (f : list token -> outcome (B * T * list token)) :
    safe ts = true -> (forall r, List.length r < List.length ts -> safe r = true -> nice okT ts (f r)) -> nice okT ts (do r <- expect t ts ; f r).
  Proof.
    intros Hs H. unfold expect. destruct ts as [|k r]; cbn; auto. destruct (t k); cbn; auto. apply H; [cbn; lia|]. cbn in Hs.
    apply andb_true_iff in Hs. tauto.
  Qed.
  Lemma symbol_nice {B T} (okT : T -> Prop) ts (f : string * list token -> outcome (B * T * list token)) :
    safe ts = true -> (forall x r, List.length r < List.length ts -> safe r = true -> nice okT ts (f (x, r))) ->
    nice okT ts (do r <- expect_symbol ts ; f r).
  Proof.
    intros Hs H. unfold expect_symbol. destruct ts as [|[] r]; cbn; auto. apply H; [cbn; lia|]. cbn [safe] in Hs.
    apply andb_true_iff in Hs. tauto.
  Qed.
  Definition np {A} (o : outcome A) : Prop := o <> RPanic.
  Lemma ret_nice N D r ts (o : outcome term) : List.length r < List.length ts -> safe r = true -> okD N D -> np o -> nice (okD N) ts (ret D r o).
  Proof. intros H1 H2 H3 H4. unfold ret. destruct o; cbn; auto. Qed.
  Lemma skip_nice : forall ts d, safe ts = true -> match skip_parens d ts with RPanic => False | RErr => True | ROk r => List.length r <= List.length ts /\ safe r = true end.
  Proof.
    induction ts as [|k r IH]; intros d Hs; destruct d; cbn [skip_parens]; auto. cbn [safe] in Hs. apply andb_true_iff in Hs. destruct Hs as [_ Hs].
    destruct k; auto.
    1: pose proof (IH (Datatypes.S (Datatypes.S d)) Hs) as H; destruct (skip_parens (Datatypes.S (Datatypes.S d)) r); cbn in *; intuition lia.
    all: match goal with |- match skip_parens ?d ?q with _ => _ end => pose proof (IH d Hs) as H; destruct (skip_parens d q); cbn in *; intuition lia end.
  Qed.
  Lemma attribute_nice N t D ts : safe ts = true -> okD N D -> nice (okD N) ts (attribute t D ts).
  Proof.
    intros Hs HD. destruct ts as [|[] r]; cbn [attribute nice]; auto. cbn [safe] in Hs. apply andb_true_iff in Hs. destruct Hs as [_ Hs].
    destruct (text_eqb s (chars "named")).
    - unfold expect_symbol. destruct r as [|[] r]; cbn; auto. split; [lia|]. cbn [safe] in Hs. apply andb_true_iff in Hs. split; [tauto|].
      destruct HD as [HD HN]. split; [intros x d|intros x Hx]; cbn; destruct (String.eqb _ _); try discriminate; auto;
        [intros H; injection H as <-; left; reflexivity|apply HD].
    - assert (Hr : nice (okD N) (KKey s :: r) (ROk (tt, D, r))) by (cbn; auto).
      destruct r as [|k r]; [exact Hr|]. cbn [safe] in Hs. apply andb_true_iff in Hs. destruct Hs as [_ Hs].
      destruct k; try exact Hr; try (cbn; split; [lia|]; auto).
      pose proof (skip_nice r 1 Hs) as H. destruct (skip_parens 1 r); cbn in *; intuition lia.
  Qed.
  Lemma make_op_np o args : o <> ODelete \/ args <> [] -> np (make_op cf o args).
  Proof.
    intros H. unfold make_op. destruct (op_eqb o ODelete && _) eqn:E.
    - apply andb_true_iff in E. destruct E as [E1 E2]. apply op_eqb_eq in E1. apply Nat.eqb_eq in E2. destruct args; [|discriminate]. destruct H; congruence.
    - destruct (op_ok _ _ _); [|discriminate]. destruct o; try discriminate. destruct args as [|a [|b l]]; try discriminate. destruct (div_lit _ _ _); discriminate.
  Qed.
  Lemma make_app_np f args : np (make_app f args).
  Proof. unfold make_app. destruct (sort_of f); try discriminate. destruct (_ && _); discriminate. Qed.
  Lemma make_qualified_np o s args : np (make_qualified_op o s args).
  Proof.
    unfold make_qualified_op. destruct o; try discriminate. destruct s; try discriminate. destruct s; try discriminate.
    destruct (map sort_of args) as [|a [|b l]]; try discriminate. destruct (sort_eqb _ _); discriminate.
  Qed.
  Lemma fapply_np d args : fst d = [] \/ no_let (snd d) = true -> np (fapply d args).
  Proof.
    intros H. unfold fapply. destruct (Nat.eqb _ _) eqn:E; cbn [negb]; [|discriminate]. destruct args; [discriminate|].
    unfold rassert. destruct (list_eqb _ _ _); cbn; [|discriminate]. destruct H as [H|H]; [rewrite H in E; discriminate|].
    match goal with |- np (subst ?m ?t) => destruct (subst_total m t H) as [t' ->] end. discriminate.
  Qed.
  Definition in_range (o : pop) (zs : list Z) : Prop :=
    match o with PBvConst => Forall (fun z => usize z = true) (tl zs) | _ => Forall (fun z => usize z = true) zs end.
  Lemma to_usize_np z : usize z = true -> exists k, to_usize z = ROk k.
  Proof. unfold to_usize, usize. intros ->. eauto. Qed.
  Lemma make_indexed_np o zs args : in_range o zs -> np (make_indexed_op o zs args).
  Proof.
    Ltac np_go := repeat match goal with
      | |- np (ROk _) => discriminate
      | |- np RErr => discriminate
      | |- np (match ?x with _ => _ end) => destruct x eqn:?
      | H : Forall _ (_ :: _) |- _ => inversion H; clear H; subst
      | |- np (do _ <- to_usize ?z ; _) => let k := fresh in destruct (to_usize_np z) as [k ->]; [assumption|cbn [obind]]
      | |- np (do _ <- rassert ?b ; _) => unfold rassert at 1; destruct b; cbn [obind]
      | H : Forall _ (tl (_ :: _)) |- _ => cbn [tl] in H
      end.
    intros H. unfold make_indexed_op. destruct o; cbn [in_range] in H; np_go.
  Qed.
  Lemma make_sort_np sdecl x ss : np (make_sort sdecl x ss).
  Proof. unfold make_sort. destruct ss as [|a [|b [|c l]]]; np_go. Qed.
  Lemma unsorts_np l : np (unsorts l).
  Proof.
    induction l as [|t l IH]; [discriminate|]. cbn. destruct t; try discriminate. destruct (unsorts l); cbn; [discriminate|discriminate|exact IH].
  Qed.

  Variable sdecl : sdecls.
  Notation parse := (parse cf sdecl).
  Definition num_const (z : Z) : term := TConst (if reals cf then CReal (inject_Z z) else CInt z).
  Lemma seq_numerals k E D : forall n ts, List.length ts < n -> safe ts = true -> numerals ts = true ->
    exists zs r, seq (parse (Datatypes.S k) MTerm E) n D ts = ROk (map num_const zs, D, r) /\
      Forall (fun z => usize z = true) zs /\ List.length r < List.length ts /\ safe r = true.
  Proof.
    induction n as [|n IH]; intros ts Hn Hs Hm; [lia|]. destruct ts as [|t r]; [discriminate|]. cbn [safe] in Hs. apply andb_true_iff in Hs. destruct Hs as [_ Hs].
    destruct t; try discriminate.
    - exists [], r. repeat split; auto.
    - cbn [numerals] in Hm. apply andb_true_iff in Hm. destruct Hm as [Hz Hm]. destruct (IH r) as [zs [r' [H1 [H2 [H3 H4]]]]]; [cbn in Hn; lia|auto|auto|].
      exists (z :: zs), r'. cbn [seq]. change (parse (Datatypes.S k) MTerm E D (KNum z :: r)) with (@ROk (term * defs * list token) (num_const z, D, r)). cbn [obind]. rewrite H1. cbn [obind map]. repeat split; auto. cbn. lia.
  Qed.
  Lemma ints_numerals k E D n ts : List.length ts < n -> safe ts = true -> numerals ts = true ->
    ints (parse (Datatypes.S k) MTerm) n E D ts = RErr \/
    exists zs r, ints (parse (Datatypes.S k) MTerm) n E D ts = ROk (zs, D, r) /\
      Forall (fun z => usize z = true) zs /\ List.length r < List.length ts /\ safe r = true.
  Proof.
    intros H1 H2 H3. unfold ints, seq1. destruct (seq_numerals k E D n ts H1 H2 H3) as [zs [r [H4 [H5 [H6 H7]]]]]. rewrite H4. cbn [obind fst].
    destruct zs as [|z zs]; [left; reflexivity|]. unfold num_const. destruct (reals cf); cbn [map obind].
    - left. reflexivity.
    - right. exists (z :: zs), r. repeat split; auto.
      assert (Ho : omap (fun t => ok_or (as_signed_integer t)) (map (fun z => TConst (CInt z)) (z :: zs)) = ROk (z :: zs)).
      { clear. induction (z :: zs) as [|y l IH]; [reflexivity|]. cbn [map omap]. cbn [as_signed_integer op1 as_op as_integer as_const_int ok_or obind].
        rewrite IH. reflexivity. }
      cbn [map] in Ho. rewrite Ho. reflexivity.
  Qed.
  Definition need (m : mode) (ts : list token) : nat := match m with MApp => 2 * List.length ts + 2 | _ => 2 * List.length ts + 1 end.
  Lemma indexed_nice N k E D n ts w : List.length ts < n -> safe (KRes w :: ts) = true -> text_eqb w (chars "_") = true -> okD N D ->
    match indexed (parse (Datatypes.S k) MTerm) n E D ts with
    | RPanic => False | RErr => True
    | ROk (o, zs, D1, r) => in_range o zs /\ D1 = D /\ List.length r < List.length ts /\ safe r = true
    end.
  Proof.
    intros Hn Hs Hw HD. cbn [safe safe_tok] in Hs. rewrite Hw in Hs. unfold indexed, expect_symbol. destruct ts as [|t r]; [exact Logic.I|].
    destruct t; try exact Logic.I. cbn [obind]. apply andb_true_iff in Hs. destruct Hs as [H1 H2]. apply andb_true_iff in H1. destruct H1 as [H1 H3].
    cbn [safe] in H2. apply andb_true_iff in H2. destruct H2 as [_ H2]. cbn [List.length] in *.
    pose proof (ints_numerals k E D n r ltac:(lia) H2 H3) as HI.
    destruct (prefix "bv" (string_of s)).
    - destruct (parse_int _); [|discriminate]. destruct HI as [->|[zs [r' [-> [H4 [H5 H6]]]]]]; cbn [obind]; [exact Logic.I|]. cbn [in_range tl]. split; [auto|]. split; [reflexivity|]. split; [lia|exact H6].
    - destruct (pop_of (string_of s)) as [o|]; [|exact Logic.I]. destruct HI as [->|[zs [r' [-> [H4 [H5 H6]]]]]]; cbn [obind]; [exact Logic.I|].
      split; [|split; [reflexivity|split; [lia|exact H6]]]. destruct o; cbn [in_range]; auto. inversion H4; cbn; auto.
  Qed.
  Lemma safe_tail k r : safe (k :: r) = true -> safe r = true.
  Proof. cbn [safe]. intros H. apply andb_true_iff in H. tauto. Qed.

  Section Step.
    Variable n : nat.
    Hypothesis IH : forall N m E D ts, need m ts <= n -> safe ts = true -> okD N D -> nice (okD N) ts (parse n m E D ts).
    Variable N : list string.
    Notation pT := (parse n MTerm). Notation pA := (parse n MApp). Notation pS := (parse n MSort).
    Notation NT := (nice (okD N)).
    Lemma terms_nice E D ts : 2 * List.length ts + 1 <= n -> safe ts = true -> okD N D -> NT ts (seq (pT E) n D ts) /\ NT ts (seq1 (pT E) n D ts).
    Proof.
      intros H1 H2 H3. split; [apply seq_nice|apply seq1_nice]; auto; try lia; intros s' ts' Hl Hs Ho; apply IH; auto; cbn [need]; lia.
    Qed.
    Lemma sorted_var_nice ED ts : 2 * List.length ts + 1 <= n -> safe ts = true -> okD N (snd ED) ->
      nice (fun p : venv * defs => okD N (snd p)) ts (sorted_var pS ED ts).
    Proof.
      destruct ED as [E D]. intros H1 H2 H3. unfold sorted_var. apply expect_nice; [auto|]. intros r0 L0 S0.
      apply (nice_mono _ r0); [lia|]. apply symbol_nice; [auto|]. intros x r L S.
      apply (nice_mono _ r); [lia|]. cbn [fst snd] in *. apply (bind_nice (okD N)); [apply IH; auto; cbn [need]; lia|].
      intros s D2 r2 _ L2 S2 HD2. apply (nice_mono _ r2); [lia|]. apply expect_nice; [auto|]. intros r3 L3 S3. destruct s; cbn; auto.
    Qed.
    Lemma binding_nice E D ts : 2 * List.length ts + 1 <= n -> safe ts = true -> okD N D -> NT ts (binding pT E D ts).
    Proof.
      intros H1 H2 H3. unfold binding. apply expect_nice; [auto|]. intros r0 L0 S0.
      apply (nice_mono _ r0); [lia|]. apply symbol_nice; [auto|]. intros x r L S.
      apply (nice_mono _ r); [lia|]. cbn [fst snd] in *. apply (bind_nice (okD N)); [apply IH; auto; cbn [need]; lia|].
      intros s D2 r2 _ L2 S2 HD2. apply (nice_mono _ r2); [lia|]. apply expect_nice; [auto|]. intros r3 L3 S3. cbn; auto.
    Qed.
    Lemma binder_nice b E D ts : 2 * List.length ts + 1 <= n -> safe ts = true -> okD N D -> NT ts (binder_term pT pS n b E D ts).
    Proof.
      intros H1 H2 H3. unfold binder_term. apply expect_nice; [auto|]. intros r0 L0 S0. apply (nice_mono _ r0); [lia|].
      apply (bind_nice (fun p : venv * defs => okD N (snd p))).
      - unfold bound_vars. assert (Hs : nice (fun p : venv * defs => okD N (snd p)) r0 (seq1 (sorted_var pS) n (E, D) r0)).
        { apply seq1_nice; [lia|auto|auto|]. intros ED ts' Hl Hs Ho. apply sorted_var_nice; auto. lia. }
        destruct b; auto. apply (bind_nice (fun p : venv * defs => okD N (snd p))); [apply sorted_var_nice; auto; lia|].
        intros v ED r1 _ L1 S1 HD. apply (nice_mono _ r1); [lia|]. apply expect_nice; [auto|]. intros r2 L2 S2. cbn. auto.
      - intros vs ED r1 _ L1 S1 HD. apply (nice_mono _ r1); [lia|]. apply (bind_nice (okD N)); [apply IH; auto; cbn [need]; lia|].
        intros t D2 r2 _ L2 S2 HD2. apply (nice_mono _ r2); [lia|].
        destruct b; cbn [obind]; unfold rassert; try destruct (sort_eqb SBool (sort_of t)); cbn [obind]; try exact Logic.I;
          (apply expect_nice; [auto|]; intros r3 L3 S3; cbn; auto).
    Qed.
    Lemma let_nice E D ts : 2 * List.length ts + 1 <= n -> safe ts = true -> okD N D -> expand_lets cf = false -> NT ts (let_term cf pT n E D ts).
    Proof.
      intros H1 H2 H3 He. unfold let_term. apply expect_nice; [auto|]. intros r0 L0 S0. apply (nice_mono _ r0); [lia|].
      apply (bind_nice (okD N)).
      - apply seq1_nice; [lia|auto|auto|]. intros ED ts' Hl Hs Ho. apply binding_nice; auto. lia.
      - intros bs D1 r1 _ L1 S1 HD1. apply (nice_mono _ r1); [lia|]. apply (bind_nice (okD N)); [apply IH; auto; cbn [need]; lia|].
        intros t D2 r2 _ L2 S2 HD2. apply (nice_mono _ r2); [lia|]. apply expect_nice; [auto|]. intros r3 L3 S3. rewrite He. cbn. auto.
    Qed.
    Lemma annotated_nice E D ts : 2 * List.length ts + 1 <= n -> safe ts = true -> okD N D -> NT ts (annotated pT n E D ts).
    Proof.
      intros H1 H2 H3. unfold annotated. apply (bind_nice (okD N)); [apply IH; auto; cbn [need]; lia|].
      intros t D1 r1 _ L1 S1 HD1. apply (nice_mono _ r1); [lia|]. apply (bind_nice (okD N)).
      - apply seq1_nice; [lia|auto|auto|]. intros D' ts' Hl Hs Ho. apply attribute_nice; auto.
      - intros u D2 r2 _ L2 S2 HD2. cbn. auto.
    Qed.
    Lemma app_args_nice E ts f : 2 * List.length ts + 1 <= n -> NT ts f -> NT ts (app_args pT n E f).
    Proof.
      intros H1 Hf. unfold app_args. apply (bind_nice (okD N)); [exact Hf|]. intros h D1 r1 _ L1 S1 HD1. apply (nice_mono _ r1); [lia|].
      apply (bind_nice (okD N)); [apply terms_nice; auto; lia|]. intros l D2 r2 _ L2 S2 HD2. apply ret_nice; auto. apply make_app_np.
    Qed.
    Lemma qualified_nice E D ts : 2 * List.length ts + 1 <= n -> safe ts = true -> okD N D ->
      match qualified pS E D ts with
      | RPanic => False | RErr => True | ROk (o, s, D1, r) => okD N D1 /\ List.length r < List.length ts /\ safe r = true end.
    Proof.
      intros H1 H2 H3. unfold qualified, expect_symbol. destruct ts as [|t r]; [exact Logic.I|]. destruct t; try exact Logic.I. cbn [obind fst snd].
      destruct (pop_of _) as [o|]; [|exact Logic.I]. apply safe_tail in H2. cbn [List.length] in *.
      assert (Hp : NT r (pS E D r)) by (apply IH; auto; cbn [need]; lia). destruct (pS E D r) as [[[so D1] r1]| |]; cbn in *; auto.
      destruct Hp as [L1 [S1 HD1]]. destruct r1 as [|t1 r2]; cbn; auto. destruct (is_close t1); cbn; auto. apply safe_tail in S1. cbn in L1.
      split; [exact HD1|]. split; [lia|exact S1].
    Qed.
  End Step.
  Lemma op_of_delete x o : op_of x = Some o -> x <> "@d"%string -> o <> ODelete.
  Proof.
    unfold op_of. intros H Hx ->. apply find_some in H. destruct H as [_ H]. apply String.eqb_eq in H. apply Hx. rewrite <- H. reflexivity.
  Qed.
  (** a symbol other than [@d] and [eo] *)
  Lemma safe_sy s r : safe (KSym s :: r) = true -> sy s = true.
  Proof. cbn [safe safe_tok]. intros H. apply andb_true_iff in H. destruct H as [H1 _]. apply andb_true_iff in H1. tauto. Qed.
  Lemma safe_sym s r : safe (KSym s :: r) = true -> string_of s <> "@d"%string /\ string_of s <> "eo"%string /\ safe r = true.
  Proof.
    cbn [safe safe_tok]. intros H. apply andb_true_iff in H. destruct H as [H1 H2]. apply andb_true_iff in H1. destruct H1 as [H1 _]. apply andb_true_iff in H1. destruct H1 as [H1 H3].
    apply negb_true_iff in H1, H3. apply String.eqb_neq in H1, H3. auto.
  Qed.
  Lemma parse_nice : forall n N m E D ts, need m ts <= n -> safe ts = true -> okD N D -> nice (okD N) ts (parse n m E D ts).
  Proof.
    induction n as [|n IH]; intros N m E D ts Hn Hs HD; [destruct m; cbn in Hn; lia|].
    destruct m; cbn [TermIO.parse].
    - (* terms *)
      destruct ts as [|k r]; [exact Logic.I|]. pose proof (safe_tail _ _ Hs) as Hr. cbn [need List.length] in Hn.
      destruct k; cbn [term_body]; try exact Logic.I; try (cbn [nice]; auto; fail).
      + apply (nice_mono _ r); [cbn; lia|]. apply IH; auto. cbn [need]. lia.
      + destruct (safe_sym _ _ Hs) as [Hd [He _]]. destruct (assoc (string_of s) D) as [d|] eqn:Ed.
        * apply ret_nice; auto. apply fapply_np. destruct HD as [HD _]. eapply HD; eauto.
        * destruct (op_of (string_of s)) as [o|] eqn:Eo.
          -- apply ret_nice; auto. apply make_op_np. left. eapply op_of_delete; eauto.
          -- destruct (assoc _ E); cbn; auto.
    - (* applications *)
      cbn [need] in Hn. destruct ts as [|k r]; [cbn [app_body]; apply app_args_nice; auto; [cbn; cbn in Hn; lia|apply IH; auto; cbn in *; lia]|].
      pose proof (safe_tail _ _ Hs) as Hr. cbn [List.length] in Hn.
      assert (Hpt : nice (okD N) (k :: r) (app_args (parse n MTerm) n E (parse n MTerm E D (k :: r)))).
      { apply app_args_nice; auto; [cbn; lia|]. apply IH; auto. cbn [need List.length]. lia. }
      destruct k; cbn [app_body]; try exact Hpt.
      + (* head in parentheses *)
        assert (Hpa : nice (okD N) (KOpen :: r) (app_args (parse n MTerm) n E (parse n MApp E D r))).
        { apply app_args_nice; auto; [cbn; lia|]. apply (nice_mono _ r); [cbn; lia|]. apply IH; auto. cbn [need]. lia. }
        destruct r as [|k r]; [exact Hpa|]. destruct k; try exact Hpa. cbn [List.length] in Hn.
        destruct n as [|n]; [lia|].
        destruct (text_eqb s (chars "_")) eqn:Ew.
        * unfold indexed_args. pose proof (indexed_nice N n E D (Datatypes.S n) r s ltac:(lia) Hr Ew HD) as H.
          destruct (indexed _ _ _ _ _) as [[[[o zs] D1] r1]| |]; cbn [obind]; [|exact Logic.I|exact H]. destruct H as [H1 [-> [L1 S1]]].
          apply (nice_mono _ r1); [cbn; lia|]. apply (bind_nice (okD N)); [apply terms_nice; auto; lia|]. intros l D2 r2 _ L2 S2 HD2. apply ret_nice; auto.
          apply make_indexed_np. exact H1.
        * destruct (text_eqb s (chars "as")) eqn:Ea; [|exact Hpa]. unfold qualified_args. apply safe_tail in Hr.
          pose proof (qualified_nice (Datatypes.S n) IH N E D r ltac:(lia) Hr HD) as H.
          destruct (qualified _ _ _ _) as [[[[o zs] D1] r1]| |]; cbn [obind]; [|exact Logic.I|exact H]. destruct H as [HD1 [L1 S1]].
          apply (nice_mono _ r1); [cbn; lia|]. apply (bind_nice (okD N)); [apply terms_nice; auto; lia|]. intros l D2 r2 _ L2 S2 HD2. apply ret_nice; auto.
          apply make_qualified_np.
      + (* a symbol *)
        destruct (safe_sym _ _ Hs) as [Hd [He _]]. unfold symbol_app. destruct (op_of (string_of s)) as [o|] eqn:Eo.
        * apply (nice_mono _ r); [cbn; lia|]. apply (bind_nice (okD N)); [apply terms_nice; auto; lia|]. intros l D2 r2 _ L2 S2 HD2. apply ret_nice; auto.
          apply make_op_np. left. eapply op_of_delete; eauto.
        * apply String.eqb_neq in He. rewrite He. destruct (assoc (string_of s) D) as [d|] eqn:Ed; [|exact Hpt].
          apply (nice_mono _ r); [cbn; lia|]. apply (bind_nice (okD (string_of s :: N))).
          -- apply terms_nice; auto; [lia|]. destruct HD as [HD HN]. split; [exact HD|]. intros x [<-|Hx]; [congruence|auto].
          -- intros l D1 r1 _ L1 S1 [HD1 HN]. destruct (assoc (string_of s) D1) as [d1|] eqn:Ed1; [|exfalso; apply (HN (string_of s)); [left; reflexivity|exact Ed1]].
             apply ret_nice; auto; [split; [exact HD1|intros x Hx; apply HN; right; exact Hx]|]. apply fapply_np. eapply HD1; eauto.
      + (* a reserved word *)
        unfold reserved_app. destruct n as [|n]; [lia|]. set (n' := Datatypes.S n) in *. apply (nice_mono _ r); [cbn; lia|].
        destruct (text_eqb s (chars "_")) eqn:Ew.
        { pose proof (indexed_nice N n E D n' r s ltac:(lia) Hs Ew HD) as H. fold n' in H.
          destruct (indexed _ _ _ _ _) as [[[[o zs] D1] r1]| |]; cbn [obind]; [|exact Logic.I|exact H]. destruct H as [H1 [-> [L1 S1]]].
          apply ret_nice; auto. apply make_indexed_np. exact H1. }
        destruct (text_eqb s (chars "as")).
        { pose proof (qualified_nice n' IH N E D r ltac:(lia) Hr HD) as H.
          destruct (qualified _ _ _ _) as [[[[o zs] D1] r1]| |]; cbn [obind]; [|exact Logic.I|exact H]. destruct H as [HD1 [L1 S1]].
          apply ret_nice; auto. apply make_qualified_np. }
        destruct (text_eqb s (chars "exists")); [apply binder_nice; auto; lia|].
        destruct (text_eqb s (chars "forall")); [apply binder_nice; auto; lia|].
        destruct (text_eqb s (chars "choice")); [apply binder_nice; auto; lia|].
        destruct (text_eqb s (chars "lambda")); [apply binder_nice; auto; lia|].
        destruct (text_eqb s (chars "!")); [apply annotated_nice; auto; lia|].
        destruct (text_eqb s (chars "let")) eqn:El.
        { apply let_nice; auto; [lia|]. cbn [safe safe_tok] in Hs. rewrite Ew, El in Hs. destruct (expand_lets cf); [discriminate|reflexivity]. }
        destruct (text_eqb s (chars "cl")); [|exact Logic.I].
        apply (bind_nice (okD N)); [apply terms_nice; auto; lia|]. intros l D2 r2 _ L2 S2 HD2. apply ret_nice; auto. apply make_op_np. left. discriminate.
    - (* sorts *)
      cbn [need] in Hn. destruct ts as [|k r]; [exact Logic.I|]. pose proof (safe_tail _ _ Hs) as Hr. cbn [List.length] in Hn.
      destruct k; cbn [sort_body]; try exact Logic.I; [|apply ret_nice; auto; apply make_sort_np].
      assert (Hd : nice (okD N) r (do x <- expect_symbol r ; do y <- seq1 (parse n MSort E) n D (snd x) ;
          let '(l, D1, r1) := y in do ss <- unsorts l ; ret D1 r1 (make_sort sdecl (fst x) ss))).
      { apply symbol_nice; [auto|]. intros x r0 L0 S0. apply (nice_mono _ r0); [lia|]. cbn [fst snd]. apply (bind_nice (okD N)).
        - apply seq1_nice; [lia|auto|auto|]. intros D' ts' Hl Hs' Ho. apply IH; auto. cbn [need]. lia.
        - intros l D1 r1 _ L1 S1 HD1. pose proof (unsorts_np l) as Hu. destruct (unsorts l); cbn [obind]; [|exact Logic.I|congruence].
          apply ret_nice; auto. apply make_sort_np. }
      apply (nice_mono _ r); [cbn; lia|].
      destruct r as [|k r]; [exact Hd|]. destruct k; try exact Hd. destruct (text_eqb s (chars "_")) eqn:Ew; [|exact Logic.I].
      cbn [safe safe_tok] in Hr. rewrite Ew in Hr. unfold expect_symbol. destruct r as [|k r]; [exact Logic.I|]. destruct k; try exact Logic.I.
      apply andb_true_iff in Hr. destruct Hr as [H1 H2]. apply andb_true_iff in H1. destruct H1 as [_ H1]. apply safe_tail in H2. cbn [obind fst snd List.length] in *.
      destruct n as [|n]; [lia|]. destruct (seq_numerals n E D (Datatypes.S n) r ltac:(lia) H2 H1) as [zs [r1 [H3 [H4 [H5 H6]]]]].
      unfold seq1. rewrite H3. cbn [obind fst]. destruct zs as [|z [|z' zs]]; cbn [map].
      + exact Logic.I.
      + cbn [obind]. destruct (String.eqb _ "BitVec"); [|exact Logic.I]. unfold num_const. destruct (reals cf); cbn; [exact Logic.I|].
        inversion H4; subst. destruct (to_usize_np z) as [w Hw]; [assumption|]. rewrite Hw. cbn. split; [lia|]. auto.
      + cbn [obind]. destruct (String.eqb _ "BitVec"); exact Logic.I.
  Qed.
  (** the fuel is enough and nothing else panics *)
  Lemma parse_no_panic E D ts : safe ts = true -> safe_defs D -> parse (fuel_for ts) MTerm E D ts <> RPanic.
  Proof.
    intros H1 H2 H. pose proof (parse_nice (fuel_for ts) [] MTerm E D ts) as Hp. rewrite H in Hp. apply Hp; auto.
    - unfold fuel_for. cbn [need]. lia.
    - split; [exact H2|]. intros x [].
  Qed.
  Lemma read_term_no_panic E D txt : (forall ts, lex_all txt = ROk ts -> safe ts = true) -> lex_all txt <> RPanic -> safe_defs D ->
    read_term cf sdecl E D txt <> RPanic.
  Proof.
    intros H1 H2 H3. unfold read_term. destruct (lex_all txt) as [ts| |] eqn:El; cbn [obind]; [|discriminate|congruence].
    pose proof (parse_no_panic E D ts (H1 ts eq_refl) H3) as Hp. destruct (parse _ _ _ _ _) as [[[t D1] r]| |]; cbn; [destruct r; discriminate|discriminate|congruence].
  Qed.
End Safe.
(** no condition *)
Definition any : text -> bool := fun _ => true.
