(** Terms that are printed and parsed again: the same terms. *)
From Coq Require Import List Bool NArith ZArith QArith Lia String Ascii ZifyBool ZifyNat ZifyN.
From Verif Require Import Base Term Sem Num Utils Polyeq Subst Lexer LexerSound TermIO.
Import ListNotations.
Open Scope list_scope.
Open Scope nat_scope.

(** ** Pieces and tokens *)
Definition atom (p : text) (t : token) : Prop := t <> KEof /\ forall rest, delim rest = true -> next_token (p ++ rest) = ROk (t, rest).
Definition par (p : piece) : Prop := p = sp \/ p = lp \/ p = rp \/ p = nl.
Definition hd_delim (l : list piece) : Prop := match l with [] => True | p :: _ => par p end.
Fixpoint okp (l : list piece) : Prop :=
  match l with
  | [] => True
  | p :: r => (par p \/ exists t, snd p = Some t /\ atom (fst p) t /\ hd_delim r) /\ okp r
  end.
Lemma okp_app a b : okp a -> okp b -> hd_delim b -> okp (a ++ b).
Proof.
  induction a as [|p a IH]; cbn [okp app]; [auto|]. intros [Hp Ha] Hb Hd. split; [|auto].
  destruct Hp as [Hp|[t [H1 [H2 H3]]]]; [left; exact Hp|right]. exists t. repeat split; try assumption; try apply H2.
  destruct a as [|p' a]; [exact Hd|exact H3].
Qed.
Lemma out_app a b : out (a ++ b) = out a ++ out b.
Proof. apply flat_map_app. Qed.
Lemma toks_app a b : toks (a ++ b) = toks a ++ toks b.
Proof. apply flat_map_app. Qed.
Lemma hd_out l : hd_delim l -> delim (out l) = true.
Proof. destruct l as [|p l]; [reflexivity|]. intros [->|[->|[->| ->]]]; reflexivity. Qed.
Lemma atom_nonempty p t : atom p t -> p <> [].
Proof. intros [Hn H] ->. specialize (H [] eq_refl). cbn in H. injection H as <-. apply Hn. reflexivity. Qed.
Lemma okp_len l : okp l -> List.length l <= List.length (out l).
Proof.
  induction l as [|p l IH]; [reflexivity|]. cbn [okp]. intros [Hp Hl]. specialize (IH Hl). change (out (p :: l)) with (fst p ++ out l).
  rewrite app_length. cbn [List.length]. assert (1 <= List.length (fst p)); [|lia].
  destruct Hp as [[->|[->|[->| ->]]]|[t [_ [Ha _]]]]; cbn; try lia. apply atom_nonempty in Ha. destruct (fst p); [congruence|cbn; lia].
Qed.
Lemma okp_lex l : okp l -> forall f, List.length l < f -> lex_fuel f (out l) = ROk (toks l).
Proof.
  induction l as [|p l IH]; intros Hl f Hf; (destruct f as [|f]; [cbn in Hf; lia|]); [reflexivity|].
  cbn [okp List.length] in *. destruct Hl as [Hp Hl]. change (out (p :: l)) with (fst p ++ out l). 
  destruct Hp as [[->|[->|[->| ->]]]|[t [Ht [[Hn Ha] Hd]]]].
  - change (toks (sp :: l)) with (toks l). rewrite <- (IH Hl (S f)) by lia. cbn [lex_fuel]. rewrite (next_token_ws (fst sp) _ eq_refl). reflexivity.
  - change (toks (lp :: l)) with (KOpen :: toks l). cbn [lex_fuel]. change (next_token (fst lp ++ out l)) with (ROk (KOpen, out l)).
    cbn [obind fst snd]. rewrite (IH Hl f) by lia. reflexivity.
  - change (toks (rp :: l)) with (KClose :: toks l). cbn [lex_fuel]. change (next_token (fst rp ++ out l)) with (ROk (KClose, out l)).
    cbn [obind fst snd]. rewrite (IH Hl f) by lia. reflexivity.
  - change (toks (nl :: l)) with (toks l). rewrite <- (IH Hl (S f)) by lia. cbn [lex_fuel]. rewrite (next_token_ws (fst nl) _ eq_refl). reflexivity.
  - cbn [toks flat_map]. rewrite Ht. cbn [lex_fuel]. rewrite (Ha _ (hd_out _ Hd)). cbn [obind fst snd]. rewrite (IH Hl f) by lia.
    destruct t; try reflexivity. congruence.
Qed.
Lemma okp_lex_all l : okp l -> lex_all (out l) = ROk (toks l).
Proof. intros H. apply okp_lex; [exact H|]. pose proof (okp_len l H). lia. Qed.

(** ** Atoms *)
Definition word_ok (s : text) : bool :=
  match s with c :: r => is_sym c && negb (is_digit c) && forallb is_sym r && (negb (N.eqb c 45) || Nat.eqb (List.length r) 0) | [] => false end.
Lemma word_atom s : word_ok s = true -> atom s (if is_reserved s then KRes s else KSym s).
Proof.
  destruct s as [|c s]; [discriminate|]. unfold word_ok. intros H. apply andb_true_iff in H. destruct H as [H H4].
  apply andb_true_iff in H. destruct H as [H H3]. apply andb_true_iff in H. destruct H as [H1 H2]. apply negb_true_iff in H2.
  split; [destruct (is_reserved (c :: s)); discriminate|]. intros rest Hr. cbn [app]. rewrite (next_simple c s rest H1 H2 H3 Hr).
  destruct (N.eqb_spec c 45) as [->|_]; [|reflexivity]. cbn [negb orb] in H4. destruct s; [|discriminate]. cbn [app].
  replace (match rest with [] => false | d :: _ => is_digit d end) with false; [reflexivity|].
  destruct rest as [|d r]; [reflexivity|]. cbn [delim] in Hr. unfold is_ws, is_digit in *. lia.
Qed.
Lemma word_okp s l : word_ok s = true -> hd_delim l -> okp l -> okp (word s :: l).
Proof. intros Hw Hd Hl. split; [|exact Hl]. right. eexists; split; [reflexivity|]. split; [apply word_atom; exact Hw|exact Hd]. Qed.
Lemma okp_par p l : par p -> okp l -> okp (p :: l).
Proof. intros Hp Hl. split; [left; exact Hp|exact Hl]. Qed.
Lemma okp_atom p t l : atom p t -> hd_delim l -> okp l -> okp ((p, Some t) :: l).
Proof. intros Hp Hd Hl. split; [|exact Hl]. right. exists t. auto. Qed.
Lemma par_sp : par sp. Proof. left; reflexivity. Qed.
Lemma par_lp : par lp. Proof. right; left; reflexivity. Qed.
Lemma par_rp : par rp. Proof. right; right; left; reflexivity. Qed.
Lemma par_nl : par nl. Proof. right; right; right; reflexivity. Qed.

Lemma string_chars x : string_of (chars x) = x.
Proof. induction x as [|c x IH]; cbn; [reflexivity|]. rewrite IH, ascii_N_embedding. reflexivity. Qed.
Lemma chars_string l : forallb (fun c => N.ltb c 256) l = true -> chars (string_of l) = l.
Proof.
  induction l as [|c l IH]; cbn; [reflexivity|]. intros H. apply andb_true_iff in H. destruct H as [H1 H2].
  rewrite IH by exact H2. rewrite N_ascii_embedding by lia. reflexivity.
Qed.
Definition name_ok (x : string) : bool := quotable (chars x) && negb (dash_digit (chars x)).
Lemma p_sym_ok x : name_ok x = true -> exists q, p_sym x = ROk (q, Some (KSym (chars x))) /\ atom q (KSym (chars x)).
Proof.
  unfold name_ok. intros H. apply andb_true_iff in H. destruct H as [H1 H2]. apply negb_true_iff in H2.
  destruct (symbol_ok (chars x) [] H1 H2 eq_refl) as [p [E _]]. exists p. unfold p_sym. rewrite E. split; [reflexivity|].
  split; [discriminate|]. intros rest Hr. destruct (symbol_ok (chars x) rest H1 H2 Hr) as [p' [E' H']]. congruence.
Qed.
Lemma nat_atom n : atom (print_N n) (KNum (Z.of_N n)).
Proof.
  split; [discriminate|]. intros rest Hr. rewrite (proj1 (next_print_N n rest)), (read_num_int false n rest Hr). reflexivity.
Qed.
Lemma named_atom : atom (chars ":named") (KKey (chars "named")).
Proof.
  split; [discriminate|]. intros rest Hr. destruct (token_ok (KKey (chars "named")) rest eq_refl Hr) as [p [E H]]. injection E as <-. exact H.
Qed.
Lemma digits_sym l : forallb is_digit l = true -> forallb is_sym l = true.
Proof. induction l as [|c l IH]; cbn [forallb]; [auto|]. intros H. apply andb_true_iff in H. destruct H as [H1 H2]. rewrite IH by exact H2. unfold is_sym. rewrite H1. reflexivity. Qed.
Lemma share_word i : word_ok (share_name i) = true.
Proof. unfold share_name. cbn [chars app word_ok N_of_ascii]. cbn -[print_N forallb is_sym]. cbn [forallb]. rewrite digits_sym by apply print_N_digits. reflexivity. Qed.
Lemma share_key i : word (share_name i) = (share_name i, Some (KSym (share_name i))).
Proof.
  unfold word. replace (is_reserved (share_name i)) with false; [reflexivity|]. unfold share_name. generalize (print_N (N.of_nat i)). intros l. reflexivity.
Qed.
Definition skey (i : nat) : string := string_of (share_name i).
Lemma share_chars i : chars (skey i) = share_name i.
Proof.
  apply chars_string. unfold share_name. rewrite forallb_app. apply andb_true_iff. split; [reflexivity|].
  pose proof (print_N_digits (N.of_nat i)) as H. revert H. generalize (print_N (N.of_nat i)). intros l. induction l as [|c l IH]; cbn [forallb]; [auto|].
  intros H. apply andb_true_iff in H. destruct H as [H1 H2]. rewrite IH by exact H2. unfold is_digit in H1. lia.
Qed.
Lemma skey_inj i j : skey i = skey j -> i = j.
Proof.
  intros H. apply (f_equal chars) in H. rewrite !share_chars in H. unfold share_name in H. apply app_inv_head in H.
  apply (f_equal (digits_val 10)) in H. rewrite !print_N_val in H. lia.
Qed.
Lemma skey_prefix i : prefix "@p_" (skey i) = true.
Proof. unfold skey, share_name. generalize (print_N (N.of_nat i)). intros l. cbn. generalize (string_of l). intros s. destruct s; reflexivity. Qed.

Lemma op_words : forallb (fun o => word_ok (chars (op_name o))) op_list = true.
Proof. vm_compute. reflexivity. Qed.
Lemma op_in_list o : In o op_list.
Proof. destruct o; cbn; tauto. Qed.
Lemma op_word o : word_ok (chars (op_name o)) = true.
Proof. exact (proj1 (forallb_forall _ _) op_words o (op_in_list o)). Qed.
Lemma op_of_name o : op_of (op_name o) = Some o.
Proof. destruct o; vm_compute; reflexivity. Qed.
Lemma op_tok o : o <> OCl -> kw (op_name o) = (chars (op_name o), Some (KSym (chars (op_name o)))).
Proof. destruct o; intros H; try reflexivity. congruence. Qed.
Lemma pop_word o : word_ok (chars (pop_name o)) = true /\ is_reserved (chars (pop_name o)) = false /\ pop_of (pop_name o) = Some o.
Proof. destruct o; vm_compute; auto. Qed.

(** ** Sequences *)
Lemma seq_close {A S} (p : S -> list token -> outcome (A * S * list token)) n s r : seq p n s (KClose :: r) = ROk ([], s, r).
Proof. destruct n; reflexivity. Qed.
Definition starts (l : list piece) : Prop := match toks l with [] => False | KClose :: _ => False | _ => True end.
Lemma seq_step {A S} (p : S -> list token -> outcome (A * S * list token)) n s ts a s1 r1 :
  match ts with KClose :: _ => False | _ => True end -> p s ts = ROk (a, s1, r1) ->
  seq p (Datatypes.S n) s ts = do y <- seq p n s1 r1 ; let '(l, s2, r2) := y in ROk (a :: l, s2, r2).
Proof. intros H E. cbn [seq]. destruct ts as [|[] ts]; try contradiction; rewrite E; reflexivity. Qed.
Lemma starts_app l rest : starts l -> match toks l ++ rest with KClose :: _ => False | _ => True end.
Proof. unfold starts. destruct (toks l) as [|[] ?]; cbn; tauto. Qed.

(** ** The table of shared terms *)
Section RoundTrip.
  Variable share : term -> bool.
  Variable cf : pcfg.
  Variable sdecl : sdecls.
  Variable D0 : defs.

  (** the definitions other than those for shared terms *)
  Definition Agree (D : defs) : Prop := forall x, prefix "@p_" x = false -> assoc x D = assoc x D0.
  (** the shared terms of size at most [k] are defined *)
  Definition Inv (k : nat) (ind : list term) (D : defs) : Prop :=
    forall i u, nth_error ind i = Some u -> tsize u <= k -> assoc (skey i) D = Some ([], u).
  Record Ext (m : nat) (ind : list term) (D : defs) (ind' : list term) (D' : defs) : Prop := mkExt {
    x_new : exists new, ind' = ind ++ new /\ Forall (fun u => tsize u <= m) new;
    x_old : forall x, (forall j, List.length ind <= j < List.length ind' -> x <> skey j) -> assoc x D' = assoc x D;
    x_def : forall j u, List.length ind <= j -> nth_error ind' j = Some u -> assoc (skey j) D' = Some ([], u) }.
  Lemma ext_refl m ind D : Ext m ind D ind D.
  Proof.
    constructor; [exists []; rewrite app_nil_r; auto|reflexivity|]. intros j u Hj H.
    assert (j < List.length ind) by (apply nth_error_Some; congruence). lia.
  Qed.
  Lemma ext_mono m m' ind D ind' D' : m <= m' -> Ext m ind D ind' D' -> Ext m' ind D ind' D'.
  Proof.
    intros Hm [[new [-> Hn]] Ho Hd]. constructor; auto. exists new. split; [reflexivity|]. eapply Forall_impl; [|exact Hn]. intros u Hu. cbn beta in *. lia.
  Qed.
  Lemma ext_len m ind D ind' D' : Ext m ind D ind' D' -> List.length ind <= List.length ind'.
  Proof. intros [[new [-> _]] _ _]. rewrite app_length. lia. Qed.
  Lemma ext_trans m ind D ind1 D1 ind2 D2 : Ext m ind D ind1 D1 -> Ext m ind1 D1 ind2 D2 -> Ext m ind D ind2 D2.
  Proof.
    intros H1 H2. pose proof (ext_len _ _ _ _ _ H1) as L1. pose proof (ext_len _ _ _ _ _ H2) as L2.
    destruct H1 as [[n1 [E1 F1]] O1 X1], H2 as [[n2 [E2 F2]] O2 X2]. constructor.
    - exists (n1 ++ n2). split; [subst; rewrite app_assoc; reflexivity|apply Forall_app; auto].
    - intros x Hx. rewrite O2, O1; [reflexivity| |]; intros j Hj; apply Hx; lia.
    - intros j u Hj Hu. destruct (Nat.lt_ge_cases j (List.length ind1)) as [Hlt|Hge]; [|apply X2; auto].
      rewrite O2; [|intros k Hk E; apply skey_inj in E; lia]. apply X1; [exact Hj|]. rewrite E2, nth_error_app1 in Hu by exact Hlt. exact Hu.
  Qed.
  Lemma ext_inv k m ind D ind' D' : Inv k ind D -> Ext m ind D ind' D' -> Inv k ind' D'.
  Proof.
    intros HI [[new [E F]] Ho Hd] i u Hu Hk. destruct (Nat.lt_ge_cases i (List.length ind)) as [Hlt|Hge]; [|apply Hd; auto].
    rewrite Ho; [|intros j Hj Ej; apply skey_inj in Ej; lia]. apply HI; [|exact Hk]. rewrite E, nth_error_app1 in Hu by exact Hlt. exact Hu.
  Qed.
  Lemma ext_agree m ind D ind' D' : Agree D -> Ext m ind D ind' D' -> Agree D'.
  Proof.
    intros HA [_ Ho _] x Hx. rewrite Ho; [apply HA; exact Hx|]. intros j _ ->. rewrite skey_prefix in Hx. discriminate.
  Qed.
  Lemma index_nth t ind i : index_of t ind = Some i -> nth_error ind i = Some t.
  Proof.
    revert i. induction ind as [|u ind IH]; cbn; [discriminate|]. intros i. destruct (term_eqb t u) eqn:E.
    - intros H. injection H as <-. apply term_eqb_eq in E. subst. reflexivity.
    - destruct (index_of t ind); cbn; [|discriminate]. intros H. injection H as <-. cbn. apply IH. reflexivity.
  Qed.

  (** ** Readable terms *)
  (** sorts *)
  Definition builtin (x : string) : bool := existsb (String.eqb x) ["Bool"; "Int"; "Real"; "String"; "RegLan"; "Type"; "Array"]%string.
  Definition width_ok (w : nat) : bool := Z.ltb (Z.of_nat w) 18446744073709551616.
  Fixpoint rsort (s : sort) : bool :=
    match s with
    | SFun _ | SVar _ | SRareList => false
    | SAtom n ss => name_ok n && negb (builtin n) && forallb rsort ss
        && match sort_def n sdecl, sort_arity n sdecl with None, Some k => Nat.eqb k (List.length ss) | _, _ => false end
    | SArray a b => rsort a && rsort b
    | SBV w => negb (reals cf) && width_ok w
    | SBool | SInt | SReal | SString | SRegLan | SType => true
    end.
  Definition rvar (E : venv) (x : string) (s : sort) : bool :=
    name_ok x && match op_of x with None => true | _ => false end && match assoc x D0 with None => true | _ => false end
    && negb (prefix "@p_" x) && match assoc x E with Some s' => sort_eqb s' s | None => false end.
  (** heads of applications *)
  Definition rhead (f : term) : bool :=
    negb (shareable share f) && match f with TVar x _ => negb (String.eqb x "eo") | _ => true end.
  Definition app_ok (f : term) (args : list term) : bool :=
    match sort_of f with SFun ss => min_len 1 ss && list_eqb sort_eqb (removelast ss) (map sort_of args) | _ => false end.
  Definition rop (o : op) (args : list term) : bool :=
    op_ok cf o (map sort_of args)
    && match o, args with ORealDiv, a :: b :: _ => match div_lit cf a b with Some _ => false | None => true end | _, _ => true end.
  Definition index_of_op (t : term) : option Z := match t with TConst (CInt z) => Some z | _ => None end.
  Fixpoint indices (l : list term) : option (list Z) :=
    match l with
    | [] => Some []
    | t :: r => match index_of_op t, indices r with Some z, Some zs => Some (z :: zs) | _, _ => None end
    end.
  Definition rpop (o : pop) (oargs args : list term) : bool :=
    match indices oargs with
    | Some zs => min_len 1 zs && min_len 1 args && negb (reals cf) && negb (pop_beq o PBvConst)
                 && match make_indexed_op o zs args with ROk _ => true | _ => false end
    | None => false
    end.
  Fixpoint rterm (E : venv) (t : term) : bool :=
    match t with
    | TConst (CInt _) => negb (reals cf)
    | TConst (CReal q) => Z.eqb (Qnum (Qred q)) (Qnum q) && Pos.eqb (Qden (Qred q)) (Qden q)
    | TConst (CStr s) => no_escape s
    | TConst (CBV v w) => negb (reals cf) && Z.leb 0 v && Nat.leb 1 w && width_ok w
    | TVar x s => rvar E x s
    | TApp f args => min_len 1 args && rterm E f && forallb (rterm E) args && rhead f && app_ok f args
    | TOp o [] => negb (op_eqb o OCl) && match assoc (op_name o) D0 with None => true | _ => false end
                  && negb (prefix "@p_" (op_name o)) && op_ok cf o []
    | TOp o args => forallb (rterm E) args && rop o args
    | TSort _ => false
    | TBind b vs body =>
        min_len 1 vs && match b with BChoice => Nat.eqb (List.length vs) 1 | _ => true end
        && forallb (fun v => name_ok (fst v) && rsort (snd v)) vs
        && rterm (rev vs ++ E) body && match b with BLambda => true | _ => sort_eqb SBool (sort_of body) end
    | TLet bs body =>
        negb (expand_lets cf) && min_len 1 bs
        && forallb (fun v => name_ok (fst v) && rterm E (snd v)) bs
        && rterm (rev (map (fun v => (fst v, sort_of (snd v))) bs) ++ E) body
    | TPOp o oargs args => forallb (rterm E) args && rpop o oargs args
    end.

  Notation parse' := (parse cf sdecl).
  (** ** Generic lists *)
  Definition ESpec {A} (f : A -> list term -> outcome (list piece * list term))
    (p : nat -> defs -> list token -> outcome (A * defs * list token)) (sz : nat) (a : A) : Prop :=
    forall ind D k, Agree D -> Inv k ind D -> sz <= k ->
    exists l ind' D', f a ind = ROk (l, ind') /\ Ext sz ind D ind' D' /\ okp l /\ starts l /\
      forall n rest, 2 * List.length (toks l) <= n -> p n D (toks l ++ rest) = ROk (a, D', rest).
  Lemma tail_spec {A} f p sz (as_ : list A) : Forall (ESpec f p sz) as_ ->
    forall ind D k, Agree D -> Inv k ind D -> sz <= k ->
    exists l ind' D', p_tail_st f as_ ind = ROk (l, ind') /\ Ext sz ind D ind' D' /\ okp l /\
      match l with [] => True | x :: _ => x = sp end /\
      forall n m rest, 2 * List.length (toks l) <= n -> List.length (toks l) <= m ->
        seq (p n) m D (toks l ++ KClose :: rest) = ROk (as_, D', rest).
  Proof.
    induction 1 as [|a as_ Ha _ IH]; intros ind D k HA HI Hk.
    - exists [], ind, D. split; [reflexivity|]. split; [apply ext_refl|]. split; [exact Logic.I|]. split; [exact Logic.I|].
      intros n m rest _ _. apply seq_close.
    - destruct (Ha ind D k HA HI Hk) as [l1 [ind1 [D1 [E1 [X1 [O1 [S1 P1]]]]]]].
      destruct (IH ind1 D1 k (ext_agree _ _ _ _ _ HA X1) (ext_inv _ _ _ _ _ _ HI X1) Hk) as [l2 [ind2 [D2 [E2 [X2 [O2 [S2 P2]]]]]]].
      exists (sp :: l1 ++ l2), ind2, D2. cbn [p_tail_st]. rewrite E1. cbn [obind fst snd]. rewrite E2. cbn [obind fst snd].
      split; [reflexivity|]. split; [exact (ext_trans _ _ _ _ _ _ _ X1 X2)|].
      split; [apply okp_par; [apply par_sp|apply okp_app; [exact O1|exact O2|]]; destruct l2; [exact Logic.I|left; exact S2]|].
      split; [reflexivity|]. intros n m rest Hn Hm. change (toks (sp :: l1 ++ l2)) with (toks (l1 ++ l2)) in *. rewrite toks_app in *.
      rewrite app_length in Hn, Hm. rewrite <- app_assoc. assert (H1 : 1 <= List.length (toks l1)) by (unfold starts in S1; destruct (toks l1); [contradiction|cbn; lia]).
      destruct m as [|m]; [lia|]. rewrite (seq_step _ m D _ a D1 (toks l2 ++ KClose :: rest) (starts_app l1 _ S1)) by (apply P1; lia).
      rewrite P2 by lia. reflexivity.
  Qed.
  Lemma paren_spec {A} f p sz (as_ : list A) : Forall (ESpec f p sz) as_ -> as_ <> [] ->
    forall ind D k, Agree D -> Inv k ind D -> sz <= k ->
    exists l ind' D', p_paren f as_ ind = ROk (lp :: l ++ [rp], ind') /\ Ext sz ind D ind' D' /\ okp l /\
      forall n m rest, 2 * List.length (toks l) <= n -> List.length (toks l) <= m ->
        seq1 (p n) m D (toks l ++ KClose :: rest) = ROk (as_, D', rest).
  Proof.
    intros HF Hne ind D k HA HI Hk. destruct as_ as [|a as_]; [congruence|]. inversion HF as [|? ? Ha HF']; subst.
    destruct (Ha ind D k HA HI Hk) as [l1 [ind1 [D1 [E1 [X1 [O1 [S1 P1]]]]]]].
    destruct (tail_spec f p sz as_ HF' ind1 D1 k (ext_agree _ _ _ _ _ HA X1) (ext_inv _ _ _ _ _ _ HI X1) Hk) as [l2 [ind2 [D2 [E2 [X2 [O2 [S2 P2]]]]]]].
    exists (l1 ++ l2), ind2, D2. cbn [p_paren]. rewrite E1. cbn [obind fst snd]. rewrite E2. cbn [obind fst snd].
    split; [rewrite <- app_assoc; reflexivity|]. split; [exact (ext_trans _ _ _ _ _ _ _ X1 X2)|].
    split; [apply okp_app; [exact O1|exact O2|]; destruct l2; [exact Logic.I|left; exact S2]|].
    intros n m rest Hn Hm. rewrite toks_app in *. rewrite app_length in Hn, Hm. rewrite <- app_assoc.
    assert (H1 : 1 <= List.length (toks l1)) by (unfold starts in S1; destruct (toks l1); [contradiction|cbn; lia]).
    destruct m as [|m]; [lia|]. unfold seq1. rewrite (seq_step _ m D _ a D1 (toks l2 ++ KClose :: rest) (starts_app l1 _ S1)) by (apply P1; lia).
    rewrite P2 by lia. reflexivity.
  Qed.
  Lemma seq1_nonempty {A S} (p : S -> list token -> outcome (A * S * list token)) n s ts l s' r : seq p n s ts = ROk (l, s', r) -> l <> [] ->
    seq1 p n s ts = ROk (l, s', r).
  Proof. intros E H. unfold seq1. rewrite E. cbn. destruct l; [congruence|reflexivity]. Qed.

  (** ** Sorts *)
  Lemma num_term n E D w rest : reals cf = false -> parse' (S n) MTerm E D (KNum w :: rest) = ROk (TConst (CInt w), D, rest).
  Proof. intros H. cbn [parse]. unfold term_body. rewrite H. reflexivity. Qed.
  Lemma num_seq n m E D w rest : reals cf = false -> seq1 (parse' (S n) MTerm E) (S m) D (KNum w :: KClose :: rest) = ROk ([TConst (CInt w)], D, rest).
  Proof. intros H. unfold seq1. cbn [seq]. rewrite (num_term n E D w _ H). cbn [obind]. rewrite seq_close. reflexivity. Qed.
  Lemma to_usize_ok w : width_ok w = true -> to_usize (Z.of_nat w) = ROk w.
  Proof. unfold width_ok, to_usize. intros H. rewrite H. replace (Z.leb 0 (Z.of_nat w)) with true by lia. cbn. rewrite Nat2Z.id. reflexivity. Qed.
  Lemma unsorts_map ss : unsorts (map TSort ss) = ROk ss.
  Proof. induction ss as [|s ss IH]; cbn; [reflexivity|]. rewrite IH. reflexivity. Qed.
  Lemma make_atom x ss : builtin x = false -> match sort_def x sdecl, sort_arity x sdecl with None, Some k => Nat.eqb k (List.length ss) | _, _ => false end = true ->
    make_sort sdecl x ss = ROk (TSort (SAtom x ss)).
  Proof.
    unfold builtin, make_sort. cbn [existsb]. intros H Ha. repeat (apply orb_false_iff in H; destruct H as [?H0 H]).
    rewrite H0, H1, H2, H3, H4, H5, H6. destruct (sort_def x sdecl); [discriminate|]. destruct (sort_arity x sdecl); [|discriminate]. rewrite Ha. reflexivity.
  Qed.
  Definition SSpec (s : sort) : Prop := rsort s = true ->
    exists l, p_sort s = ROk l /\ okp l /\ starts l /\
      forall n E D rest, 2 * List.length (toks l) <= n -> parse' n MSort E D (toks l ++ rest) = ROk (TSort s, D, rest).
  Lemma sort_tail ss : Forall SSpec ss -> forallb rsort ss = true ->
    exists l, p_tail p_sort ss = ROk l /\ okp l /\ match l with [] => True | x :: _ => x = sp end /\
      forall n m E D rest, 2 * List.length (toks l) <= n -> List.length (toks l) <= m ->
        seq (parse' n MSort E) m D (toks l ++ KClose :: rest) = ROk (map TSort ss, D, rest).
  Proof.
    induction 1 as [|s ss Hs _ IH]; cbn [forallb]; intros Hr.
    - exists []. split; [reflexivity|]. split; [exact Logic.I|]. split; [exact Logic.I|]. intros n m E D rest _ _. apply seq_close.
    - apply andb_true_iff in Hr. destruct Hr as [Hr1 Hr2]. destruct (Hs Hr1) as [l1 [E1 [O1 [S1 P1]]]].
      destruct (IH Hr2) as [l2 [E2 [O2 [S2 P2]]]]. exists (sp :: l1 ++ l2). cbn [p_tail]. rewrite E1. cbn [obind]. rewrite E2. cbn [obind].
      split; [reflexivity|]. split; [apply okp_par; [apply par_sp|apply okp_app; [exact O1|exact O2|]]; destruct l2; [exact Logic.I|left; exact S2]|].
      split; [reflexivity|]. intros n m E D rest Hn Hm. change (toks (sp :: l1 ++ l2)) with (toks (l1 ++ l2)) in *. rewrite toks_app in *.
      rewrite app_length in Hn, Hm. rewrite <- app_assoc. assert (H1 : 1 <= List.length (toks l1)) by (unfold starts in S1; destruct (toks l1); [contradiction|cbn; lia]).
      destruct m as [|m]; [lia|]. rewrite (seq_step _ m D _ (TSort s) D (toks l2 ++ KClose :: rest) (starts_app l1 _ S1)) by (apply P1; lia).
      rewrite P2 by lia. reflexivity.
  Qed.
  Lemma kw_sort x : word_ok (chars x) = true -> is_reserved (chars x) = false -> forall s, make_sort sdecl x [] = ROk (TSort s) ->
    okp [kw x] /\ starts [kw x] /\ forall n E D rest, 2 * List.length (toks [kw x]) <= n -> parse' n MSort E D (toks [kw x] ++ rest) = ROk (TSort s, D, rest).
  Proof.
    intros Hw Hr s Hs. split; [apply word_okp; [exact Hw|exact Logic.I|exact Logic.I]|].
    assert (Et : toks [kw x] = [KSym (chars x)]) by (unfold kw, word, toks; cbn [flat_map snd]; rewrite Hr; reflexivity).
    unfold starts. rewrite Et. split; [exact Logic.I|]. intros n E D rest Hn. destruct n as [|n]; [cbn in Hn; lia|].
    cbn [parse app]. unfold sort_body. rewrite string_chars, Hs. reflexivity.
  Qed.
  Lemma kw_tok x : is_reserved (chars x) = false -> kw x = (chars x, Some (KSym (chars x))).
  Proof. intros H. unfold kw, word. rewrite H. reflexivity. Qed.
  Lemma toks_cons p t r : toks ((p, Some t) :: r) = t :: toks r.
  Proof. reflexivity. Qed.
  Lemma toks_sp r : toks (sp :: r) = toks r.
  Proof. reflexivity. Qed.
  Lemma toks_lp r : toks (lp :: r) = KOpen :: toks r.
  Proof. reflexivity. Qed.
  Lemma toks_rp r : toks (rp :: r) = KClose :: toks r.
  Proof. reflexivity. Qed.
  Lemma sort_spec s : SSpec s.
  Proof.
    induction s using sort_ind'; intros Hr; try discriminate Hr;
      try (eexists; split; [reflexivity|]; apply kw_sort; reflexivity).
    - cbn [rsort] in Hr. apply andb_true_iff in Hr. destruct Hr as [Hr Ha]. apply andb_true_iff in Hr. destruct Hr as [Hr Hss].
      apply andb_true_iff in Hr. destruct Hr as [Hn Hb]. apply negb_true_iff in Hb.
      destruct (p_sym_ok _ Hn) as [q [Eq Aq]]. destruct (sort_tail _ H Hss) as [l [El [Ol [Sl Pl]]]].
      destruct ss as [|s0 ss].
      + exists [(q, Some (KSym (chars n)))]. cbn [p_sort]. rewrite Eq. split; [reflexivity|].
        split; [apply okp_atom; [exact Aq|exact Logic.I|exact Logic.I]|]. split; [exact Logic.I|].
        intros m E D rest Hm. destruct m as [|m]; [cbn in Hm; lia|]. cbn [toks flat_map snd app parse]. unfold sort_body.
        rewrite string_chars, (make_atom n [] Hb Ha). reflexivity.
      + exists (lp :: (q, Some (KSym (chars n))) :: l ++ [rp]). cbn [p_sort]. rewrite Eq. cbn [obind]. rewrite El. cbn [obind]. split; [reflexivity|].
        split. { apply okp_par; [apply par_lp|]. apply okp_atom; [exact Aq| |].
          - destruct l as [|x l]; [apply par_rp|left; exact Sl].
          - apply okp_app; [exact Ol|apply okp_par; [apply par_rp|exact Logic.I]|apply par_rp]. }
        split; [exact Logic.I|]. intros m E D rest Hm. rewrite toks_lp, toks_cons, toks_app, toks_rp in *. cbn [List.length] in Hm. rewrite app_length in Hm. cbn [List.length toks flat_map] in Hm.
        destruct m as [|m]; [lia|]. cbn [app parse]. rewrite <- app_assoc. cbn [app toks flat_map]. unfold sort_body. cbn [expect_symbol obind fst snd].
        rewrite (seq1_nonempty _ _ _ _ _ _ _ (Pl m m E D rest ltac:(lia) ltac:(lia))) by discriminate. cbn [obind]. rewrite unsorts_map. cbn [obind].
        rewrite string_chars, (make_atom n (s0 :: ss) Hb Ha). reflexivity.
    - cbn [rsort] in Hr. apply andb_true_iff in Hr. destruct Hr as [H1 H2]. destruct (IHs1 H1) as [l1 [E1 [O1 [S1 P1]]]]. destruct (IHs2 H2) as [l2 [E2 [O2 [S2 P2]]]].
      exists (lp :: kw "Array" :: sp :: l1 ++ sp :: l2 ++ [rp]). cbn [p_sort]. rewrite E1. cbn [obind]. rewrite E2. cbn [obind]. split; [reflexivity|].
      split. { apply okp_par; [apply par_lp|]. apply word_okp; [reflexivity|apply par_sp|]. apply okp_par; [apply par_sp|].
        apply okp_app; [exact O1| |apply par_sp]. apply okp_par; [apply par_sp|]. apply okp_app; [exact O2|apply okp_par; [apply par_rp|exact Logic.I]|apply par_rp]. }
      split; [exact Logic.I|]. intros m E D rest Hm. rewrite (kw_tok "Array") in * by reflexivity.
      rewrite toks_lp, toks_cons, toks_sp, toks_app, toks_sp, toks_app, toks_rp in *. cbn [List.length] in Hm. rewrite !app_length in Hm. cbn [List.length toks flat_map] in Hm.
      destruct m as [|m]; [lia|]. cbn [app parse]. rewrite <- !app_assoc. cbn [app toks flat_map]. unfold sort_body. cbn [expect_symbol obind fst snd].
      assert (L1 : 1 <= List.length (toks l1)) by (unfold starts in S1; destruct (toks l1); [contradiction|cbn; lia]).
      assert (L2 : 1 <= List.length (toks l2)) by (unfold starts in S2; destruct (toks l2); [contradiction|cbn; lia]).
      assert (Es : seq (parse' m MSort E) m D (toks l1 ++ toks l2 ++ KClose :: rest) = ROk ([TSort s1; TSort s2], D, rest)).
      { destruct m as [|m0]; [lia|]. rewrite (seq_step _ m0 D _ (TSort s1) D (toks l2 ++ KClose :: rest) (starts_app l1 _ S1)) by (apply P1; lia).
        destruct m0 as [|m0]; [lia|]. rewrite (seq_step _ m0 D _ (TSort s2) D (KClose :: rest) (starts_app l2 _ S2)) by (apply P2; lia).
        rewrite seq_close. reflexivity. }
      rewrite (seq1_nonempty _ _ _ _ _ _ _ Es) by discriminate. reflexivity.
    - cbn [rsort] in Hr. apply andb_true_iff in Hr. destruct Hr as [H1 H2]. apply negb_true_iff in H1.
      eexists; split; [reflexivity|]. split.
      { apply okp_par; [apply par_lp|]. apply word_okp; [reflexivity|apply par_sp|]. apply okp_par; [apply par_sp|]. apply word_okp; [reflexivity|apply par_sp|].
        apply okp_par; [apply par_sp|]. apply okp_atom; [apply nat_atom|apply par_rp|]. apply okp_par; [apply par_rp|exact Logic.I]. }
      split; [exact Logic.I|]. intros m E D rest Hm. unfold p_nat in *. cbn [toks flat_map snd lp sp rp kw word app List.length] in Hm |- *.
      destruct m as [|[|m]]; [cbn in Hm; lia|cbn in Hm; lia|]. cbn [parse]. unfold sort_body.
      change (text_eqb (chars "_") (chars "_")) with true. cbn [is_reserved]. 
      change (parse' (S m) MTerm E) with (parse' (S m) MTerm E).
      change (if is_reserved (chars "_") then KRes (chars "_") else KSym (chars "_")) with (KRes (chars "_")).
      change (if is_reserved (chars "BitVec") then KRes (chars "BitVec") else KSym (chars "BitVec")) with (KSym (chars "BitVec")).
      cbv beta iota. change (text_eqb (chars "_") (chars "_")) with true. cbv iota. cbn [expect_symbol obind fst snd].
      fold (parse' (S m) MTerm E). rewrite (num_seq m m E D _ rest H1). cbn [obind].
      change (String.eqb (string_of (chars "BitVec")) "BitVec") with true. cbv iota.
      cbn [as_integer as_const_int]. rewrite nat_N_Z, (to_usize_ok _ H2). reflexivity.
  Qed.

  (** ** Variables of binders *)
  Definition p_svar (v : string * sort) (ind : list term) : outcome (list piece * list term) :=
    do q <- p_sym (fst v) ; do s <- p_sort (snd v) ; ROk (lp :: q :: sp :: s ++ [rp], ind).
  Definition rsv (v : string * sort) : bool := name_ok (fst v) && rsort (snd v).
  Lemma svar_spec v : rsv v = true -> exists l, (forall ind, p_svar v ind = ROk (l, ind)) /\ okp l /\ (exists tl, toks l = KOpen :: tl) /\
    forall n E D rest, 2 * List.length (toks l) <= n -> sorted_var (parse' n MSort) (E, D) (toks l ++ rest) = ROk (v, (v :: E, D), rest).
  Proof.
    intros H. unfold rsv in H. apply andb_true_iff in H. destruct H as [H1 H2]. destruct (p_sym_ok _ H1) as [q [Eq Aq]].
    destruct (sort_spec _ H2) as [l [El [Ol [Sl Pl]]]]. exists (lp :: (q, Some (KSym (chars (fst v)))) :: sp :: l ++ [rp]).
    split; [intros ind; unfold p_svar; rewrite Eq; cbn [obind]; rewrite El; reflexivity|].
    split. { apply okp_par; [apply par_lp|]. apply okp_atom; [exact Aq|apply par_sp|]. apply okp_par; [apply par_sp|].
      apply okp_app; [exact Ol|apply okp_par; [apply par_rp|exact Logic.I]|apply par_rp]. }
    rewrite toks_lp, toks_cons, toks_sp, toks_app, toks_rp. split; [eexists; reflexivity|]. intros n E D rest Hn. cbn [List.length] in Hn. rewrite app_length in Hn.
    cbn [toks flat_map app]. unfold sorted_var. cbn [expect is_open obind expect_symbol fst snd]. rewrite <- app_assoc. cbn [app].
    rewrite Pl by lia. cbn [obind expect is_close]. rewrite string_chars. destruct v. reflexivity.
  Qed.
  Lemma svar_tail vs : forallb rsv vs = true -> exists l, (forall ind, p_tail_st p_svar vs ind = ROk (l, ind)) /\ okp l /\
    match l with [] => True | x :: _ => x = sp end /\
    forall n m E D rest, 2 * List.length (toks l) <= n -> List.length (toks l) <= m ->
      seq (sorted_var (parse' n MSort)) m (E, D) (toks l ++ KClose :: rest) = ROk (vs, (rev vs ++ E, D), rest).
  Proof.
    induction vs as [|v vs IH]; cbn [forallb]; intros H.
    - exists []. split; [reflexivity|]. split; [exact Logic.I|]. split; [exact Logic.I|]. intros n m E D rest _ _. apply seq_close.
    - apply andb_true_iff in H. destruct H as [H1 H2]. destruct (svar_spec v H1) as [l1 [E1 [O1 [[tl S1] P1]]]]. destruct (IH H2) as [l2 [E2 [O2 [S2 P2]]]].
      exists (sp :: l1 ++ l2). split; [intros ind; cbn [p_tail_st]; rewrite E1; cbn [obind fst snd]; rewrite E2; reflexivity|].
      split; [apply okp_par; [apply par_sp|apply okp_app; [exact O1|exact O2|]]; destruct l2; [exact Logic.I|left; exact S2]|].
      split; [reflexivity|]. intros n m E D rest Hn Hm. rewrite toks_sp, toks_app in *. rewrite app_length in Hn, Hm. rewrite <- app_assoc.
      assert (L1 : 1 <= List.length (toks l1)) by (rewrite S1; cbn; lia). destruct m as [|m]; [lia|].
      rewrite (seq_step _ m (E, D) _ v (v :: E, D) (toks l2 ++ KClose :: rest)); [|rewrite S1; exact Logic.I|apply P1; lia].
      rewrite P2 by lia. cbn [obind rev]. rewrite <- app_assoc. reflexivity.
  Qed.
  Lemma svar_paren vs : forallb rsv vs = true -> vs <> [] -> exists l, (forall ind, p_paren p_svar vs ind = ROk (lp :: l ++ [rp], ind)) /\ okp l /\
    (forall n m E D rest, 2 * List.length (toks l) <= n -> List.length (toks l) <= m ->
      seq1 (sorted_var (parse' n MSort)) m (E, D) (toks l ++ KClose :: rest) = ROk (vs, (rev vs ++ E, D), rest)) /\
    (List.length vs = 1 -> forall n E D rest, 2 * List.length (toks l) <= n ->
      exists v, vs = [v] /\ sorted_var (parse' n MSort) (E, D) (toks l ++ KClose :: rest) = ROk (v, (v :: E, D), KClose :: rest)).
  Proof.
    intros H Hne. destruct vs as [|v vs]; [congruence|]. cbn [forallb] in H. apply andb_true_iff in H. destruct H as [H1 H2].
    destruct (svar_spec v H1) as [l1 [E1 [O1 [[tl S1] P1]]]]. destruct (svar_tail vs H2) as [l2 [E2 [O2 [S2 P2]]]].
    exists (l1 ++ l2). split; [intros ind; cbn [p_paren]; rewrite E1; cbn [obind fst snd]; rewrite E2; cbn [obind fst snd]; rewrite <- app_assoc; reflexivity|].
    split; [apply okp_app; [exact O1|exact O2|]; destruct l2; [exact Logic.I|left; exact S2]|]. rewrite toks_app.
    assert (L1 : 1 <= List.length (toks l1)) by (rewrite S1; cbn; lia). split.
    - intros n m E D rest Hn Hm. rewrite app_length in Hn, Hm. rewrite <- app_assoc. destruct m as [|m]; [lia|].
      apply seq1_nonempty; [|discriminate]. rewrite (seq_step _ m (E, D) _ v (v :: E, D) (toks l2 ++ KClose :: rest)); [|rewrite S1; exact Logic.I|apply P1; lia].
      rewrite P2 by lia. cbn [obind rev]. rewrite <- app_assoc. reflexivity.
    - intros Hl n E D rest Hn. destruct vs as [|? ?]; [|discriminate Hl]. exists v. split; [reflexivity|].
      specialize (E2 []). cbn in E2. injection E2 as <-. cbn [toks flat_map]. rewrite app_nil_r in *. apply P1. lia.
  Qed.

  (** ** Terms *)
  Definition p_bind (v : string * term) (ind : list term) : outcome (list piece * list term) :=
    do q <- p_sym (fst v) ; do s <- p_term share (snd v) ind ; ROk (lp :: q :: sp :: fst s ++ [rp], snd s).
  Definition p_raw (t : term) (ind : list term) : outcome (list piece * list term) :=
    match t with
    | TConst c => ROk (p_const c, ind)
    | TVar x _ => do q <- p_sym x ; ROk ([q], ind)
    | TApp f args => do x <- p_term share f ind ; do y <- p_tail_st (p_term share) args (snd x) ; ROk (lp :: fst x ++ fst y ++ [rp], snd y)
    | TOp o [] => ROk ([kw (op_name o)], ind)
    | TOp o args => do y <- p_tail_st (p_term share) args ind ; ROk (lp :: kw (op_name o) :: fst y ++ [rp], snd y)
    | TSort s => do x <- p_sort s ; ROk (x, ind)
    | TBind b vs body => do x <- p_paren p_svar vs ind ; do y <- p_term share body (snd x) ;
        ROk (lp :: kw (binder_name b) :: sp :: fst x ++ sp :: fst y ++ [rp], snd y)
    | TLet bs body => do x <- p_paren p_bind bs ind ; do y <- p_term share body (snd x) ;
        ROk (lp :: kw "let" :: sp :: fst x ++ sp :: fst y ++ [rp], snd y)
    | TPOp o oargs args =>
        do x <- p_tail_st (p_term share) oargs ind ;
        match args with
        | [] => ROk (lp :: kw "_" :: sp :: kw (pop_name o) :: fst x ++ [rp], snd x)
        | _ => do y <- p_tail_st (p_term share) args (snd x) ;
               ROk (lp :: lp :: kw "_" :: sp :: kw (pop_name o) :: fst x ++ rp :: fst y ++ [rp], snd y)
        end
    end.
  Lemma p_term_eq t ind : p_term share t ind =
    if shareable share t then
      match index_of t ind with
      | Some i => ROk ([word (share_name i)], ind)
      | None =>
          do x <- p_raw t (ind ++ [t]) ;
          ROk (lp :: kw "!" :: sp :: fst x ++ [sp; (chars ":named", Some (KKey (chars "named"))); sp; word (share_name (List.length ind)); rp], snd x)
      end
    else p_raw t ind.
  Proof. destruct t as [| | | o []| | | | ]; reflexivity. Qed.

  (** what is claimed of the printed pieces of a term *)
  Definition Good (t : term) (E : venv) (D : defs) (l : list piece) (D' : defs) : Prop :=
    okp l /\ starts l /\
    (forall n rest, 2 * List.length (toks l) <= n -> parse' n MTerm E D (toks l ++ rest) = ROk (t, D', rest)) /\
    (forall tl, toks l = KOpen :: tl -> forall n rest, 2 * List.length (toks l) <= S n -> parse' n MApp E D (tl ++ rest) = ROk (t, D', rest)).
  (** heads of applications *)
  Definition Head (t : term) (l : list piece) : Prop :=
    match sort_of t with
    | SFun _ => (exists x s, t = TVar x s /\ toks l = [KSym (chars x)]) \/
        exists tl, toks l = KOpen :: tl /\ match tl with [] => False | KRes w :: _ => text_eqb w (chars "_") = false /\ text_eqb w (chars "as") = false | _ => True end
    | _ => True
    end.
  Definition Raw (t : term) : Prop := forall E ind D, rterm E t = true -> Agree D -> Inv (tsize t - 1) ind D ->
    exists l ind' D', p_raw t ind = ROk (l, ind') /\ Ext (tsize t - 1) ind D ind' D' /\ Good t E D l D' /\ Head t l.
  Definition Spec (t : term) : Prop := forall E ind D k, rterm E t = true -> Agree D -> Inv k ind D -> tsize t <= k ->
    exists l ind' D', p_term share t ind = ROk (l, ind') /\ Ext (tsize t) ind D ind' D' /\ Good t E D l D' /\ (shareable share t = false -> Head t l).
  Lemma tsize_pos t : 1 <= tsize t.
  Proof. destruct t; cbn; lia. Qed.
  Lemma inv_mono k k' ind D : k' <= k -> Inv k ind D -> Inv k' ind D.
  Proof. intros Hk H i u Hu Hs. apply H; [exact Hu|lia]. Qed.
  Lemma tail_ext_Forall {P : Prop} (H : P) : P. Proof. exact H. Qed.

  Lemma app_open n E D ts t D' rest : (forall tl, ts = KOpen :: tl -> parse' n MApp E D (tl ++ rest) = ROk (t, D', rest)) ->
    (exists tl, ts = KOpen :: tl) -> parse' (S n) MTerm E D (ts ++ rest) = ROk (t, D', rest).
  Proof. intros H [tl ->]. cbn [parse app]. unfold term_body. apply H. reflexivity. Qed.
  (** a term in parentheses: what the parser does after the parenthesis is enough *)
  Lemma good_open t E D l D' tl : okp l -> toks l = KOpen :: tl ->
    (forall n rest, 2 * List.length tl + 1 <= n -> parse' n MApp E D (tl ++ rest) = ROk (t, D', rest)) -> Good t E D l D'.
  Proof.
    intros Ho Et H. split; [exact Ho|]. split; [unfold starts; rewrite Et; exact Logic.I|]. split.
    - intros n rest Hn. rewrite Et in *. cbn [List.length] in Hn. destruct n as [|n]; [lia|]. cbn [app parse]. unfold term_body. apply H. lia.
    - intros tl' Et' n rest Hn. rewrite Et in Et'. injection Et' as <-. apply H. rewrite Et in Hn. cbn [List.length] in Hn. lia.
  Qed.

  Lemma raw_spec t : Raw t -> Spec t.
  Proof.
    intros HR E ind D k Hr HA HI Hk. pose proof (tsize_pos t) as Hp. rewrite p_term_eq. destruct (shareable share t) eqn:Es.
    - destruct (index_of t ind) as [i|] eqn:Ei.
      + rewrite share_key. eexists _, ind, D. split; [reflexivity|]. split; [apply ext_refl|]. split; [|discriminate].
        rewrite <- share_key. split; [apply word_okp; [apply share_word|exact Logic.I|exact Logic.I]|]. rewrite share_key.
        split; [exact Logic.I|]. split.
        * intros n rest Hn. cbn [toks flat_map snd app List.length] in *. destruct n as [|n]; [lia|]. cbn [parse]. unfold term_body.
          fold (skey i). rewrite (HI i t (index_nth _ _ _ Ei) Hk). reflexivity.
        * intros tl Et. discriminate Et.
      + destruct (HR E (ind ++ [t]) D Hr HA) as [l [ind' [D' [El [X [[Ol [Sl [Pl _]]] _]]]]]].
        { intros i u Hu Hs. destruct (Nat.lt_ge_cases i (List.length ind)) as [Hlt|Hge].
          - rewrite nth_error_app1 in Hu by exact Hlt. apply HI; [exact Hu|lia].
          - rewrite nth_error_app2 in Hu by exact Hge. destruct (i - List.length ind) as [|j]; cbn in Hu; [injection Hu as <-; lia|destruct j; discriminate]. }
        rewrite El. cbn [obind fst snd]. rewrite share_key. set (i := List.length ind) in *.
        eexists _, ind', ((skey i, ([], t)) :: D'). split; [reflexivity|]. split; [|split; [|discriminate]].
        * destruct X as [[new [En Fn]] Xo Xd]. rewrite app_length in *. cbn [List.length] in *. fold i in Xo, Xd. constructor.
          -- exists (t :: new). split; [rewrite En, <- app_assoc; reflexivity|]. constructor; [lia|]. eapply Forall_impl; [|exact Fn]. cbn beta. intros u Hu. lia.
          -- intros x Hx. cbn [assoc]. destruct (String.eqb_spec x (skey i)) as [->|Hne].
             ++ exfalso. apply (Hx i); [|reflexivity]. rewrite En, !app_length. cbn [List.length]. fold i. lia.
             ++ apply Xo. intros j Hj. apply Hx. lia.
          -- intros j u Hj Hu. cbn [assoc]. destruct (String.eqb_spec (skey j) (skey i)) as [Ej|Hne].
             ++ apply skey_inj in Ej. subst j. rewrite En in Hu. rewrite <- app_assoc in Hu. rewrite nth_error_app2 in Hu by (fold i; lia). fold i in Hu. rewrite Nat.sub_diag in Hu. cbn in Hu. injection Hu as <-. reflexivity.
             ++ apply Xd; [|exact Hu]. assert (j <> i) by congruence. lia.
        * apply (good_open _ _ _ _ _ (KRes (chars "!") :: toks l ++ [KKey (chars "named"); KSym (share_name i); KClose])).
          -- rewrite <- share_key. apply okp_par; [apply par_lp|]. apply word_okp; [reflexivity|apply par_sp|]. apply okp_par; [apply par_sp|].
             apply okp_app; [exact Ol| |apply par_sp]. apply okp_par; [apply par_sp|]. apply okp_atom; [apply named_atom|apply par_sp|].
             apply okp_par; [apply par_sp|]. apply word_okp; [apply share_word|apply par_rp|]. apply okp_par; [apply par_rp|exact Logic.I].
          -- rewrite toks_lp. change (kw "!") with (chars "!", Some (KRes (chars "!"))). rewrite toks_cons, toks_sp, toks_app. reflexivity.
          -- intros n rest Hn. cbn [List.length] in Hn. rewrite app_length in Hn. cbn [List.length] in Hn. destruct n as [|n]; [lia|].
             cbn [app parse]. unfold app_body, reserved_app. change (text_eqb (chars "!") (chars "_")) with false. change (text_eqb (chars "!") (chars "as")) with false.
             change (text_eqb (chars "!") (chars "exists")) with false. change (text_eqb (chars "!") (chars "forall")) with false.
             change (text_eqb (chars "!") (chars "choice")) with false. change (text_eqb (chars "!") (chars "lambda")) with false.
             change (text_eqb (chars "!") (chars "!")) with true. cbv iota. unfold annotated. rewrite <- app_assoc. rewrite Pl by lia. cbn [obind app].
             destruct n as [|[|n]]; [lia|lia|]. unfold seq1. cbn [seq attribute]. change (text_eqb (chars "named") (chars "named")) with true. cbv iota.
             cbn [expect_symbol obind fst snd]. reflexivity.
    - destruct (HR E ind D Hr HA (inv_mono k (tsize t - 1) ind D ltac:(lia) HI)) as [l [ind' [D' [El [X [G H]]]]]].
      exists l, ind', D'. split; [exact El|]. split; [apply (ext_mono (tsize t - 1)); [lia|exact X]|]. split; [exact G|intros _; exact H].
  Qed.

  Lemma spec_e a E sz : Spec a -> rterm E a = true -> tsize a <= sz -> ESpec (p_term share) (fun n => parse' n MTerm E) sz a.
  Proof.
    intros HS Hr Hs ind D k HA HI Hk. destruct (HS E ind D k Hr HA HI ltac:(lia)) as [l [ind' [D' [El [X [[O [S1 [P _]]] _]]]]]].
    exists l, ind', D'. split; [exact El|]. split; [exact (ext_mono _ _ _ _ _ _ Hs X)|]. split; [exact O|]. split; [exact S1|exact P].
  Qed.
  Lemma sum_in {A} (g : A -> nat) (l : list A) a : In a l -> g a <= list_sum (map g l).
  Proof. induction l as [|b l IH]; cbn; [tauto|]. intros [->|H]; [lia|]. specialize (IH H). unfold list_sum in *. lia. Qed.
  Lemma spec_args args E sz : Forall Spec args -> forallb (rterm E) args = true -> list_sum (map tsize args) <= sz ->
    Forall (ESpec (p_term share) (fun n => parse' n MTerm E) sz) args.
  Proof.
    intros HS Hr Hs. apply Forall_forall. intros a Ha. apply spec_e; [exact (proj1 (Forall_forall _ _) HS a Ha)|exact (proj1 (forallb_forall _ _) Hr a Ha)|].
    pose proof (sum_in tsize args a Ha). lia.
  Qed.
  Lemma sp_delim l : match l with [] => True | x :: _ => x = sp end -> forall r, hd_delim r -> hd_delim (l ++ r).
  Proof. destruct l as [|x l]; cbn; [auto|]. intros -> r _. apply par_sp. Qed.
  Lemma okp_rp : okp [rp]. Proof. apply okp_par; [apply par_rp|exact Logic.I]. Qed.
  Ltac ands H := repeat match type of H with (_ && _)%bool = true => let H' := fresh H in apply andb_true_iff in H; destruct H as [H H'] end.

  Lemma parse_int_N n : parse_int (print_N n) = Some (Z.of_N n).
  Proof.
    assert (Hf : forall l (p : N -> bool), forallb is_digit l = true -> (forall c, is_digit c = true -> p c = true) -> filter p l = l).
    { induction l as [|c l IH]; cbn; [auto|]. intros p H Hp. apply andb_true_iff in H. destruct H as [H1 H2]. rewrite (Hp c H1), (IH p H2 Hp). reflexivity. }
    unfold parse_int. pose proof (print_N_digits n) as Hd. pose proof (print_N_val n) as Hv. rewrite Hf by (exact Hd || (intros c Hc; unfold is_digit, memN in *; cbn; lia)).
    destruct (print_N_nonempty n) as [c [l El]]. rewrite El in *. cbn [forallb] in Hd. apply andb_true_iff in Hd. destruct Hd as [Hc Hl].
    assert (E1 : (match c :: l with 45%N :: r => (true, r) | 43%N :: r => (false, r) | _ => (false, c :: l) end) = (false, c :: l)).
    { unfold is_digit in Hc. destruct c as [|p]; [reflexivity|]. do 6 (destruct p as [p|p|]; try reflexivity); cbn in Hc; try discriminate Hc; destruct p; try discriminate Hc; reflexivity. }
    rewrite E1. cbv iota beta. rewrite Hc. cbn [andb].
    replace (forallb (fun c0 => is_digit c0 || N.eqb c0 95) l) with true.
    - rewrite Hf by (exact Hl || (intros d Hd; unfold is_digit in *; lia)). rewrite Hv. reflexivity.
    - symmetry. apply forallb_forall. intros d Hd. rewrite (proj1 (forallb_forall _ _) Hl d Hd). reflexivity.
  Qed.
  Lemma bv_word n : word_ok (chars "bv" ++ print_N n) = true /\ is_reserved (chars "bv" ++ print_N n) = false /\
    prefix "bv" (string_of (chars "bv" ++ print_N n)) = true /\ skipn 2 (chars (string_of (chars "bv" ++ print_N n))) = print_N n.
  Proof.
    pose proof (print_N_digits n) as H. revert H. generalize (print_N n). intros l Hl. split; [|split; [|split]].
    - cbn [chars app word_ok]. cbn -[forallb is_sym]. cbn [forallb]. rewrite (digits_sym l Hl). reflexivity.
    - destruct l; reflexivity.
    - cbn. destruct (string_of l); reflexivity.
    - rewrite chars_string; [reflexivity|]. rewrite forallb_app. apply andb_true_iff. split; [reflexivity|].
      apply forallb_forall. intros c Hc. pose proof (proj1 (forallb_forall _ _) Hl c Hc) as Hd. unfold is_digit in Hd. lia.
  Qed.

  Lemma good_atom t E D p k : atom p k -> match k with KClose | KOpen => False | _ => True end ->
    (forall n rest, parse' (S n) MTerm E D (k :: rest) = ROk (t, D, rest)) -> Good t E D [(p, Some k)] D.
  Proof.
    intros Ha Hk H. split; [apply okp_atom; [exact Ha|exact Logic.I|exact Logic.I]|]. rewrite toks_cons. cbn [toks flat_map].
    split; [unfold starts; cbn; destruct k; tauto|]. split; [|intros tl Et; injection Et as ->; contradiction].
    intros n rest Hn. cbn in Hn. destruct n as [|n]; [lia|]. apply H.
  Qed.

  Lemma raw_const c : Raw (TConst c).
  Proof.
    intros E ind D Hr HA HI. exists (p_const c), ind, D. split; [reflexivity|]. split; [apply ext_refl|].
    split; [|unfold Head; destruct c; exact Logic.I]. destruct c as [z|q|s|v w]; cbn [rterm p_const] in *.
    - apply negb_true_iff in Hr. apply good_atom; [split; [discriminate|apply next_Z]|exact Logic.I|]. intros n rest. apply num_term. exact Hr.
    - assert (Eq : Qred q = q). { ands Hr. apply Z.eqb_eq in Hr. apply Pos.eqb_eq in Hr0. destruct (Qred q), q; cbn in *. congruence. }
      rewrite Eq. apply good_atom; [split; [discriminate|]|exact Logic.I|reflexivity]. intros rest Hd. rewrite next_real by exact Hd. rewrite Eq. reflexivity.
    - apply good_atom; [split; [discriminate|intros rest Hd; apply str_next; assumption]|exact Logic.I|reflexivity].
    - ands Hr. apply negb_true_iff in Hr. assert (Ev : print_Z v = print_N (Z.to_N v)) by (destruct v; [reflexivity|reflexivity|lia]). rewrite Ev.
      destruct (bv_word (Z.to_N v)) as [B1 [B2 [B3 B4]]]. set (s := chars "bv" ++ print_N (Z.to_N v)) in *.
      assert (Ew : word s = (s, Some (KSym s))) by (unfold word; rewrite B2; reflexivity).
      apply (good_open _ _ _ _ _ [KRes (chars "_"); KSym s; KNum (Z.of_N (N.of_nat w)); KClose]).
      + apply okp_par; [apply par_lp|]. apply word_okp; [reflexivity|apply par_sp|]. apply okp_par; [apply par_sp|].
        apply word_okp; [exact B1|apply par_sp|]. apply okp_par; [apply par_sp|]. apply okp_atom; [apply nat_atom|apply par_rp|apply okp_rp].
      + rewrite Ew. reflexivity.
      + intros n rest Hn. cbn [List.length] in Hn. destruct n as [|[|n]]; [lia|lia|]. cbn [app]. 
        change (parse' (S (S n)) MApp E D (KRes (chars "_") :: KSym s :: KNum (Z.of_N (N.of_nat w)) :: KClose :: rest))
          with (do x <- indexed (parse' (S n) MTerm) (S n) E D (KSym s :: KNum (Z.of_N (N.of_nat w)) :: KClose :: rest) ;
                let '(o, zs, D1, r1) := x in ret D1 r1 (make_indexed_op o zs [])).
        unfold indexed. cbn [expect_symbol obind]. rewrite B3, B4, parse_int_N. unfold ints. rewrite (num_seq n n E D _ rest Hr). cbn [obind].
        change (omap (fun t => ok_or (as_signed_integer t)) [TConst (CInt (Z.of_N (N.of_nat w)))]) with (ROk [Z.of_N (N.of_nat w)]); cbn [obind]. unfold make_indexed_op. cbn [map].
        rewrite nat_N_Z, (to_usize_ok _ Hr0). cbn [obind]. rewrite Z2N.id by lia. replace (Z.leb 0 v) with true by lia. replace (Z.leb 1 (Z.of_nat w)) with true by lia. reflexivity.
  Qed.
  Lemma raw_var x s : Raw (TVar x s).
  Proof.
    intros E ind D Hr HA HI. cbn [rterm] in Hr. unfold rvar in Hr. ands Hr. destruct (p_sym_ok _ Hr) as [q [Eq Aq]].
    exists [(q, Some (KSym (chars x)))], ind, D. split; [cbn [p_raw]; rewrite Eq; reflexivity|]. split; [apply ext_refl|].
    split; [|unfold Head; destruct (sort_of _); try exact Logic.I; left; exists x, s; split; reflexivity].
    apply good_atom; [exact Aq|exact Logic.I|]. intros n rest. cbn [parse]. unfold term_body. rewrite string_chars. apply negb_true_iff in Hr1.
    rewrite (HA x Hr1). destruct (assoc x D0); [discriminate|]. destruct (op_of x); [discriminate|].
    destruct (assoc x E) as [s'|]; [|discriminate]. apply sort_eqb_eq in Hr0. subst. reflexivity.
  Qed.
  Lemma seq1_args E D n m l args D' rest : (forall n m rest, 2 * List.length (toks l) <= n -> List.length (toks l) <= m ->
      seq (parse' n MTerm E) m D (toks l ++ KClose :: rest) = ROk (args, D', rest)) -> args <> [] ->
    2 * List.length (toks l) <= n -> List.length (toks l) <= m -> seq1 (parse' n MTerm E) m D (toks l ++ KClose :: rest) = ROk (args, D', rest).
  Proof. intros H Hne Hn Hm. apply seq1_nonempty; [apply H; assumption|exact Hne]. Qed.
  Lemma make_app_ok f args : app_ok f args = true -> make_app f args = ROk (TApp f args).
  Proof. unfold app_ok, make_app. destruct (sort_of f); try discriminate. intros ->. reflexivity. Qed.

  Lemma raw_app f args : Spec f -> Forall Spec args -> Raw (TApp f args).
  Proof.
    intros HSf HSa E ind D Hr HA HI. cbn [rterm] in Hr. ands Hr. cbn [tsize] in *. unfold rhead in Hr1. ands Hr1. apply negb_true_iff in Hr1.
    set (k := S (tsize f + list_sum (map tsize args)) - 1) in *.
    destruct (HSf E ind D k Hr3 HA HI ltac:(unfold k; lia)) as [lf [ind1 [D1 [Ef [X1 [[Of [Sf [Pf Af]]] Hf]]]]]].
    specialize (Hf Hr1). assert (X1' : Ext k ind D ind1 D1) by (apply (ext_mono (tsize f)); [unfold k; lia|exact X1]).
    destruct (tail_spec _ _ k args (spec_args args E k HSa Hr2 ltac:(unfold k; lia)) ind1 D1 k (ext_agree _ _ _ _ _ HA X1) (ext_inv _ _ _ _ _ _ HI X1) (le_n k))
      as [la [ind2 [D2 [Ea [X2 [Oa [Sa Pa]]]]]]].
    exists (lp :: lf ++ la ++ [rp]), ind2, D2. split; [cbn [p_raw]; rewrite Ef; cbn [obind fst snd]; rewrite Ea; reflexivity|].
    split; [exact (ext_trans _ _ _ _ _ _ _ X1' X2)|].
    assert (Et : toks (lp :: lf ++ la ++ [rp]) = KOpen :: toks lf ++ toks la ++ [KClose]) by (rewrite toks_lp, !toks_app; reflexivity).
    assert (Hs : exists ss, sort_of f = SFun ss) by (unfold app_ok in Hr0; destruct (sort_of f); try discriminate; eauto). destruct Hs as [ss Hs].
    unfold Head in Hf. rewrite Hs in Hf. assert (Hne : args <> []) by (destruct args; [discriminate Hr|discriminate]).
    split.
    - apply (good_open _ _ _ _ _ (toks lf ++ toks la ++ [KClose])); [|exact Et|].
      + apply okp_par; [apply par_lp|]. apply okp_app; [exact Of|apply okp_app; [exact Oa|apply okp_rp|apply par_rp]|]. apply sp_delim; [exact Sa|apply par_rp].
      + intros n rest Hn. rewrite !app_length in Hn. cbn [List.length] in Hn. destruct n as [|n]; [lia|]. rewrite <- !app_assoc. cbn [app].
        assert (Ha : forall f0, f0 = ROk (f, D1, toks la ++ KClose :: rest) -> app_args (parse' n MTerm) n E f0 = ROk (TApp f args, D2, rest)).
        { intros f0 ->. unfold app_args. cbn [obind]. rewrite (seq1_args E D1 n n la args D2 rest Pa Hne) by lia. cbn [obind]. rewrite (make_app_ok _ _ Hr0). reflexivity. }
        change (parse' (S n) MApp E D) with (app_body cf (parse' n MTerm) (parse' n MApp) (parse' n MSort) n E D).
        destruct Hf as [[x [s [-> Ex]]]|[tl [Etl Hw]]].
        * rewrite Ex in *. cbn [app app_body]. unfold symbol_app. rewrite string_chars. cbn [rterm] in Hr3. unfold rvar in Hr3. ands Hr3. apply negb_true_iff in Hr6.
          destruct (op_of x) eqn:Eo; [discriminate|]. apply negb_true_iff in Hr4. rewrite Hr4. rewrite (HA x Hr6).
          destruct (assoc x D0); [discriminate|]. apply Ha. apply (Pf n (toks la ++ KClose :: rest)). cbn [List.length] in *. lia.
        * specialize (Af tl Etl n (toks la ++ KClose :: rest)). rewrite Etl in *. cbn [List.length app] in *.
          destruct tl as [|[] tl]; [contradiction Hw|..]; cbn [app app_body] in *; try (apply Ha; apply Af; lia).
          destruct Hw as [W1 W2]. rewrite W1, W2. apply Ha. apply Af. lia.
    - unfold Head. match goal with |- match ?x with _ => _ end => destruct x end; try exact Logic.I. right. exists (toks lf ++ toks la ++ [KClose]). split; [exact Et|].
      destruct Hf as [[x [s [-> Ex]]]|[tl [Etl Hw]]]; [rewrite Ex|rewrite Etl]; exact Logic.I.
  Qed.

  Lemma op_nil_sort o : op_ok cf o [] = true -> match sort_of (TOp o []) with SFun _ => False | _ => True end.
  Proof. unfold op_ok. intros H. apply andb_true_iff in H. destruct H as [H _]. destruct o; try discriminate H; exact Logic.I. Qed.
  Lemma make_op_ok o args : rop o args = true -> o <> ODelete \/ args <> [] -> make_op cf o args = ROk (TOp o args).
  Proof.
    unfold rop, make_op. intros H Hd. ands H. rewrite H.
    replace (op_eqb o ODelete && Nat.eqb (List.length args) 0) with false.
    - destruct o; try reflexivity. destruct args as [|a [|b args]]; try reflexivity. destruct (div_lit cf a b); [discriminate|reflexivity].
    - symmetry. apply andb_false_iff. destruct Hd as [Hd|Hd]; [left|right; destruct args; [congruence|reflexivity]].
      destruct (op_eqb o ODelete) eqn:Eo; [|reflexivity]. apply op_eqb_eq in Eo. congruence.
  Qed.
  Lemma raw_op o args : Forall Spec args -> Raw (TOp o args).
  Proof.
    intros HS E ind D Hr HA HI. destruct args as [|a args].
    - cbn [rterm] in Hr. ands Hr. apply negb_true_iff in Hr1.
      assert (Ho : o <> OCl) by (intros ->; discriminate Hr).
      exists [kw (op_name o)], ind, D. split; [reflexivity|]. split; [apply ext_refl|]. split.
      + rewrite (op_tok o Ho). pose proof (word_atom _ (op_word o)) as Ha. pose proof (op_tok o Ho) as Et. unfold kw, word in Et. injection Et as Et. rewrite Et in Ha.
        apply good_atom; [exact Ha|exact Logic.I|]. intros n rest. cbn [parse]. unfold term_body. rewrite string_chars, (HA _ Hr1).
        destruct (assoc (op_name o) D0); [discriminate|]. rewrite op_of_name. rewrite make_op_ok; [reflexivity| |].
        * unfold rop. cbn [map]. rewrite Hr0. destruct o; reflexivity.
        * left. intros ->. discriminate Hr0.
      + unfold Head. pose proof (op_nil_sort o Hr0). destruct (sort_of (TOp o [])); tauto.
    - cbn [rterm] in Hr. ands Hr. set (k := tsize (TOp o (a :: args)) - 1) in *.
      change (rterm E a && forallb (rterm E) args) with (forallb (rterm E) (a :: args)) in Hr.
      destruct (tail_spec _ _ k (a :: args) (spec_args (a :: args) E k HS Hr ltac:(unfold k; cbn [tsize]; lia)) ind D k HA HI (le_n k))
        as [la [ind2 [D2 [Ea [X2 [Oa [Sa Pa]]]]]]].
      exists (lp :: kw (op_name o) :: la ++ [rp]), ind2, D2. split; [cbn [p_raw]; rewrite Ea; reflexivity|]. split; [exact X2|].
      assert (Ok1 : okp (lp :: kw (op_name o) :: la ++ [rp])).
      { apply okp_par; [apply par_lp|]. apply word_okp; [apply op_word|apply sp_delim; [exact Sa|apply par_rp]|]. apply okp_app; [exact Oa|apply okp_rp|apply par_rp]. }
      pose proof (make_op_ok o (a :: args) Hr0 ltac:(right; discriminate)) as Hm.
      destruct (op_eqb o OCl) eqn:Ec.
      + apply op_eqb_eq in Ec. subst o. split; [|unfold Head; exact Logic.I].
        apply (good_open _ _ _ _ _ (KRes (chars "cl") :: toks la ++ [KClose])); [exact Ok1| |].
        * rewrite toks_lp. change (kw (op_name OCl)) with (chars "cl", Some (KRes (chars "cl"))). rewrite toks_cons, toks_app. reflexivity.
        * intros n rest Hn. cbn [List.length] in Hn. rewrite app_length in Hn. cbn [List.length] in Hn. destruct n as [|n]; [lia|]. cbn [app]. rewrite <- app_assoc. cbn [app].
          change (parse' (S n) MApp E D (KRes (chars "cl") :: toks la ++ KClose :: rest)) with
            (do x <- seq (parse' n MTerm E) n D (toks la ++ KClose :: rest) ; let '(l, D1, r1) := x in ret D1 r1 (make_op cf OCl l)).
          rewrite Pa by lia. cbn [obind]. rewrite Hm. reflexivity.
      + assert (Ho : o <> OCl) by (intros ->; discriminate Ec). rewrite (op_tok o Ho) in *.
        assert (Et : toks (lp :: (chars (op_name o), Some (KSym (chars (op_name o)))) :: la ++ [rp]) = KOpen :: KSym (chars (op_name o)) :: toks la ++ [KClose])
          by (rewrite toks_lp, toks_cons, toks_app; reflexivity).
        split.
        * apply (good_open _ _ _ _ _ (KSym (chars (op_name o)) :: toks la ++ [KClose])); [exact Ok1|exact Et|].
          intros n rest Hn. cbn [List.length] in Hn. rewrite app_length in Hn. cbn [List.length] in Hn. destruct n as [|n]; [lia|]. cbn [app]. rewrite <- app_assoc. cbn [app].
          change (parse' (S n) MApp E D) with (app_body cf (parse' n MTerm) (parse' n MApp) (parse' n MSort) n E D). cbn [app_body]. unfold symbol_app.
          rewrite string_chars, op_of_name. rewrite (seq1_args E D n n la (a :: args) D2 rest Pa ltac:(discriminate)) by lia. cbn [obind]. rewrite Hm. reflexivity.
        * unfold Head. match goal with |- match ?x with _ => _ end => destruct x end; try exact Logic.I. right. eexists. split; [exact Et|exact Logic.I].
  Qed.

  Lemma raw_bind b vs body : Spec body -> Raw (TBind b vs body).
  Proof.
    intros HS E ind D Hr HA HI. cbn [rterm] in Hr. ands Hr. cbn [tsize] in *. set (k := S (tsize body) - 1) in *.
    assert (Hne : vs <> []) by (destruct vs; [discriminate Hr|discriminate]).
    destruct (svar_paren vs Hr2 Hne) as [lv [Ev [Ov [Pv Pc]]]].
    destruct (HS (rev vs ++ E) ind D k Hr1 HA HI ltac:(unfold k; lia)) as [l [ind1 [D1 [El [X [[Ol [Sl [Pl _]]] _]]]]]].
    exists (lp :: kw (binder_name b) :: sp :: (lp :: lv ++ [rp]) ++ sp :: l ++ [rp]), ind1, D1.
    split; [cbn [p_raw]; rewrite Ev; cbn [obind fst snd]; rewrite El; reflexivity|]. split; [apply (ext_mono (tsize body)); [unfold k; lia|exact X]|].
    assert (Et : toks (lp :: kw (binder_name b) :: sp :: (lp :: lv ++ [rp]) ++ sp :: l ++ [rp])
      = KOpen :: KRes (chars (binder_name b)) :: KOpen :: toks lv ++ KClose :: toks l ++ [KClose]).
    { rewrite toks_lp. replace (kw (binder_name b)) with (chars (binder_name b), Some (KRes (chars (binder_name b)))) by (destruct b; reflexivity).
      rewrite toks_cons, toks_sp. cbn [app]. rewrite toks_lp, !toks_app, toks_sp, toks_app, <- !app_assoc. reflexivity. }
    split.
    - apply (good_open _ _ _ _ _ (KRes (chars (binder_name b)) :: KOpen :: toks lv ++ KClose :: toks l ++ [KClose])); [|exact Et|].
      + apply okp_par; [apply par_lp|]. apply word_okp; [destruct b; reflexivity|apply par_sp|]. apply okp_par; [apply par_sp|]. cbn [app]. apply okp_par; [apply par_lp|].
        rewrite <- app_assoc. apply okp_app; [exact Ov| |apply par_rp]. cbn [app]. apply okp_par; [apply par_rp|]. apply okp_par; [apply par_sp|].
        apply okp_app; [exact Ol|apply okp_rp|apply par_rp].
      + intros n rest Hn. cbn [List.length] in Hn. rewrite app_length in Hn. cbn [List.length] in Hn. rewrite app_length in Hn. cbn [List.length] in Hn.
        destruct n as [|n]; [lia|]. cbn [app]. rewrite <- app_assoc. cbn [app]. rewrite <- app_assoc. cbn [app].
        assert (Er : parse' (S n) MApp E D (KRes (chars (binder_name b)) :: KOpen :: toks lv ++ KClose :: toks l ++ KClose :: rest)
          = binder_term (parse' n MTerm) (parse' n MSort) n b E D (KOpen :: toks lv ++ KClose :: toks l ++ KClose :: rest)) by (destruct b; reflexivity).
        rewrite Er. unfold binder_term. cbn [expect is_open obind].
        assert (Eb : bound_vars (parse' n MSort) n b E D (toks lv ++ KClose :: toks l ++ KClose :: rest) = ROk (vs, (rev vs ++ E, D), toks l ++ KClose :: rest)).
        { destruct b; unfold bound_vars; try (apply Pv; lia).
          destruct (Pc (proj1 (Nat.eqb_eq _ _) Hr3) n E D (toks l ++ KClose :: rest) ltac:(lia)) as [v [-> Ec]]. rewrite Ec. reflexivity. }
        rewrite Eb. cbn [obind fst snd]. rewrite Pl by lia. cbn [obind].
        destruct b; try (rewrite Hr0); reflexivity.
    - unfold Head. match goal with |- match ?x with _ => _ end => destruct x end; try exact Logic.I. right. eexists. split; [exact Et|]. destruct b; split; reflexivity.
  Qed.

  Lemma bind_e E sz v : Spec (snd v) -> name_ok (fst v) = true -> rterm E (snd v) = true -> tsize (snd v) <= sz ->
    ESpec p_bind (fun n => binding (parse' n MTerm) E) sz v.
  Proof.
    intros HS Hn Hr Hs ind D k HA HI Hk. destruct (HS E ind D k Hr HA HI ltac:(lia)) as [l [ind' [D' [El [X [[O [S1 [P _]]] _]]]]]].
    destruct (p_sym_ok _ Hn) as [q [Eq Aq]]. exists (lp :: (q, Some (KSym (chars (fst v)))) :: sp :: l ++ [rp]), ind', D'.
    split; [unfold p_bind; rewrite Eq; cbn [obind]; rewrite El; reflexivity|]. split; [exact (ext_mono _ _ _ _ _ _ Hs X)|].
    split. { apply okp_par; [apply par_lp|]. apply okp_atom; [exact Aq|apply par_sp|]. apply okp_par; [apply par_sp|]. apply okp_app; [exact O|apply okp_rp|apply par_rp]. }
    split; [exact Logic.I|]. intros n rest Hn0. rewrite toks_lp, toks_cons, toks_sp, toks_app, toks_rp in *. cbn [List.length] in Hn0. rewrite app_length in Hn0.
    cbn [toks flat_map app] in *. unfold binding. cbn [expect is_open obind expect_symbol fst snd]. rewrite <- app_assoc. cbn [app]. rewrite P by lia.
    cbn [obind expect is_close]. rewrite string_chars. destruct v. reflexivity.
  Qed.
  Lemma bind_env_eq bs : forall E, bind_env E bs = rev (map (fun v => (fst v, sort_of (snd v))) bs) ++ E.
  Proof. induction bs as [|b bs IH]; intros E; [reflexivity|]. unfold bind_env in *. cbn [fold_left map rev]. rewrite IH, <- app_assoc. reflexivity. Qed.
  Lemma raw_let bs body : Forall (fun v => Spec (snd v)) bs -> Spec body -> Raw (TLet bs body).
  Proof.
    intros HSb HS E ind D Hr HA HI. cbn [rterm] in Hr. ands Hr. apply negb_true_iff in Hr. cbn [tsize] in *. 
    set (k := S (list_sum (map (fun p => tsize (snd p)) bs) + tsize body) - 1) in *.
    assert (Hne : bs <> []) by (destruct bs; [discriminate|discriminate]).
    assert (HF : Forall (ESpec p_bind (fun n => binding (parse' n MTerm) E) k) bs).
    { apply Forall_forall. intros v Hv. pose proof (proj1 (forallb_forall _ _) Hr1 v Hv) as Hv1. cbn beta in Hv1. ands Hv1.
      apply bind_e; [exact (proj1 (Forall_forall _ _) HSb v Hv)|exact Hv1|exact Hv0|]. pose proof (sum_in (fun p => tsize (snd p)) bs v Hv). unfold k. cbn beta in *. lia. }
    destruct (paren_spec _ _ k bs HF Hne ind D k HA HI (le_n k)) as [lv [ind1 [D1 [Ev [X1 [Ov Pv]]]]]].
    destruct (HS (rev (map (fun v => (fst v, sort_of (snd v))) bs) ++ E) ind1 D1 k Hr0 (ext_agree _ _ _ _ _ HA X1) (ext_inv _ _ _ _ _ _ HI X1) ltac:(unfold k; lia))
      as [l [ind2 [D2 [El [X2 [[Ol [Sl [Pl _]]] _]]]]]].
    exists (lp :: kw "let" :: sp :: (lp :: lv ++ [rp]) ++ sp :: l ++ [rp]), ind2, D2.
    split; [cbn [p_raw]; rewrite Ev; cbn [obind fst snd]; rewrite El; reflexivity|].
    split; [apply (ext_trans _ _ _ _ _ _ _ X1); apply (ext_mono (tsize body)); [unfold k; lia|exact X2]|].
    assert (Et : toks (lp :: kw "let" :: sp :: (lp :: lv ++ [rp]) ++ sp :: l ++ [rp])
      = KOpen :: KRes (chars "let") :: KOpen :: toks lv ++ KClose :: toks l ++ [KClose]).
    { rewrite toks_lp. change (kw "let") with (chars "let", Some (KRes (chars "let"))).
      rewrite toks_cons, toks_sp. cbn [app]. rewrite toks_lp, !toks_app, toks_sp, toks_app, <- !app_assoc. reflexivity. }
    split.
    - apply (good_open _ _ _ _ _ (KRes (chars "let") :: KOpen :: toks lv ++ KClose :: toks l ++ [KClose])); [|exact Et|].
      + apply okp_par; [apply par_lp|]. apply word_okp; [reflexivity|apply par_sp|]. apply okp_par; [apply par_sp|]. cbn [app]. apply okp_par; [apply par_lp|].
        rewrite <- app_assoc. apply okp_app; [exact Ov| |apply par_rp]. cbn [app]. apply okp_par; [apply par_rp|]. apply okp_par; [apply par_sp|].
        apply okp_app; [exact Ol|apply okp_rp|apply par_rp].
      + intros n rest Hn. cbn [List.length] in Hn. rewrite app_length in Hn. cbn [List.length] in Hn. rewrite app_length in Hn. cbn [List.length] in Hn.
        destruct n as [|n]; [lia|]. cbn [app]. rewrite <- app_assoc. cbn [app]. rewrite <- app_assoc. cbn [app].
        change (parse' (S n) MApp E D (KRes (chars "let") :: KOpen :: toks lv ++ KClose :: toks l ++ KClose :: rest))
          with (let_term cf (parse' n MTerm) n E D (KOpen :: toks lv ++ KClose :: toks l ++ KClose :: rest)).
        unfold let_term. cbn [expect is_open obind]. rewrite (Pv n n (toks l ++ KClose :: rest)) by lia. cbn [obind]. rewrite bind_env_eq.
        rewrite Pl by lia. cbn [obind expect is_close]. rewrite Hr. reflexivity.
    - unfold Head. match goal with |- match ?x with _ => _ end => destruct x end; try exact Logic.I. right. eexists. split; [exact Et|]. split; reflexivity.
  Qed.
  Lemma indices_map l zs : indices l = Some zs -> l = map (fun z => TConst (CInt z)) zs.
  Proof.
    revert zs. induction l as [|t l IH]; cbn [indices]; intros zs H; [injection H as <-; reflexivity|].
    destruct t as [c| | | | | | | ]; try discriminate H. destruct c; try discriminate H. cbn [index_of_op] in H.
    destruct (indices l) as [zs'|]; [|discriminate H]. injection H as <-. cbn [map]. rewrite (IH zs' eq_refl). reflexivity.
  Qed.
  Lemma omap_ints zs : omap (fun t => ok_or (as_signed_integer t)) (map (fun z => TConst (CInt z)) zs) = ROk zs.
  Proof. induction zs as [|z zs IH]; cbn [map]; [reflexivity|]. cbn [omap]. change (as_signed_integer (TConst (CInt z))) with (Some z). cbn [ok_or obind]. rewrite IH. reflexivity. Qed.
  Lemma make_indexed_shape o zs args x : o <> PBvConst -> make_indexed_op o zs args = ROk x -> x = TPOp o (map (fun z => TConst (CInt z)) zs) args.
  Proof.
    intros Ho H. unfold make_indexed_op, rassert, to_usize in H. destruct o; try congruence;
      repeat match type of H with
             | context [match ?y with _ => _ end] => destruct y; cbn [obind] in H; try discriminate H
             end; injection H as <-; reflexivity.
  Qed.
  Lemma raw_pop o oargs args : Forall Spec oargs -> Forall Spec args -> Raw (TPOp o oargs args).
  Proof.
    intros HSo HSa E ind D Hr HA HI. cbn [rterm] in Hr. ands Hr. unfold rpop in Hr0. destruct (indices oargs) as [zs|] eqn:Ez; [|discriminate].
    ands Hr0. apply negb_true_iff in Hr2. apply negb_true_iff in Hr3.
    destruct (make_indexed_op o zs args) as [x| |] eqn:Em; try discriminate Hr1.
    assert (Ho : o <> PBvConst) by (intros ->; discriminate Hr2). apply make_indexed_shape in Em as Ex; [|exact Ho].
    apply indices_map in Ez. rewrite <- Ez in Ex. subst x.
    assert (Hna : args <> []) by (destruct args; [discriminate|discriminate]). assert (Hno : oargs <> []) by (rewrite Ez; destruct zs; [discriminate|discriminate]).
    set (k := tsize (TPOp o oargs args) - 1) in *.
    assert (Hk : 1 <= k). { unfold k. cbn [tsize]. destruct args as [|a args]; [congruence|]. cbn [map list_sum fold_right]. pose proof (tsize_pos a). unfold list_sum. cbn [fold_right]. lia. }
    assert (HFo : Forall (ESpec (p_term share) (fun n => parse' n MTerm E) k) oargs).
    { apply Forall_forall. intros a Ha. pose proof (proj1 (Forall_forall _ _) HSo a Ha) as HSa0. rewrite Ez in Ha. apply in_map_iff in Ha. destruct Ha as [z [<- _]].
      apply spec_e; [exact HSa0|cbn [rterm]; rewrite Hr3; reflexivity|exact Hk]. }
    destruct (tail_spec _ _ k oargs HFo ind D k HA HI (le_n k)) as [lo [ind1 [D1 [Eo [X1 [Oo [So Po]]]]]]].
    destruct (tail_spec _ _ k args (spec_args args E k HSa Hr ltac:(unfold k; cbn [tsize]; lia)) ind1 D1 k (ext_agree _ _ _ _ _ HA X1) (ext_inv _ _ _ _ _ _ HI X1) (le_n k))
      as [la [ind2 [D2 [Ea [X2 [Oa [Sa Pa]]]]]]].
    destruct (pop_word o) as [Wo [Ro Fo]].
    exists (lp :: lp :: kw "_" :: sp :: kw (pop_name o) :: lo ++ rp :: la ++ [rp]), ind2, D2.
    split. { cbn [p_raw]. rewrite Eo. cbn [obind fst snd]. destruct args as [|a args]; [congruence|]. rewrite Ea. reflexivity. }
    split; [exact (ext_trans _ _ _ _ _ _ _ X1 X2)|].
    assert (Et : toks (lp :: lp :: kw "_" :: sp :: kw (pop_name o) :: lo ++ rp :: la ++ [rp])
      = KOpen :: KOpen :: KRes (chars "_") :: KSym (chars (pop_name o)) :: toks lo ++ KClose :: toks la ++ [KClose]).
    { rewrite (kw_tok _ Ro), !toks_lp. change (kw "_") with (chars "_", Some (KRes (chars "_"))). rewrite toks_cons, toks_sp, toks_cons, toks_app, toks_rp, toks_app. reflexivity. }
    split.
    - apply (good_open _ _ _ _ _ (KOpen :: KRes (chars "_") :: KSym (chars (pop_name o)) :: toks lo ++ KClose :: toks la ++ [KClose])); [|exact Et|].
      + apply okp_par; [apply par_lp|]. apply okp_par; [apply par_lp|]. apply word_okp; [reflexivity|apply par_sp|]. apply okp_par; [apply par_sp|].
        apply word_okp; [exact Wo|apply sp_delim; [exact So|apply par_rp]|]. apply okp_app; [exact Oo| |apply par_rp]. apply okp_par; [apply par_rp|].
        apply okp_app; [exact Oa|apply okp_rp|apply par_rp].
      + intros n rest Hn. cbn [List.length] in Hn. rewrite app_length in Hn. cbn [List.length] in Hn. rewrite app_length in Hn. cbn [List.length] in Hn.
        destruct n as [|n]; [lia|]. cbn [app]. rewrite <- app_assoc. cbn [app]. rewrite <- app_assoc. cbn [app].
        change (parse' (S n) MApp E D (KOpen :: KRes (chars "_") :: KSym (chars (pop_name o)) :: toks lo ++ KClose :: toks la ++ KClose :: rest))
          with (indexed_args (parse' n MTerm) n E D (KSym (chars (pop_name o)) :: toks lo ++ KClose :: toks la ++ KClose :: rest)).
        unfold indexed_args, indexed. cbn [expect_symbol obind]. rewrite string_chars.
        replace (prefix "bv" (pop_name o)) with false by (destruct o; try reflexivity; congruence). rewrite Fo. unfold ints.
        rewrite (seq1_args E D n n lo oargs D1 (toks la ++ KClose :: rest) Po Hno) by lia. cbn [obind]. rewrite Ez, omap_ints. cbn [obind].
        rewrite (seq1_args E D1 n n la args D2 rest Pa Hna) by lia. cbn [obind]. rewrite Em, <- Ez. reflexivity.
    - unfold Head. match goal with |- match ?x with _ => _ end => destruct x end; try exact Logic.I. right. eexists. split; [exact Et|exact Logic.I].
  Qed.
  Theorem term_spec t : Spec t.
  Proof.
    induction t using term_ind'; apply raw_spec.
    - apply raw_const.
    - apply raw_var.
    - apply raw_app; assumption.
    - apply raw_op; assumption.
    - intros E ind D Hr. discriminate Hr.
    - apply raw_bind; assumption.
    - apply raw_let; assumption.
    - apply raw_pop; assumption.
  Qed.
  (** a term printed on its own *)
  Theorem read_print E t : rterm E t = true ->
    exists txt D', print_term share t = ROk txt /\ read_term cf sdecl E D0 txt = ROk (t, D') /\
      (forall x, prefix "@p_" x = false -> assoc x D' = assoc x D0).
  Proof.
    intros Hr. destruct (term_spec t E [] D0 (tsize t) Hr) as [l [ind' [D' [El [X [[Ol [Sl [Pl _]]] _]]]]]]; [intros x _; reflexivity| |lia|].
    { intros i u Hu. destruct i; discriminate Hu. }
    exists (out l), D'. unfold print_term. rewrite El. split; [reflexivity|]. split.
    - unfold read_term. rewrite (okp_lex_all l Ol). cbn [obind]. specialize (Pl (fuel_for (toks l)) []). rewrite app_nil_r in Pl. rewrite Pl by (unfold fuel_for; lia). reflexivity.
    - intros x Hx. exact (ext_agree _ _ _ _ _ ltac:(intros y _; reflexivity) X x Hx).
  Qed.
  (** ** Several terms, printed one after the other with one table of shared terms *)
  Fixpoint print_terms (ts : list term) (ind : list term) : outcome (list text) :=
    match ts with
    | [] => ROk []
    | t :: r => do x <- p_term share t ind ; do y <- print_terms r (snd x) ; ROk (out (fst x) :: y)
    end.
  Fixpoint read_terms (Es : list venv) (D : defs) (txts : list text) : outcome (list term) :=
    match Es, txts with
    | E :: Es, txt :: r => do x <- read_term cf sdecl E D txt ; do y <- read_terms Es (snd x) r ; ROk (fst x :: y)
    | _, _ => ROk []
    end.
  Theorem read_print_many Es ts : Forall2 (fun E t => rterm E t = true) Es ts ->
    exists txts, print_terms ts [] = ROk txts /\ read_terms Es D0 txts = ROk ts.
  Proof.
    assert (H : forall Es ts, Forall2 (fun E t => rterm E t = true) Es ts -> forall ind D, Agree D -> (forall k, Inv k ind D) ->
      exists txts, print_terms ts ind = ROk txts /\ read_terms Es D txts = ROk ts).
    { induction 1 as [|E t Es0 ts0 Hr _ IH]; intros ind D HA HI; [exists []; split; reflexivity|].
      destruct (term_spec t E ind D (tsize t) Hr HA (HI _) (le_n _)) as [l [ind' [D' [El [X [[Ol [Sl [Pl _]]] _]]]]]].
      destruct (IH ind' D' (ext_agree _ _ _ _ _ HA X) (fun k => ext_inv _ _ _ _ _ _ (HI k) X)) as [txts [E1 E2]].
      exists (out l :: txts). cbn [print_terms]. rewrite El. cbn [obind fst snd]. rewrite E1. split; [reflexivity|]. cbn [read_terms].
      unfold read_term. rewrite (okp_lex_all l Ol). cbn [obind]. specialize (Pl (fuel_for (toks l)) []). rewrite app_nil_r in Pl. rewrite Pl by (unfold fuel_for; lia).
      cbn [obind fst snd]. rewrite E2. reflexivity. }
    intros HF. apply (H Es ts HF); [intros x _; reflexivity|]. intros k i u Hu. destruct i; discriminate Hu.
  Qed.
End RoundTrip.
