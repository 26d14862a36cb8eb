(** A proof that is printed and read again: the same proof. *)
From Coq Require Import List Bool NArith ZArith Arith String Lia.
From Verif Require Import Base Term Sem Utils Polyeq Subst Rules Checker Lexer LexerSound TermIO TermIOSound Parser ParserSound ProofIO.
Import ListNotations.
Local Open Scope string_scope.
Local Open Scope nat_scope.
Local Open Scope list_scope.

Lemma key_atom k : forallb is_sym (chars k) = true -> atom (chars (":" ++ k)%string) (KKey (chars k)).
Proof. intros H. split; [discriminate|]. intros rest Hr. destruct (token_ok (KKey (chars k)) rest H Hr) as [p [E H']]. injection E as <-. exact H'. Qed.
Lemma okp_key k l : forallb is_sym (chars k) = true -> hd_delim l -> okp l -> okp (key k :: l).
Proof. intros H Hd Hl. apply okp_atom; [exact (key_atom k H)|exact Hd|exact Hl]. Qed.
Lemma is_key_same k r : is_key k (KKey (chars k) :: r) = true.
Proof. cbn [is_key]. apply text_eqb_eq. reflexivity. Qed.
Lemma toks_nl r : toks (nl :: r) = toks r. Proof. reflexivity. Qed.
Lemma toks_key k r : toks (key k :: r) = KKey (chars k) :: toks r. Proof. reflexivity. Qed.
Lemma toks_word w r : toks (word w :: r) = (if is_reserved w then KRes w else KSym w) :: toks r. Proof. reflexivity. Qed.
Lemma toks_sym x q r : toks ((q, Some (KSym (chars x))) :: r) = KSym (chars x) :: toks r. Proof. reflexivity. Qed.
Lemma okp_end : okp [rp; nl]. Proof. apply okp_par; [apply par_rp|]. apply okp_par; [apply par_nl|exact Logic.I]. Qed.
(** a list of pieces that is empty or starts with a space *)
Definition spaced (l : list piece) : Prop := match l with [] => True | x :: _ => x = sp end.
Lemma spaced_delim l r : spaced l -> hd_delim r -> hd_delim (l ++ r).
Proof. destruct l as [|x l]; cbn; [auto|]. intros -> _. apply par_sp. Qed.
Lemma spaced_app a b : spaced a -> spaced b -> spaced (a ++ b).
Proof. destruct a; cbn; auto. Qed.
(** no keyword other than [k] is first *)
Definition only_key (k : string) (l : list piece) : Prop := toks l = [] \/ exists r, toks l = KKey (chars k) :: r.
Lemma only_not k k' l rest : only_key k l -> text_eqb (chars k) (chars k') = false -> is_key k' rest = false -> is_key k' (toks l ++ rest) = false.
Proof. intros [->|[r ->]] H1 H2; [exact H2|]. cbn [app is_key]. exact H1. Qed.

(** ** References *)
Section Refs.
  Variable look : string -> outcome (nat * nat).
  Definition found (l : list string) : Prop := forall x, In x l -> exists p, look x = ROk p.
  Lemma ref_ok x r : (exists p, look x = ROk p) -> read_ref look tt (KSym (chars x) :: r) = ROk (x, tt, r).
  Proof. intros [p Hp]. unfold read_ref. cbn [expect_symbol obind fst snd]. rewrite string_chars, Hp. reflexivity. Qed.
  Lemma refs_tail l : forallb name_ok l = true -> found l ->
    exists q, p_tail (fun x => do q <- p_sym x ; ROk [q]) l = ROk q /\ okp q /\ spaced q /\
      forall m rest, List.length (toks q) <= m -> seq (read_ref look) m tt (toks q ++ KClose :: rest) = ROk (l, tt, rest).
  Proof.
    induction l as [|x l IH]; intros Hn Hf.
    - exists []. split; [reflexivity|]. split; [exact Logic.I|]. split; [exact Logic.I|]. intros m rest _. apply seq_close.
    - cbn [forallb] in Hn. apply andb_true_iff in Hn. destruct Hn as [H1 H2]. destruct (p_sym_ok x H1) as [q [Eq Aq]].
      destruct (IH H2 (fun y Hy => Hf y (or_intror Hy))) as [t [Et [Ot [St Pt]]]]. exists (sp :: (q, Some (KSym (chars x))) :: t).
      split; [cbn [p_tail]; rewrite Eq; cbn [obind]; rewrite Et; reflexivity|].
      split; [apply okp_par; [apply par_sp|]; apply okp_atom; [exact Aq| |exact Ot]; destruct t; [exact Logic.I|left; exact St]|]. split; [reflexivity|].
      intros m rest Hm. rewrite toks_sp, toks_sym in *. cbn [List.length] in Hm. destruct m as [|m]; [lia|]. cbn [app].
      rewrite (seq_step (read_ref look) m tt (KSym (chars x) :: toks t ++ KClose :: rest) x tt (toks t ++ KClose :: rest) Logic.I); [|apply ref_ok; apply Hf; left; reflexivity].
      rewrite Pt by lia. reflexivity.
  Qed.
  (** the ids of an attribute: the first one is not quoted, if [quoted] is false *)
  Definition refs_ok (quoted : bool) (l : list string) : bool :=
    match l with
    | [] => true
    | x :: r => (if quoted then name_ok x else word_ok (chars x) && negb (is_reserved (chars x))) && forallb name_ok r
    end.
  Lemma refs_spec k quoted l : forallb is_sym (chars k) = true -> refs_ok quoted l = true -> found l ->
    exists q, p_refs k quoted l = ROk q /\ okp q /\ spaced q /\ only_key k q /\
      forall F rest, List.length (toks q) <= F -> is_key k rest = false -> opt_seq F k (read_ref look) tt (toks q ++ rest) = ROk (l, tt, rest).
  Proof.
    intros Hk Ho Hf. destruct l as [|x l].
    - exists []. split; [reflexivity|]. split; [exact Logic.I|]. split; [exact Logic.I|]. split; [left; reflexivity|]. intros F rest _ Hr. unfold opt_seq. cbn [toks flat_map app]. rewrite Hr. reflexivity.
    - cbn [refs_ok] in Ho. apply andb_true_iff in Ho. destruct Ho as [H1 H2].
      assert (Hh : exists q, (if quoted then p_sym x else ROk (word (chars x))) = ROk (q, Some (KSym (chars x))) /\ atom q (KSym (chars x))).
      { destruct quoted; [apply p_sym_ok; exact H1|]. apply andb_true_iff in H1. destruct H1 as [H1 H3]. apply negb_true_iff in H3. pose proof (word_atom _ H1) as Hw. unfold word. rewrite H3 in *. eauto. }
      destruct Hh as [q [Eq Aq]]. destruct (refs_tail l H2 (fun y Hy => Hf y (or_intror Hy))) as [t [Et [Ot [St Pt]]]].
      exists (sp :: key k :: sp :: lp :: (q, Some (KSym (chars x))) :: t ++ [rp]).
      split; [unfold p_refs; rewrite Eq; cbn [obind]; rewrite Et; reflexivity|].
      split. { apply okp_par; [apply par_sp|]. apply okp_key; [exact Hk|apply par_sp|]. apply okp_par; [apply par_sp|]. apply okp_par; [apply par_lp|].
        apply okp_atom; [exact Aq|apply spaced_delim; [exact St|apply par_rp]|]. apply okp_app; [exact Ot|apply okp_rp|apply par_rp]. }
      split; [reflexivity|]. rewrite toks_sp, toks_key, toks_sp, toks_lp, toks_sym, toks_app, toks_rp. cbn [toks flat_map].
      split; [right; eexists; rewrite toks_sp, toks_key; reflexivity|]. intros F rest HF _. unfold opt_seq. cbn [app]. rewrite is_key_same. cbn [tl expect is_open obind].
      cbn [List.length] in HF. rewrite app_length in HF. cbn [List.length] in HF. apply seq1_nonempty; [|discriminate]. destruct F as [|F]; [lia|].
      rewrite <- app_assoc. cbn [app].
      rewrite (seq_step (read_ref look) F tt (KSym (chars x) :: toks t ++ KClose :: rest) x tt (toks t ++ KClose :: rest) Logic.I); [|apply ref_ok; apply Hf; left; reflexivity].
      rewrite Pt by lia. reflexivity.
  Qed.
End Refs.

Section RoundTrip.
  Variables (share : term -> bool) (cf : pcfg) (holes : bool) (sdecl : sdecls) (D0 : defs).
  Definition ok (ind : list term) (D : defs) : Prop := Agree D0 D /\ forall k, Inv k ind D.
  Lemma ok_ext m ind D ind' D' : ok ind D -> Ext m ind D ind' D' -> ok ind' D'.
  Proof. intros [H1 H2] X. split; [exact (ext_agree D0 m ind D ind' D' H1 X)|]. intros k. exact (ext_inv share k m ind D ind' D' (H2 k) X). Qed.
  Notation rt := (rterm share cf sdecl D0).
  (** a term of sort [s] *)
  Definition rt_of (s : sort) (E : venv) (t : term) : bool := rt E t && sort_eqb s (sort_of t).
  Lemma of_e s E t sz : rt_of s E t = true -> tsize t <= sz -> ESpec D0 (p_term share) (fun n => term_of_sort cf sdecl n s E) sz t.
  Proof.
    intros H Hs ind D k HA HI Hk. unfold rt_of in H. apply andb_true_iff in H. destruct H as [H1 H2].
    destruct (spec_e share cf sdecl D0 t E sz (term_spec share cf sdecl D0 t) H1 Hs ind D k HA HI Hk) as (l & ind' & D' & A & B & C & S & P).
    exists l, ind', D'. split; [exact A|]. split; [exact B|]. split; [exact C|]. split; [exact S|]. intros n rest Hn. unfold term_of_sort. rewrite P by exact Hn. cbn [obind]. rewrite H2. reflexivity.
  Qed.
  Lemma one {A} f (p : nat -> defs -> list token -> outcome (A * defs * list token)) sz a ind D : ESpec D0 f p sz a -> ok ind D ->
    exists l ind' D', f a ind = ROk (l, ind') /\ ok ind' D' /\ okp l /\ starts l /\ forall n rest, 2 * List.length (toks l) <= n -> p n D (toks l ++ rest) = ROk (a, D', rest).
  Proof.
    intros H Hok. destruct (H ind D sz (proj1 Hok) (proj2 Hok sz) (le_n _)) as (l & ind' & D' & A' & B & C & S & P). exists l, ind', D'. split; [exact A'|]. split; [exact (ok_ext _ _ _ _ _ Hok B)|auto].
  Qed.
  Lemma tail {A} f (p : nat -> defs -> list token -> outcome (A * defs * list token)) sz l0 ind D : Forall (ESpec D0 f p sz) l0 -> ok ind D ->
    exists l ind' D', p_tail_st f l0 ind = ROk (l, ind') /\ ok ind' D' /\ okp l /\ spaced l /\
      forall n m rest, 2 * List.length (toks l) <= n -> List.length (toks l) <= m -> seq (p n) m D (toks l ++ KClose :: rest) = ROk (l0, D', rest).
  Proof.
    intros H Hok. destruct (tail_spec share D0 f p sz l0 H ind D sz (proj1 Hok) (proj2 Hok sz) (le_n _)) as (l & ind' & D' & A' & B & C & S & P).
    exists l, ind', D'. split; [exact A'|]. split; [exact (ok_ext _ _ _ _ _ Hok B)|auto].
  Qed.
  (** [:args], for a parser of elements that has the state [S] *)
  Lemma paren {A} f (p : nat -> defs -> list token -> outcome (A * defs * list token)) sz l0 ind D : Forall (ESpec D0 f p sz) l0 -> ok ind D -> l0 <> [] ->
    exists l ind' D', p_paren f l0 ind = ROk (lp :: l ++ [rp], ind') /\ ok ind' D' /\ okp l /\
      forall n m rest, 2 * List.length (toks l) <= n -> List.length (toks l) <= m -> seq1 (p n) m D (toks l ++ KClose :: rest) = ROk (l0, D', rest).
  Proof.
    intros H Hok Hne. destruct (paren_spec share D0 f p sz l0 H Hne ind D sz (proj1 Hok) (proj2 Hok sz) (le_n _)) as (l & ind' & D' & A' & B & C & P).
    exists l, ind', D'. split; [exact A'|]. split; [exact (ok_ext _ _ _ _ _ Hok B)|auto].
  Qed.

  (** ** The arguments of anchors *)
  Definition a_var (a : anchor) : string * sort := match a with AVar v => v | AAssign v _ => v end.
  Definition ranchor (E : venv) (a : anchor) : bool := rsv cf sdecl (a_var a) && match a with AVar _ => true | AAssign v t => rt_of (snd v) E t end.
  Fixpoint ranchors (E N : venv) (l : list anchor) : bool := match l with [] => true | a :: l => ranchor (N ++ E) a && ranchors E (a_var a :: N) l end.
  Lemma svar0 v ind : p_svar v ind = do x <- p_svar0 v ; ROk (x, ind).
  Proof. unfold p_svar, p_svar0. destruct (p_sym (fst v)) as [q| |]; cbn [obind]; [|reflexivity|reflexivity]. destruct (p_sort (snd v)); reflexivity. Qed.
  Lemma sv_spec v : rsv cf sdecl v = true -> exists l, p_svar0 v = ROk l /\ okp l /\ (exists tl, toks l = KOpen :: KSym (chars (fst v)) :: tl) /\
    forall n E N D rest, 2 * List.length (toks l) <= n -> TermIO.sorted_var (fun _ => parse cf sdecl n MSort E) (N, D) (toks l ++ rest) = ROk (v, (v :: N, D), rest).
  Proof.
    intros H. unfold rsv in H. apply andb_true_iff in H. destruct H as [H1 H2]. destruct (p_sym_ok _ H1) as [q [Eq Aq]].
    destruct (sort_spec cf sdecl _ H2) as [l [El [Ol [Sl Pl]]]]. exists (lp :: (q, Some (KSym (chars (fst v)))) :: sp :: l ++ [rp]).
    split; [unfold p_svar0; rewrite Eq; cbn [obind]; rewrite El; reflexivity|].
    split. { apply okp_par; [apply par_lp|]. apply okp_atom; [exact Aq|apply par_sp|]. apply okp_par; [apply par_sp|].
      apply okp_app; [exact Ol|apply okp_par; [apply par_rp|exact Logic.I]|apply par_rp]. }
    rewrite toks_lp, toks_cons, toks_sp, toks_app, toks_rp. split; [eexists; reflexivity|]. intros n E N D rest Hn. cbn [List.length] in Hn. rewrite app_length in Hn.
    cbn [toks flat_map app]. unfold TermIO.sorted_var. cbn [expect is_open obind expect_symbol fst snd]. rewrite <- app_assoc. cbn [app].
    rewrite Pl by lia. cbn [obind expect is_close]. rewrite string_chars. destruct v. reflexivity.
  Qed.
  Lemma anchor_spec E N a ind D : ranchor (N ++ E) a = true -> ok ind D ->
    exists l ind' D', p_anchor_arg share a ind = ROk (l, ind') /\ ok ind' D' /\ okp l /\ starts l /\
      forall n rest, 2 * List.length (toks l) <= n -> read_anchor_arg cf sdecl n E (N, D) (toks l ++ rest) = ROk (a, (a_var a :: N, D'), rest).
  Proof.
    intros H Hok. unfold ranchor in H. apply andb_true_iff in H. destruct H as [H1 H2]. destruct (sv_spec _ H1) as (lv & Ev & Ov & (tv & Tv) & Pv). destruct a as [v|v t]; cbn [a_var] in *.
    - exists lv, ind, D. split; [unfold p_anchor_arg; rewrite Ev; reflexivity|]. split; [exact Hok|]. split; [exact Ov|]. split; [unfold starts; rewrite Tv; exact Logic.I|].
      intros n rest Hn. specialize (Pv n (N ++ E) N D rest Hn). rewrite Tv in *. cbn [app] in *. unfold read_anchor_arg. rewrite Pv. reflexivity.
    - destruct (one _ _ (tsize t) t ind D (of_e _ _ _ _ H2 (le_n _)) Hok) as (lt & ind' & D' & Et & Hok' & Ot & St & Pt).
      exists (lp :: key "=" :: sp :: lv ++ sp :: lt ++ [rp]), ind', D'. split; [unfold p_anchor_arg; rewrite Ev; cbn [obind]; rewrite Et; reflexivity|]. split; [exact Hok'|].
      split. { apply okp_par; [apply par_lp|]. apply okp_key; [reflexivity|apply par_sp|]. apply okp_par; [apply par_sp|]. apply okp_app; [exact Ov| |apply par_sp]. apply okp_par; [apply par_sp|].
        apply okp_app; [exact Ot|apply okp_rp|apply par_rp]. }
      rewrite toks_lp, toks_key, toks_sp, toks_app, toks_sp, toks_app, toks_rp. cbn [toks flat_map]. split; [unfold starts; rewrite toks_lp; exact Logic.I|].
      intros n rest Hn. cbn [List.length] in Hn. rewrite !app_length in Hn. cbn [app]. unfold read_anchor_arg. rewrite (proj2 (text_eqb_eq _ _) eq_refl).
      specialize (Pv n (N ++ E) N D ((toks lt ++ [KClose]) ++ rest) ltac:(lia)). rewrite <- (app_assoc (toks lv)). rewrite Tv in *. cbn [app] in *. rewrite Pv. cbn [obind fst snd].
      rewrite <- app_assoc. rewrite Pt by lia. cbn [obind app expect is_close]. reflexivity.
  Qed.
  Lemma anchors_tail E l0 : forall N ind D, ranchors E N l0 = true -> ok ind D ->
    exists l ind' D', p_tail_st (p_anchor_arg share) l0 ind = ROk (l, ind') /\ ok ind' D' /\ okp l /\ spaced l /\
      forall n m rest, 2 * List.length (toks l) <= n -> List.length (toks l) <= m ->
        seq (read_anchor_arg cf sdecl n E) m (N, D) (toks l ++ KClose :: rest) = ROk (l0, (rev (map a_var l0) ++ N, D'), rest).
  Proof.
    induction l0 as [|a l0 IH]; intros N ind D Hr Hok.
    - exists [], ind, D. split; [reflexivity|]. split; [exact Hok|]. split; [exact Logic.I|]. split; [exact Logic.I|]. intros n m rest _ _. apply seq_close.
    - cbn [ranchors] in Hr. apply andb_true_iff in Hr. destruct Hr as [H1 H2]. destruct (anchor_spec E N a ind D H1 Hok) as (l1 & ind1 & D1 & E1 & K1 & O1 & S1 & P1).
      destruct (IH (a_var a :: N) ind1 D1 H2 K1) as (l2 & ind2 & D2 & E2 & K2 & O2 & S2 & P2).
      exists (sp :: l1 ++ l2), ind2, D2. cbn [p_tail_st]. rewrite E1. cbn [obind fst snd]. rewrite E2. cbn [obind fst snd]. split; [reflexivity|]. split; [exact K2|].
      split; [apply okp_par; [apply par_sp|apply okp_app; [exact O1|exact O2|]]; destruct l2; [exact Logic.I|left; exact S2]|]. split; [reflexivity|].
      intros n m rest Hn Hm. rewrite toks_sp, toks_app in *. rewrite app_length in Hn, Hm. rewrite <- app_assoc.
      assert (L1 : 1 <= List.length (toks l1)) by (unfold starts in S1; destruct (toks l1); [contradiction|cbn; lia]). destruct m as [|m]; [lia|].
      rewrite (seq_step _ m (N, D) _ a (a_var a :: N, D1) (toks l2 ++ KClose :: rest) (starts_app l1 _ S1)) by (apply P1; lia).
      rewrite P2 by lia. cbn [obind map rev]. rewrite <- app_assoc. reflexivity.
  Qed.
  Lemma tail_paren {A} (f : A -> list term -> outcome (list piece * list term)) l0 ind l ind' : l0 <> [] -> p_tail_st f l0 ind = ROk (l, ind') ->
    exists b, l = sp :: b /\ p_paren f l0 ind = ROk (lp :: b ++ [rp], ind').
  Proof.
    destruct l0 as [|a l0]; [congruence|]. intros _ H. cbn [p_tail_st] in H. apply obind_ok in H. destruct H as (x & Hx & H). apply obind_ok in H. destruct H as (y & Hy & H). injection H as <- <-.
    exists (fst x ++ fst y). split; [reflexivity|]. cbn [p_paren]. rewrite Hx. cbn [obind]. rewrite Hy. cbn [obind]. rewrite <- app_assoc. reflexivity.
  Qed.

  (** ** Commands *)
  Lemma end_close F rest : close_cmd F (KClose :: rest) = ROk rest.
  Proof. unfold close_cmd. destruct F; reflexivity. Qed.
  Lemma key_close k r : is_key k (KClose :: r) = false. Proof. reflexivity. Qed.
  Lemma assume_spec E id t ind D : name_ok id = true -> rt_of SBool E t = true -> ok ind D ->
    exists l ind' D', p_cmd share (RwAssume id t) ind = ROk (l, ind') /\ ok ind' D' /\ okp l /\ hd_delim l /\
      exists body, toks l = KOpen :: KRes (chars "assume") :: body /\
        forall F rest, 2 * List.length (toks l) <= F -> read_assume cf sdecl F E D (body ++ rest) = ROk (RwAssume id t, D', rest).
  Proof.
    intros Hn Ht Hok. destruct (p_sym_ok _ Hn) as [q [Eq Aq]]. destruct (one _ _ (tsize t) t ind D (of_e _ _ _ _ Ht (le_n _)) Hok) as (lt & ind' & D' & Et & Hok' & Ot & St & Pt).
    exists (lp :: kw "assume" :: sp :: (q, Some (KSym (chars id))) :: sp :: lt ++ [rp; nl]), ind', D'. split; [cbn [p_cmd]; rewrite Eq; cbn [obind]; rewrite Et; reflexivity|]. split; [exact Hok'|].
    split. { apply okp_par; [apply par_lp|]. apply word_okp; [reflexivity|apply par_sp|]. apply okp_par; [apply par_sp|]. apply okp_atom; [exact Aq|apply par_sp|]. apply okp_par; [apply par_sp|].
      apply okp_app; [exact Ot|apply okp_end|apply par_rp]. }
    split; [apply par_lp|].
    assert (Ett : toks (lp :: kw "assume" :: sp :: (q, Some (KSym (chars id))) :: sp :: lt ++ [rp; nl]) = KOpen :: KRes (chars "assume") :: KSym (chars id) :: toks lt ++ [KClose]).
    { rewrite toks_lp. change (kw "assume") with (word (chars "assume")). rewrite toks_word, toks_sp, toks_sym, toks_sp, toks_app. reflexivity. }
    eexists. split; [exact Ett|]. rewrite Ett. intros F rest HF. cbn [List.length] in HF. rewrite app_length in HF. cbn [List.length] in HF.
    unfold read_assume. cbn [app expect_symbol obind fst snd]. rewrite string_chars, <- app_assoc. rewrite Pt by lia.
    cbn [obind app]. rewrite end_close. reflexivity.
  Qed.

  (** the arguments of a step *)
  Lemma args_spec E args ind D : forallb (rt E) args = true -> ok ind D ->
    exists l ind' D', p_args (p_term share) args ind = ROk (l, ind') /\ ok ind' D' /\ okp l /\ spaced l /\ only_key "args" l /\
      forall rule F rest, 2 * List.length (toks l) <= F -> is_key "args" rest = false -> negb (String.eqb rule "hole") || holes || match args with [] => true | _ => false end = true ->
        (if is_key "args" (toks l ++ rest) then
           do r <- expect is_open (tl (toks l ++ rest)) ;
           if String.eqb rule "hole" && negb holes then do r7 <- skip_parens 1 r ; ROk ([], D, r7) else seq1 (parse cf sdecl F MTerm E) F D r
         else ROk ([], D, toks l ++ rest)) = ROk (args, D', rest).
  Proof.
    intros Hr Hok. destruct args as [|a args].
    - exists [], ind, D. split; [reflexivity|]. split; [exact Hok|]. split; [exact Logic.I|]. split; [exact Logic.I|]. split; [left; reflexivity|]. intros rule F rest _ Hk _. cbn [toks flat_map app]. rewrite Hk. reflexivity.
    - assert (HS : Forall (Spec share cf sdecl D0) (a :: args)) by (apply Forall_forall; intros t _; apply term_spec).
      destruct (paren (p_term share) (fun n => parse cf sdecl n MTerm E) _ (a :: args) ind D (spec_args share cf sdecl D0 _ E _ HS Hr (le_n _)) Hok ltac:(discriminate)) as (l & ind' & D' & El & Hok' & Ol & Pl).
      exists (sp :: key "args" :: sp :: lp :: l ++ [rp]), ind', D'. split; [unfold p_args; rewrite El; reflexivity|]. split; [exact Hok'|].
      split. { apply okp_par; [apply par_sp|]. apply okp_key; [reflexivity|apply par_sp|]. apply okp_par; [apply par_sp|]. apply okp_par; [apply par_lp|]. apply okp_app; [exact Ol|apply okp_rp|apply par_rp]. }
      split; [reflexivity|]. rewrite toks_sp, toks_key, toks_sp, toks_lp, toks_app, toks_rp. split; [right; eexists; rewrite toks_sp, toks_key; reflexivity|].
      intros rule F rest HF Hk Hh. cbn [toks flat_map] in *. cbn [app]. rewrite is_key_same. cbn [tl expect is_open obind]. cbn [List.length] in HF. rewrite app_length in HF. cbn [List.length] in HF.
      replace (String.eqb rule "hole" && negb holes) with false by (destruct (String.eqb rule "hole"), holes; (reflexivity || discriminate)).
      rewrite <- app_assoc. cbn [app]. apply Pl; lia.
  Qed.
  Lemma step_spec ids E id cl rule prems args disch ind D :
    name_ok id = true -> forallb (rt_of SBool E) cl = true -> word_ok (chars rule) = true -> refs_ok true prems = true -> forallb (rt E) args = true ->
    negb (String.eqb rule "hole") || holes || match args with [] => true | _ => false end = true -> refs_ok false disch = true ->
    found (parse_premise ids) prems -> found (parse_discharge ids id) disch -> ok ind D ->
    exists l ind' D', p_cmd share (RwStep id cl rule prems args disch) ind = ROk (l, ind') /\ ok ind' D' /\ okp l /\ hd_delim l /\
      exists body, toks l = KOpen :: KRes (chars "step") :: body /\
        forall F rest, 2 * List.length (toks l) <= F -> read_step cf holes sdecl F ids E D (body ++ rest) = ROk (RwStep id cl rule prems args disch, D', rest).
  Proof.
    intros Hn Hc Hw Hp Ha Hh Hd Fp Fd Hok. destruct (p_sym_ok _ Hn) as [q [Eq Aq]].
    assert (HC : Forall (ESpec D0 (p_term share) (fun n => term_of_sort cf sdecl n SBool E) (list_sum (map tsize cl))) cl).
    { apply Forall_forall. intros t Ht. apply of_e; [exact (proj1 (forallb_forall _ _) Hc t Ht)|exact (sum_in tsize cl t Ht)]. }
    destruct (tail _ _ _ cl ind D HC Hok) as (lc & ind1 & D1 & Ec & Hok1 & Oc & Sc & Pc).
    destruct (refs_spec (parse_premise ids) "premises" true prems eq_refl Hp Fp) as (lps & Eps & Ops & Sps & Kps & Pps).
    destruct (args_spec E args ind1 D1 Ha Hok1) as (la & ind2 & D2 & Ea & Hok2 & Oa & Sa & Ka & Pa).
    destruct (refs_spec (parse_discharge ids id) "discharge" false disch eq_refl Hd Fd) as (lds & Eds & Ods & Sds & Kds & Pds).
    exists (lp :: kw "step" :: sp :: (q, Some (KSym (chars id))) :: sp :: lp :: kw "cl" :: lc ++ rp :: sp :: key "rule" :: sp :: word (chars rule) :: lps ++ la ++ lds ++ [rp; nl]), ind2, D2.
    split; [cbn [p_cmd]; rewrite Eq; cbn [obind]; rewrite Ec; cbn [obind fst snd]; rewrite Eps; cbn [obind]; rewrite Ea; cbn [obind fst snd]; rewrite Eds; reflexivity|]. split; [exact Hok2|].
    assert (Od : hd_delim (la ++ lds ++ [rp; nl])) by (repeat (apply spaced_delim; [assumption|]); apply par_rp).
    split. { apply okp_par; [apply par_lp|]. apply word_okp; [reflexivity|apply par_sp|]. apply okp_par; [apply par_sp|]. apply okp_atom; [exact Aq|apply par_sp|]. apply okp_par; [apply par_sp|]. apply okp_par; [apply par_lp|].
      apply word_okp; [reflexivity|apply spaced_delim; [exact Sc|apply par_rp]|]. apply okp_app; [exact Oc| |apply par_rp]. apply okp_par; [apply par_rp|]. apply okp_par; [apply par_sp|]. apply okp_key; [reflexivity|apply par_sp|].
      apply okp_par; [apply par_sp|]. apply word_okp; [exact Hw|apply spaced_delim; [exact Sps|exact Od]|]. apply okp_app; [exact Ops| |exact Od]. apply okp_app; [exact Oa| |apply spaced_delim; [exact Sds|apply par_rp]].
      apply okp_app; [exact Ods|apply okp_end|apply par_rp]. }
    split; [apply par_lp|]. set (R := if is_reserved (chars rule) then KRes (chars rule) else KSym (chars rule)).
    assert (Et : toks (lp :: kw "step" :: sp :: (q, Some (KSym (chars id))) :: sp :: lp :: kw "cl" :: lc ++ rp :: sp :: key "rule" :: sp :: word (chars rule) :: lps ++ la ++ lds ++ [rp; nl]) =
      KOpen :: KRes (chars "step") :: KSym (chars id) :: KOpen :: KRes (chars "cl") :: toks lc ++ KClose :: KKey (chars "rule") :: R :: toks lps ++ toks la ++ toks lds ++ [KClose]).
    { rewrite toks_lp. change (kw "step") with (word (chars "step")). change (kw "cl") with (word (chars "cl")). rewrite toks_word, toks_sp, toks_sym, toks_sp, toks_lp, toks_word, toks_app, toks_rp, toks_sp, toks_key, toks_sp, toks_word, !toks_app. reflexivity. }
    eexists. split; [exact Et|]. rewrite Et. intros F rest HF. cbn [List.length] in HF. rewrite app_length in HF. cbn [List.length] in HF. rewrite !app_length in HF. cbn [List.length] in HF.
    assert (L1 : 2 * List.length (toks lc) <= F /\ List.length (toks lc) <= F) by (clear - HF; lia). assert (L2 : List.length (toks lps) <= F) by (clear - HF; lia). assert (L3 : 2 * List.length (toks la) <= F) by (clear - HF; lia).
    assert (L4 : List.length (toks lds) <= F) by (clear - HF; lia). clear HF Et.
    assert (K1 : is_key "discharge" ([KClose] ++ rest) = false) by reflexivity.
    assert (K2 : is_key "args" (toks lds ++ [KClose] ++ rest) = false) by (eapply only_not; [exact Kds|reflexivity|reflexivity]).
    assert (K3 : is_key "premises" (toks la ++ toks lds ++ [KClose] ++ rest) = false) by (eapply only_not; [exact Ka|reflexivity|]; eapply only_not; [exact Kds|reflexivity|reflexivity]).
    pose proof (Pc F F (KKey (chars "rule") :: R :: toks lps ++ toks la ++ toks lds ++ [KClose] ++ rest) (proj1 L1) (proj2 L1)) as Xc. cbn beta in Xc.
    pose proof (Pps F _ L2 K3) as Xps. pose proof (Pa rule F _ L3 K2 Hh) as Xa. pose proof (Pds F _ L4 K1) as Xds. clear Pc Pps Pa Pds.
    unfold read_step. cbn [app expect_symbol obind fst snd expect is_open]. rewrite string_chars, (proj2 (text_eqb_eq _ _) eq_refl). cbn [obind].
    rewrite <- app_assoc. cbn [app]. rewrite <- !app_assoc. rewrite Xc. cbn [obind]. unfold expect_key. rewrite is_key_same. cbn [tl obind].
    clear Xc. subst R. destruct (is_reserved (chars rule)); rewrite string_chars, Xps; cbn [obind]; rewrite Xa; cbn [obind]; rewrite Xds; cbn [obind app]; rewrite end_close; reflexivity.
  Qed.
  Lemma anchor_cmd_spec E e args ind D : name_ok e = true -> ranchors E [] args = true -> ok ind D ->
    exists l ind' D', p_cmd share (RwAnchor e args) ind = ROk (l, ind') /\ ok ind' D' /\ okp l /\ hd_delim l /\
      exists body, toks l = KOpen :: KRes (chars "anchor") :: body /\
        forall F rest, 2 * List.length (toks l) <= F -> read_anchor cf sdecl F E D (body ++ rest) = ROk (RwAnchor e args, rev (map a_var args), D', rest).
  Proof.
    intros Hn Ha Hok. destruct (p_sym_ok _ Hn) as [q [Eq Aq]].
    assert (HA : exists la ind' D', p_args (p_anchor_arg share) args ind = ROk (la, ind') /\ ok ind' D' /\ okp la /\ spaced la /\
      forall F rest, 2 * List.length (toks la) <= F -> opt_seq F "args" (read_anchor_arg cf sdecl F E) ([], D) (toks la ++ KClose :: rest) = ROk (args, (rev (map a_var args), D'), KClose :: rest)).
    { destruct args as [|a args].
      - exists [], ind, D. split; [reflexivity|]. split; [exact Hok|]. split; [exact Logic.I|]. split; [exact Logic.I|]. intros F rest _. reflexivity.
      - destruct (anchors_tail E (a :: args) [] ind D Ha Hok) as (l & ind' & D' & El & Hok' & Ol & Sl & Pl).
        destruct (tail_paren (p_anchor_arg share) (a :: args) ind l ind' ltac:(discriminate) El) as (b & -> & Eb).
        exists (sp :: key "args" :: sp :: lp :: b ++ [rp]), ind', D'. split; [unfold p_args; rewrite Eb; reflexivity|]. split; [exact Hok'|]. destruct Ol as [_ Ob].
        split. { apply okp_par; [apply par_sp|]. apply okp_key; [reflexivity|apply par_sp|]. apply okp_par; [apply par_sp|]. apply okp_par; [apply par_lp|]. apply okp_app; [exact Ob|apply okp_rp|apply par_rp]. }
        split; [reflexivity|]. rewrite toks_sp, toks_key, toks_sp, toks_lp, toks_app, toks_rp. rewrite toks_sp in Pl. cbn [toks flat_map] in *. cbn [List.length]. rewrite app_length.
        intros F rest HF. cbn [List.length] in HF. unfold opt_seq. cbn [app]. rewrite is_key_same. cbn [tl expect is_open obind]. apply seq1_nonempty; [|discriminate].
        rewrite <- app_assoc. cbn [app]. rewrite Pl by lia. rewrite app_nil_r. reflexivity. }
    destruct HA as (la & ind' & D' & Ea & Hok' & Oa & Sa & Pa).
    exists (lp :: kw "anchor" :: sp :: key "step" :: sp :: (q, Some (KSym (chars e))) :: la ++ [rp; nl]), ind', D'. split; [cbn [p_cmd]; rewrite Eq; cbn [obind]; rewrite Ea; reflexivity|]. split; [exact Hok'|].
    split. { apply okp_par; [apply par_lp|]. apply word_okp; [reflexivity|apply par_sp|]. apply okp_par; [apply par_sp|]. apply okp_key; [reflexivity|apply par_sp|]. apply okp_par; [apply par_sp|].
      apply okp_atom; [exact Aq|apply spaced_delim; [exact Sa|apply par_rp]|]. apply okp_app; [exact Oa|apply okp_end|apply par_rp]. }
    split; [apply par_lp|].
    assert (Et : toks (lp :: kw "anchor" :: sp :: key "step" :: sp :: (q, Some (KSym (chars e))) :: la ++ [rp; nl]) = KOpen :: KRes (chars "anchor") :: KKey (chars "step") :: KSym (chars e) :: toks la ++ [KClose]).
    { rewrite toks_lp. change (kw "anchor") with (word (chars "anchor")). rewrite toks_word, toks_sp, toks_key, toks_sp, toks_sym, toks_app. reflexivity. }
    eexists. split; [exact Et|]. rewrite Et. intros F rest HF. cbn [List.length] in HF. rewrite app_length in HF. cbn [List.length] in HF.
    unfold read_anchor, expect_key. cbn [app]. rewrite is_key_same. cbn [tl obind expect_symbol fst snd]. rewrite string_chars, <- app_assoc. cbn [app]. rewrite Pa by lia. cbn [obind]. rewrite end_close. reflexivity.
  Qed.

  (** ** Whole proofs *)
  (** a command that can be read, where the symbols [E] are visible *)
  Definition rcmd (E : venv) (r : raw) : bool :=
    match r with
    | RwAssume id t => name_ok id && rt_of SBool E t
    | RwStep id cl rule prems args disch =>
        name_ok id && forallb (rt_of SBool E) cl && word_ok (chars rule) && refs_ok true prems && forallb (rt E) args
        && (negb (String.eqb rule "hole") || holes || match args with [] => true | _ => false end) && refs_ok false disch
    | RwAnchor e args => name_ok e && ranchors E [] args
    | RwDefine => false
    end.
  (** [Es] are the scopes of the symbols, innermost first, and [ends] the ids of the steps that end them *)
  Fixpoint readable (Es : list venv) (ends : list string) (rs : list raw) : bool :=
    match rs with
    | [] => true
    | r :: rs =>
        rcmd (List.concat Es) r &&
        match r with
        | RwAnchor e args => readable (rev (map a_var args) :: Es) (e :: ends) rs
        | RwAssume id _ | RwStep id _ _ _ _ _ =>
            match ends with e :: ends' => if String.eqb e id then readable (tl Es) ends' rs else readable Es ends rs | [] => false end
        | RwDefine => false
        end
    end.
  Definition ends_of (st : pstate) : list string := map f_end (ps_frames st).
  Lemma add_ends id c st st' f out : ps_frames st = f :: out -> add_command id c st = ROk st' ->
    ends_of st' = if String.eqb (f_end f) id then map f_end out else ends_of st.
  Proof.
    intros Hf H. unfold add_command in H. destruct (hs_get String.eqb (ps_ids st) id); [discriminate|]. unfold ends_of. rewrite Hf in *. destruct (String.eqb (f_end f) id).
    - apply obind_ok in H. destruct H as (ids & _ & H). destruct (Nat.leb 2 _); [|discriminate]. cbn [rassert obind] in H. destruct (is_step c); [|discriminate]. cbn [rassert obind] in H.
      destruct out as [|g out]; [discriminate|]. apply obind_ok in H. destruct H as (ids' & _ & H). injection H as <-. reflexivity.
    - apply obind_ok in H. destruct H as (ids' & _ & H). injection H as <-. reflexivity.
  Qed.
  Lemma omap_found {A B} (look : A -> outcome B) l k : omap look l = ROk k -> forall x, In x l -> exists p, look x = ROk p.
  Proof.
    revert k. induction l as [|y l IH]; intros k H x Hx; [destruct Hx|]. cbn [omap] in H. apply obind_ok in H. destruct H as (p & Hp & H). apply obind_ok in H. destruct H as (k' & Hk & _).
    destruct Hx as [<-|Hx]; eauto.
  Qed.
  Lemma cmd_spec r st st' Es ind D : parse_cmd st r = ROk st' -> rcmd (List.concat Es) r = true -> ok ind D ->
    exists l ind' D' Es', p_cmd share r ind = ROk (l, ind') /\ ok ind' D' /\ okp l /\ hd_delim l /\
      (forall rs, readable Es (ends_of st) (r :: rs) = true -> readable Es' (ends_of st') rs = true) /\
      exists w body, toks l = KOpen :: KRes w :: body /\
        forall F rest, 2 * List.length (toks l) <= F -> read_cmd cf holes sdecl F (mkRS st Es D) (KRes w :: body ++ rest) = ROk (mkRS st' Es' D', rest).
  Proof.
    intros Hp Hr Hok. assert (Hp' := Hp). unfold parse_cmd in Hp'. destruct (ps_frames st) as [|f out] eqn:Ef; [discriminate|]. destruct r as [id t|id cl rule prems args disch|e args|].
    - cbn [rcmd] in Hr. apply andb_true_iff in Hr. destruct Hr as [Hn Ht]. destruct (assume_spec (List.concat Es) id t ind D Hn Ht Hok) as (l & ind' & D' & A & B & C & H & body & Et & P).
      exists l, ind', D', (scopes_after st id Es). split; [exact A|]. split; [exact B|]. split; [exact C|]. split; [exact H|]. split.
      + intros rs Hrs. cbn [readable] in Hrs. apply andb_true_iff in Hrs. destruct Hrs as [_ Hrs]. destruct (_ && _) in Hp'; [discriminate|].
        rewrite (add_ends _ _ _ _ _ _ Ef Hp'). unfold scopes_after, ends_of in *. rewrite Ef in *. cbn [map] in Hrs. destruct (String.eqb (f_end f) id); exact Hrs.
      + exists (chars "assume"), body. split; [exact Et|]. intros F rest HF. unfold read_cmd. cbn [rs_vars rs_defs rs_st]. rewrite (proj2 (text_eqb_eq _ _) eq_refl), P by exact HF. cbn [obind]. rewrite Hp. reflexivity.
    - cbn [rcmd] in Hr. repeat rewrite andb_true_iff in Hr. destruct Hr as ((((((R1 & R2) & R3) & R4) & R5) & R6) & R7).
      apply obind_ok in Hp'. destruct Hp' as (ps & Eps & Hp'). apply obind_ok in Hp'. destruct Hp' as (ds & Eds & Hp').
      destruct (step_spec (ps_ids st) (List.concat Es) id cl rule prems args disch ind D R1 R2 R3 R4 R5 R6 R7 (omap_found _ _ _ Eps) (omap_found _ _ _ Eds) Hok) as (l & ind' & D' & A & B & C & H & body & Et & P).
      exists l, ind', D', (scopes_after st id Es). split; [exact A|]. split; [exact B|]. split; [exact C|]. split; [exact H|]. split.
      + intros rs Hrs. cbn [readable] in Hrs. apply andb_true_iff in Hrs. destruct Hrs as [_ Hrs].
        rewrite (add_ends _ _ (mkPS (set_stepped f :: out) (ps_ids st) (ps_next st)) _ (set_stepped f) out eq_refl Hp'). unfold scopes_after, ends_of in *. rewrite Ef in *. cbn [map ps_frames set_stepped f_end] in *. destruct (String.eqb (f_end f) id); exact Hrs.
      + exists (chars "step"), body. split; [exact Et|]. intros F rest HF. unfold read_cmd. cbn [rs_vars rs_defs rs_st].
        change (text_eqb (chars "step") (chars "assume")) with false. rewrite (proj2 (text_eqb_eq _ _) eq_refl), P by exact HF. cbn [obind]. rewrite Hp. reflexivity.
    - cbn [rcmd] in Hr. apply andb_true_iff in Hr. destruct Hr as [Hn Ha]. destruct (anchor_cmd_spec (List.concat Es) e args ind D Hn Ha Hok) as (l & ind' & D' & A & B & C & H & body & Et & P).
      exists l, ind', D', (rev (map a_var args) :: Es). split; [exact A|]. split; [exact B|]. split; [exact C|]. split; [exact H|]. split.
      + intros rs Hrs. cbn [readable] in Hrs. apply andb_true_iff in Hrs. destruct Hrs as [_ Hrs]. injection Hp' as <-. unfold ends_of in *. cbn [ps_frames map f_end]. rewrite Ef in Hrs. exact Hrs.
      + exists (chars "anchor"), body. split; [exact Et|]. intros F rest HF. unfold read_cmd. cbn [rs_vars rs_defs rs_st].
        change (text_eqb (chars "anchor") (chars "assume")) with false. change (text_eqb (chars "anchor") (chars "step")) with false. rewrite (proj2 (text_eqb_eq _ _) eq_refl), P by exact HF. cbn [obind]. rewrite Hp. reflexivity.
    - discriminate.
  Qed.
  Lemma cmds_spec rs : forall st st' Es ind D, parse_cmds st rs = ROk st' -> readable Es (ends_of st) rs = true -> ok ind D ->
    exists l ind' D' Es', p_cmds share rs ind = ROk (l, ind') /\ okp l /\ hd_delim l /\
      forall F n first, 2 * List.length (toks l) <= F -> List.length (toks l) <= n -> read_cmds cf holes sdecl F n first false (mkRS st Es D) (toks l) = ROk (mkRS st' Es' D').
  Proof.
    induction rs as [|r rs IH]; intros st st' Es ind D Hp Hr Hok.
    - injection Hp as <-. exists [], ind, D, Es. split; [reflexivity|]. split; [exact Logic.I|]. split; [exact Logic.I|]. intros F n first _ _. destruct n; reflexivity.
    - cbn [parse_cmds] in Hp. apply obind_ok in Hp. destruct Hp as (st1 & Hp1 & Hp2). assert (Hc : rcmd (List.concat Es) r = true) by (cbn [readable] in Hr; apply andb_true_iff in Hr; apply Hr).
      destruct (cmd_spec r st st1 Es ind D Hp1 Hc Hok) as (l1 & ind1 & D1 & Es1 & A1 & B1 & C1 & H1 & R1 & w & body & Et & P1).
      destruct (IH st1 st' Es1 ind1 D1 Hp2 (R1 rs Hr) B1) as (l2 & ind2 & D2 & Es2 & A2 & C2 & H2 & P2).
      exists (l1 ++ l2), ind2, D2, Es2. split; [cbn [p_cmds]; rewrite A1; cbn [obind fst snd]; rewrite A2; reflexivity|]. split; [apply okp_app; assumption|]. split; [destruct l1; [discriminate|exact H1]|].
      intros F n first HF Hn. rewrite toks_app, app_length in *. rewrite Et in *. cbn [List.length app] in *. destruct n as [|n]; [lia|]. cbn [read_cmds]. rewrite P1 by (cbn [List.length]; lia). cbn [obind fst snd].
      apply P2; lia.
  Qed.
  Theorem text_spec E rs proof : parse_proof rs = ROk proof -> readable [E] [""] rs = true ->
    exists l ind, p_cmds share rs [] = ROk (l, ind) /\ read_proof_text cf holes sdecl E D0 (TermIO.out l) = ROk proof.
  Proof.
    intros Hp Hr. unfold parse_proof in Hp. apply obind_ok in Hp. destruct Hp as (st & Hst & Hp).
    assert (Hok : ok [] D0) by (split; [intros x _; reflexivity|intros k i u Hu; destruct i; discriminate]).
    destruct (cmds_spec rs ps0 st [E] [] D0 Hst Hr Hok) as (l & ind & D' & Es' & A & B & C & P). exists l, ind. split; [exact A|].
    unfold read_proof_text. rewrite (okp_lex_all l B). cbn [obind].
    assert (Hu : match toks l with KSym w :: r => if text_eqb w (chars "unsat") then r else toks l | _ => toks l end = toks l).
    { destruct rs as [|r rs]; [cbn in A; injection A as <- _; reflexivity|]. destruct (toks l) as [|[] tl] eqn:Et; try reflexivity. exfalso.
      cbn [parse_cmds] in Hst. apply obind_ok in Hst. destruct Hst as (st1 & Hp1 & _). assert (Hc : rcmd (List.concat [E]) r = true) by (cbn [readable] in Hr; apply andb_true_iff in Hr; apply Hr).
      destruct (cmd_spec r ps0 st1 [E] [] D0 Hp1 Hc Hok) as (l1 & ind1 & D1 & Es1 & A1 & _ & _ & _ & _ & w & body & Et1 & _). cbn [p_cmds] in A. rewrite A1 in A. cbn [obind] in A. apply obind_ok in A. destruct A as (y & _ & A).
      injection A as <- _. cbn [fst] in Et. rewrite toks_app, Et1 in Et. discriminate. }
    rewrite Hu, P; [|unfold fuel_for; lia|lia]. cbn [obind rs_st]. exact Hp.
  Qed.

  (** ** What is read comes from commands *)
  Lemma cmd_raws F s ts s' r : read_cmd cf holes sdecl F s ts = ROk (s', r) -> exists c, parse_cmds (rs_st s) c = ROk (rs_st s').
  Proof.
    unfold read_cmd. destruct ts as [|[| | | | | | | |w|] ts]; try discriminate. destruct (text_eqb w (chars "assume")).
    { intros H. apply obind_ok in H. destruct H as ([[c D] r1] & _ & H). apply obind_ok in H. destruct H as (st & Hst & H). injection H as <- _. exists [c]. cbn [parse_cmds]. rewrite Hst. reflexivity. }
    destruct (text_eqb w (chars "step")).
    { intros H. apply obind_ok in H. destruct H as ([[c D] r1] & _ & H). apply obind_ok in H. destruct H as (st & Hst & H). injection H as <- _. exists [c]. cbn [parse_cmds]. rewrite Hst. reflexivity. }
    destruct (text_eqb w (chars "anchor")).
    { intros H. apply obind_ok in H. destruct H as ([[[c N] D] r1] & _ & H). apply obind_ok in H. destruct H as (st & Hst & H). injection H as <- _. exists [c]. cbn [parse_cmds]. rewrite Hst. reflexivity. }
    destruct (text_eqb w (chars "define-fun")); [|discriminate]. intros H. apply obind_ok in H. destruct H as (x & _ & H). injection H as <- _. exists []. reflexivity.
  Qed.
  Lemma parse_cmds_app a b st : parse_cmds st (a ++ b) = do st' <- parse_cmds st a ; parse_cmds st' b.
  Proof. revert st. induction a as [|r a IH]; intros st; [reflexivity|]. cbn [app parse_cmds]. destruct (parse_cmd st r) as [st1| |]; cbn [obind]; auto. Qed.
  Lemma cmds_raws F n : forall first extra s ts s', read_cmds cf holes sdecl F n first extra s ts = ROk s' -> exists rs, parse_cmds (rs_st s) rs = ROk (rs_st s').
  Proof.
    induction n as [|n IH]; intros first extra s ts s' H; cbn [read_cmds] in H.
    - destruct ts as [|[] ts]; try discriminate; [|]; destruct extra; try discriminate; [injection H as <-; exists []; reflexivity|]. destruct ts; [injection H as <-; exists []; reflexivity|discriminate].
    - destruct ts as [|[] ts]; try discriminate.
      + destruct extra; [discriminate|]. injection H as <-. exists []. reflexivity.
      + destruct (match ts with KOpen :: _ => first | KClose :: _ => true | _ => false end); [eapply IH; exact H|]. apply obind_ok in H. destruct H as ([s1 r1] & H1 & H2). cbn [fst snd] in H2.
        destruct (cmd_raws _ _ _ _ _ H1) as [c Hc]. destruct (IH _ _ _ _ _ H2) as [rs Hrs]. exists (c ++ rs). rewrite parse_cmds_app, Hc. exact Hrs.
      + destruct extra; [|discriminate]. destruct ts; [|discriminate]. injection H as <-. exists []. reflexivity.
  Qed.
  Theorem text_raws E D txt proof : read_proof_text cf holes sdecl E D txt = ROk proof -> exists rs, parse_proof rs = ROk proof.
  Proof.
    intros H. unfold read_proof_text in H. apply obind_ok in H. destruct H as (ts & _ & H). apply obind_ok in H. destruct H as (s & Hs & H). destruct (cmds_raws _ _ _ _ _ _ _ Hs) as [rs Hrs].
    exists rs. unfold parse_proof. cbn [rs_st] in Hrs. rewrite Hrs. exact H.
  Qed.
End RoundTrip.
