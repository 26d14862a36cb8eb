(** Round trips of printed tokens through the lexer, and panics of the lexer *)
From Coq Require Import List Bool NArith ZArith QArith Lia ZifyBool ZifyN ZifyNat String Ascii.
From Verif Require Import Base Lexer.
Import ListNotations.
Open Scope list_scope.
Open Scope N_scope.

Definition stops (p : N -> bool) (l : text) : bool := match l with [] => true | c :: _ => negb (p c) end.
(** what follows a token: the end of the input, white space or a parenthesis *)
Definition delim (l : text) : bool := match l with [] => true | c :: _ => is_ws c || (c =? 40) || (c =? 41) end.

Ltac charx := unfold is_ws, is_sym, is_hex, is_bin, is_digit, is_upper, is_lower, memN in *; cbv [existsb chars N_of_ascii N_of_digits] in *; lia.

Lemma span_stop p a rest : forallb p a = true -> stops p rest = true -> span p (a ++ rest) = (a, rest).
Proof.
  induction a as [|c a IH]; cbn [forallb app].
  - intros _. destruct rest as [|c r]; cbn; [reflexivity|]. destruct (p c); [discriminate|reflexivity].
  - intros H Hs. apply andb_true_iff in H. destruct H as [H1 H2]. cbn [span]. rewrite H1, (IH H2 Hs). reflexivity.
Qed.
Lemma span_eq p l : l = fst (span p l) ++ snd (span p l).
Proof. induction l as [|c l IH]; cbn; [reflexivity|]. destruct (p c); cbn; [|reflexivity]. destruct (span p l). cbn in *. congruence. Qed.
Lemma span_all p l : forallb p (fst (span p l)) = true.
Proof. induction l as [|c l IH]; cbn; [reflexivity|]. destruct (p c) eqn:E; cbn; [|reflexivity]. destruct (span p l). cbn in *. rewrite E. exact IH. Qed.
Lemma span_stops p l : stops p (snd (span p l)) = true.
Proof. induction l as [|c l IH]; cbn; [reflexivity|]. destruct (p c) eqn:E; cbn; [|rewrite E; reflexivity]. destruct (span p l). exact IH. Qed.
Lemma span_n_len n p l : (List.length (snd (span_n n p l)) <= List.length l)%nat.
Proof.
  revert l. induction n as [|n IH]; intros [|c l]; cbn [span_n snd List.length]; try lia.
  destruct (p c); cbn; [|lia]. specialize (IH l). destruct (span_n n p l). cbn in *. lia.
Qed.
Lemma delim_stops rest : delim rest = true -> stops is_sym rest = true /\ stops is_digit rest = true /\ stops is_bin rest = true.
Proof. destruct rest as [|c r]; cbn [delim stops]; [auto|]. intros H. repeat split; charx. Qed.
Lemma delim_not rest c r : delim rest = true -> rest = c :: r -> c <> 47 /\ c <> 46 /\ c <> 34.
Proof. intros H ->. cbn in H. repeat split; intros ->; discriminate H. Qed.

(** ** White space and comments *)
Lemma drop_ws_len l : (List.length (drop_ws l) <= List.length l)%nat.
Proof. induction l as [|c l IH]; cbn; [lia|]. destruct (is_ws c); cbn; lia. Qed.
Lemma drop_line_len l : (List.length (drop_line l) <= List.length l)%nat.
Proof. induction l as [|c l IH]; cbn; [lia|]. destruct (c =? 10); cbn; lia. Qed.
Lemma drop_ws_app ws l : forallb is_ws ws = true -> drop_ws (ws ++ l) = drop_ws l.
Proof. induction ws as [|c ws IH]; cbn; [auto|]. intros H. apply andb_true_iff in H. destruct H as [H1 H2]. rewrite H1. auto. Qed.
Lemma consume_fuel f f' l : (List.length l < f)%nat -> (List.length l < f')%nat -> consume f l = consume f' l.
Proof.
  revert f' l. induction f as [|f IH]; intros f' l Hf Hf'; [lia|]. destruct f' as [|f']; [lia|].
  cbn [consume]. pose proof (drop_ws_len l) as Hl. destruct (drop_ws l) as [|c r]; [reflexivity|]. cbn in Hl.
  destruct (c =? 59); [|reflexivity]. pose proof (drop_line_len r). apply IH; lia.
Qed.
Lemma trim_ws ws l : forallb is_ws ws = true -> trim (ws ++ l) = trim l.
Proof.
  intros H. unfold trim. rewrite (consume_fuel (S (List.length l)) (S (List.length (ws ++ l))) l); [|lia|rewrite app_length; lia].
  cbn [consume]. rewrite (drop_ws_app ws l H). reflexivity.
Qed.
Lemma drop_line_app com l : forallb (fun c => negb (c =? 10)) com = true -> drop_line (com ++ 10 :: l) = l.
Proof.
  induction com as [|c com IH]; cbn [app drop_line forallb].
  - intros _. reflexivity.
  - intros H. apply andb_true_iff in H. destruct H as [H1 H2]. apply negb_true_iff in H1. rewrite H1. auto.
Qed.
Lemma trim_comment com l : forallb (fun c => negb (c =? 10)) com = true -> trim (59 :: com ++ 10 :: l) = trim l.
Proof.
  intros H. unfold trim at 1. cbn [consume drop_ws]. change (is_ws 59) with false. cbn match. rewrite (drop_line_app com l H).
  apply consume_fuel; cbn [List.length]; rewrite ?app_length; cbn [List.length]; lia.
Qed.
Lemma trim_id c r : is_ws c = false -> c <> 59 -> trim (c :: r) = c :: r.
Proof.
    intros H Hc. unfold trim. cbn [consume drop_ws]. rewrite H.
  rewrite (proj2 (N.eqb_neq c 59) Hc). reflexivity.
Qed.
Lemma trim_len l : (List.length (trim l) <= List.length l)%nat.
Proof.
  unfold trim. generalize (S (List.length l)) as f. intros f. revert l. induction f as [|f IH]; intros l; cbn [consume]; [lia|].
  pose proof (drop_ws_len l) as Hl. destruct (drop_ws l) as [|c r]; [lia|]. destruct (c =? 59); [|lia].
  pose proof (IH (drop_line r)). pose proof (drop_line_len r). cbn in Hl. lia.
Qed.
Lemma next_token_ws ws l : forallb is_ws ws = true -> next_token (ws ++ l) = next_token l.
Proof. intros H. unfold next_token. rewrite (trim_ws ws l H). reflexivity. Qed.
Lemma next_token_comment com l : forallb (fun c => negb (c =? 10)) com = true -> next_token (59 :: com ++ 10 :: l) = next_token l.
Proof. intros H. unfold next_token. rewrite (trim_comment com l H). reflexivity. Qed.

(** ** Numbers *)
Definition dfold (base : N) (a : N) (l : text) : N := fold_left (fun acc c => acc * base + dval c) l a.
Lemma dval_digit n : n < 10 -> dval (48 + n) = n.
Proof. unfold dval. intros H. destruct (48 + n <=? 57) eqn:E; lia. Qed.
Lemma digits_fold base f n acc : 2 <= base <= 10 -> n < base ^ N.of_nat f -> dfold base 0 (digits base f n acc) = dfold base n acc.
Proof.
  intros Hb. revert n acc. induction f as [|f IH]; intros n acc Hn.
  - cbn in Hn. assert (n = 0) by lia. subst. reflexivity.
  - cbn [digits]. destruct (n <? base) eqn:E.
    + unfold dfold. cbn [fold_left]. rewrite dval_digit by lia. f_equal.
    + rewrite IH.
      * unfold dfold. cbn [fold_left]. assert (n mod base < base) by (apply N.mod_lt; lia). rewrite dval_digit by lia.
        f_equal. rewrite N.mul_comm. symmetry. apply N.div_mod. lia.
      * rewrite Nat2N.inj_succ, N.pow_succ_r' in Hn. apply N.div_lt_upper_bound; lia.
Qed.
Lemma digits_all base f n acc : 2 <= base <= 10 -> forallb is_digit acc = true -> forallb is_digit (digits base f n acc) = true.
Proof.
  intros Hb. revert n acc. induction f as [|f IH]; intros n acc H; cbn [digits]; [exact H|].
  destruct (n <? base) eqn:E; [|apply IH; cbn [forallb]; rewrite H, andb_true_r; assert (n mod base < base) by (apply N.mod_lt; lia); charx].
  cbn [forallb]. rewrite H, andb_true_r. charx.
Qed.
Lemma digits_bin f n acc : forallb is_bin acc = true -> forallb is_bin (digits 2 f n acc) = true.
Proof.
  revert n acc. induction f as [|f IH]; intros n acc H; cbn [digits]; [exact H|].
  destruct (n <? 2) eqn:E; [|apply IH; cbn [forallb]; rewrite H, andb_true_r; assert (n mod 2 < 2) by (apply N.mod_lt; lia); charx].
  cbn [forallb]. rewrite H, andb_true_r. charx.
Qed.
Lemma digits_nonzero base f n acc : 2 <= base <= 10 -> 0 < n < base ^ N.of_nat f -> exists c r, digits base f n acc = c :: r /\ c <> 48.
Proof.
  intros Hb. revert n acc. induction f as [|f IH]; intros n acc Hn; [cbn in Hn; lia|].
  cbn [digits]. destruct (n <? base) eqn:E; [exists (48 + n), acc; split; [reflexivity|lia]|].
  apply IH. split; [apply N.div_str_pos; lia|]. rewrite Nat2N.inj_succ, N.pow_succ_r' in Hn. apply N.div_lt_upper_bound; lia.
Qed.
Lemma digits_len base f n acc k : 2 <= base -> n < base ^ N.of_nat k -> (1 <= k)%nat -> (List.length (digits base f n acc) <= k + List.length acc)%nat.
Proof.
  intros Hb. revert n acc k. induction f as [|f IH]; intros n acc k Hn Hk; cbn [digits]; [lia|].
  destruct (n <? base) eqn:E; [cbn [List.length]; lia|].
  destruct k as [|[|k]]; [lia| |].
  - change (N.of_nat 1) with 1 in Hn. rewrite N.pow_1_r in Hn. lia.
  - transitivity (S k + List.length ((48 + n mod base)%N :: acc))%nat; [|cbn [List.length]; lia]. apply IH; [|lia].
    rewrite Nat2N.inj_succ, N.pow_succ_r' in Hn. apply N.div_lt_upper_bound; lia.
Qed.
Lemma size_bound n : n < 2 ^ N.of_nat (N.size_nat n).
Proof.
  destruct n as [|p]; [cbn; lia|]. cbn [N.size_nat].
  induction p as [p IH|p IH|]; cbn [Pos.size_nat]; rewrite ?Nat2N.inj_succ, ?N.pow_succ_r'; try lia.
Qed.
Lemma size_bound_b base n : 2 <= base -> n < base ^ N.of_nat (S (N.size_nat n)).
Proof.
  intros Hb. pose proof (size_bound n) as H. rewrite Nat2N.inj_succ, N.pow_succ_r'.
  assert (H1 : 2 ^ N.of_nat (N.size_nat n) <= base ^ N.of_nat (N.size_nat n)) by (apply N.pow_le_mono_l; lia).
  nia.
Qed.
Lemma print_N_digits n : forallb is_digit (print_N n) = true.
Proof. apply digits_all; [lia|reflexivity]. Qed.
Lemma print_N_val n : digits_val 10 (print_N n) = n.
Proof. exact (digits_fold 10 _ n [] ltac:(lia) (size_bound_b 10 n ltac:(lia))). Qed.
Lemma print_N_head n : (n = 0 /\ print_N n = [48]) \/ (exists c r, print_N n = c :: r /\ c <> 48).
Proof.
  destruct (N.eq_dec n 0) as [->|Hn]; [left; split; reflexivity|right].
  apply digits_nonzero; [lia|]. split; [lia|]. apply size_bound_b. lia.
Qed.
Lemma print_N_nonempty n : exists c r, print_N n = c :: r.
Proof. destruct (print_N_head n) as [[_ E]|[c [r [E _]]]]; rewrite E; eauto. Qed.
Lemma print_N_lead n : match print_N n with 48 :: _ :: _ => true | _ => false end = false.
Proof.
  destruct (print_N_head n) as [[_ E]|[c [r [E Hc]]]]; rewrite E; [reflexivity|].
  destruct c as [|p]; [reflexivity|]. repeat (destruct p as [p|p|]; try reflexivity). congruence.
Qed.
Lemma match4746 {A} (l : text) (f g : text -> A) (h : A) :
  stops (fun c => (c =? 47) || (c =? 46)) l = true -> match l with 47 :: r => f r | 46 :: r => g r | _ => h end = h.
Proof.
  destruct l as [|c r]; cbn [stops]; [reflexivity|]. intros H. apply negb_true_iff in H.
  destruct c as [|p]; [reflexivity|]. repeat (destruct p as [p|p|]; try reflexivity); discriminate H.
Qed.
Lemma delim_4746 rest : delim rest = true -> stops (fun c => (c =? 47) || (c =? 46)) rest = true.
Proof. destruct rest as [|c r]; cbn [delim stops]; [auto|]. intros H. charx. Qed.

Lemma read_num_int neg n rest : delim rest = true ->
  read_number neg (print_N n ++ rest) = ROk (KNum (if neg then Z.opp (Z.of_N n) else Z.of_N n), rest).
Proof.
  intros H. unfold read_number. rewrite (span_stop is_digit _ _ (print_N_digits n) (proj1 (proj2 (delim_stops _ H)))).
  rewrite print_N_lead, (match4746 rest _ _ _ (delim_4746 _ H)), print_N_val. reflexivity.
Qed.
Lemma read_num_frac neg n d rest : delim rest = true ->
  read_number neg (print_N n ++ 47 :: print_N (Npos d) ++ rest)
  = ROk (KDec (Qred (if neg then Qopp (Qmake (Z.of_N n) d) else Qmake (Z.of_N n) d)), rest).
Proof.
  intros H. unfold read_number. rewrite (span_stop is_digit _ (47 :: _) (print_N_digits n) eq_refl).
  rewrite print_N_lead. cbn match.
  rewrite (span_stop is_digit _ _ (print_N_digits (Npos d)) (proj1 (proj2 (delim_stops _ H)))).
  rewrite (match4746 rest _ _ _ (delim_4746 _ H)).
  destruct (print_N_nonempty (Npos d)) as [c [r E]]. pose proof (print_N_val (Npos d)) as Hv. rewrite E in Hv |- *. rewrite Hv, print_N_val.
  reflexivity.
Qed.
Lemma digits_val_snoc b l c : digits_val b (l ++ [c]) = digits_val b l * b + dval c.
Proof. unfold digits_val. rewrite fold_left_app. reflexivity. Qed.
Lemma read_num_dot0 neg n rest : delim rest = true ->
  read_number neg (print_N n ++ 46 :: 48 :: rest) = ROk (KDec (Qmake (if neg then Z.opp (Z.of_N n) else Z.of_N n) 1), rest).
Proof.
  intros H. unfold read_number. rewrite (span_stop is_digit _ (46 :: _) (print_N_digits n) eq_refl).
  rewrite print_N_lead. cbn match.
  change (48 :: rest) with ([48] ++ rest). rewrite (span_stop is_digit [48] rest eq_refl (proj1 (proj2 (delim_stops _ H)))).
  rewrite (match4746 rest _ _ _ (delim_4746 _ H)). rewrite digits_val_snoc, print_N_val.
  change (dval 48) with 0. change (Pos.of_nat (List.length [48])) with 1%positive. change (10 ^ 1)%positive with 10%positive.
  assert (E : forall z, Qred (Qmake (z * 10) 10) = Qmake z 1).
  { intros z. transitivity (Qred (Qmake z 1)); [apply Qred_complete; unfold Qeq; cbn; lia|].
    unfold Qred. pose proof (Z.ggcd_correct_divisors z 1) as Hc. pose proof (Z.ggcd_gcd z 1) as Hg. rewrite Z.gcd_1_r in Hg.
    destruct (Z.ggcd z 1) as [g [a b]]. cbn [fst snd] in *. destruct Hc as [H1 H2]. subst g.
    rewrite Z.mul_1_l in H1, H2. subst. reflexivity. }
  replace (Z.of_N (n * 10 + 0)) with (Z.of_N n * 10)%Z by lia.
  destruct neg; [|rewrite E; reflexivity]. unfold Qopp. cbn [Qnum Qden]. rewrite <- Z.mul_opp_l, E. reflexivity.
Qed.

(** ** Strings *)
Fixpoint no_escape (s : text) : bool :=
  match s with
  | c :: r => negb ((c =? 92) && match r with d :: _ => d =? 117 | [] => false end) && no_escape r
  | [] => true
  end.
Lemma escape_len s : (List.length s <= List.length (escape_string s))%nat.
Proof. induction s as [|c s IH]; cbn; [lia|]. destruct (c =? 34); cbn; fold (escape_string s); lia. Qed.
Lemma read_string_ok f acc s rest : no_escape s = true -> stops (N.eqb 34) rest = true -> (List.length s < f)%nat ->
  read_string f acc (escape_string s ++ 34 :: rest) = ROk (acc ++ s, rest).
Proof.
  revert acc f. induction s as [|c s IH]; intros acc f He Hr Hf; (destruct f as [|f]; [cbn in Hf; lia|]).
  - cbn. rewrite app_nil_r. destruct rest as [|d r]; [reflexivity|]. cbn [stops] in Hr. apply negb_true_iff in Hr.
    rewrite N.eqb_sym in Hr. rewrite Hr. reflexivity.
  - cbn [no_escape] in He. apply andb_true_iff in He. destruct He as [He1 He2]. cbn [List.length] in Hf.
    assert (Hf' : (List.length s < f)%nat) by lia.
    change (escape_string (c :: s)) with ((if c =? 34 then [34; 34] else [c]) ++ escape_string s).
    destruct (c =? 34) eqn:E34.
    + apply N.eqb_eq in E34. subst c. cbn [app read_string]. change (34 =? 34) with true. cbn match.
      rewrite (IH _ f He2 Hr Hf'), <- app_assoc. reflexivity.
    + cbn [app read_string]. rewrite E34. destruct (c =? 92) eqn:E92.
      * apply N.eqb_eq in E92. subst c. apply negb_true_iff in He1. change (92 =? 92) with true in He1. rewrite andb_true_l in He1.
        assert (Hgo : forall d r2, escape_string s ++ 34 :: rest = d :: r2 -> (d =? 117) = false).
        { intros d r2 Hd. destruct s as [|x s'].
          - cbn in Hd. injection Hd as <- _. reflexivity.
          - change (escape_string (x :: s')) with ((if x =? 34 then [34; 34] else [x]) ++ escape_string s') in Hd.
            destruct (x =? 34) eqn:Ex; cbn [app] in Hd; injection Hd as <- _; [reflexivity|exact He1]. }
        destruct (escape_string s ++ 34 :: rest) as [|d r2] eqn:Ed; [destruct (escape_string s); discriminate Ed|].
        rewrite (Hgo _ _ eq_refl). rewrite (IH _ f He2 Hr Hf'), <- app_assoc. reflexivity.
      * rewrite (IH _ f He2 Hr Hf'), <- app_assoc. reflexivity.
Qed.

(** ** Symbols *)
(** the quoted form of a symbol can express it: no '|' and no '\' *)
Definition quotable (s : text) : bool := forallb (fun c => negb (c =? 124) && negb (c =? 92)) s.
(** '-' followed by a digit: read as a number *)
Definition dash_digit (s : text) : bool := match s with c :: d :: _ => (c =? 45) && is_digit d | _ => false end.
Lemma quotable_no124 s : quotable s = true -> existsb (N.eqb 124) s = false.
Proof. unfold quotable. induction s as [|c s IH]; cbn [forallb existsb]; [auto|]. intros H. apply andb_true_iff in H. destruct H as [H1 H2]. rewrite IH by exact H2. lia. Qed.
Lemma sym_special c : is_sym c = true -> (c =? 40) = false /\ (c =? 41) = false /\ (c =? 34) = false /\ (c =? 124) = false /\ (c =? 58) = false
  /\ (c =? 35) = false /\ is_ws c = false /\ (c =? 59) = false.
Proof. intros H. repeat split; charx. Qed.
Lemma not_any_all (p : N -> bool) s : existsb (fun c => negb (p c)) s = false -> forallb p s = true.
Proof. induction s as [|c s IH]; cbn; [auto|]. intros H. apply orb_false_iff in H. destruct H as [H1 H2]. apply negb_false_iff in H1. rewrite H1. auto. Qed.
Lemma next_simple c s rest : is_sym c = true -> is_digit c = false -> forallb is_sym s = true -> delim rest = true ->
  next_token (c :: s ++ rest)
  = if c =? 45 then if match s ++ rest with d :: _ => is_digit d | [] => false end then read_number true (s ++ rest) else ROk (KSym (45 :: s), rest)
    else ROk (if is_reserved (c :: s) then KRes (c :: s) else KSym (c :: s), rest).
Proof.
  intros Hc Hd Hs Hr. pose proof (sym_special c Hc) as [H1 [H2 [H3 [H4 [H5 [H6 [H7 H8]]]]]]].
  unfold next_token. rewrite trim_id by (try assumption; intros ->; discriminate H8).
  rewrite H1, H2, H3, H4, H5, H6.
  pose proof (proj1 (delim_stops _ Hr)) as Hst.
  destruct (c =? 45) eqn:E45.
  - rewrite (span_stop is_sym s rest Hs Hst). reflexivity.
  - rewrite Hd, Hc. change (c :: s ++ rest) with ((c :: s) ++ rest). rewrite (span_stop is_sym (c :: s) rest); [reflexivity| |exact Hst].
    cbn [forallb]. rewrite Hc. exact Hs.
Qed.
Lemma next_quoted s rest : quotable s = true -> next_token (124 :: s ++ 124 :: rest) = ROk (KSym s, rest).
Proof.
  intros H. unfold next_token. rewrite trim_id by (reflexivity || discriminate). cbn match.
  change (124 =? 40) with false. change (124 =? 41) with false. change (124 =? 34) with false. change (124 =? 124) with true. cbn match.
  rewrite (span_stop (fun c => negb (c =? 124) && negb (c =? 92)) s (124 :: rest) H eq_refl). reflexivity.
Qed.
Lemma symbol_ok s rest : quotable s = true -> dash_digit s = false -> delim rest = true ->
  exists p, quote_symbol s = ROk p /\ next_token (p ++ rest) = ROk (KSym s, rest).
Proof.
  intros Hq Hd Hr. unfold quote_symbol. rewrite (quotable_no124 s Hq). eexists; split; [reflexivity|].
  destruct (needs_quote s) eqn:En.
  - change ((124 :: s ++ [124]) ++ rest) with (124 :: (s ++ [124]) ++ rest). rewrite <- app_assoc. apply next_quoted. exact Hq.
  - destruct s as [|c s]; [discriminate|]. cbn [needs_quote] in En. apply orb_false_iff in En. destruct En as [En Ea].
    apply orb_false_iff in En. destruct En as [Ed Er]. apply not_any_all in Ea. cbn [forallb] in Ea. apply andb_true_iff in Ea. destruct Ea as [Ec Es].
    cbn [app]. rewrite (next_simple c s rest Ec Ed Es Hr), Er.
    destruct (c =? 45) eqn:E45; [|reflexivity]. apply N.eqb_eq in E45. subst c.
    replace (match s ++ rest with d :: _ => is_digit d | [] => false end) with false; [reflexivity|].
    symmetry. destruct s as [|d s]; cbn [app].
    + pose proof (proj1 (proj2 (delim_stops _ Hr))) as Hst. destruct rest as [|d r]; [reflexivity|]. cbn in Hst. apply negb_true_iff in Hst. exact Hst.
    + cbn in Hd. exact Hd.
Qed.

(** ** Tokens *)
Definition printable (t : token) : Prop :=
  match t with
  | KOpen | KClose | KNum _ => True
  | KSym s => quotable s = true /\ dash_digit s = false
  | KKey s => forallb is_sym s = true
  | KDec q => Qred q = q /\ Qden q <> 1%positive
  | KBv v w => (1 <= w)%nat /\ v < 2 ^ N.of_nat w
  | KStr s => no_escape s = true
  | KRes s => is_reserved s = true
  | KEof => False
  end.
Lemma num_start c r : is_digit c = true -> next_token (c :: r) = read_number false (c :: r) /\ next_token (45 :: c :: r) = read_number true (c :: r).
Proof.
  intros H. split.
  - unfold next_token. rewrite trim_id by charx.
    assert (E : (c =? 40) = false /\ (c =? 41) = false /\ (c =? 34) = false /\ (c =? 124) = false /\ (c =? 58) = false /\ (c =? 35) = false /\ (c =? 45) = false)
      by (repeat split; charx).
    destruct E as [-> [-> [-> [-> [-> [-> ->]]]]]]. rewrite H. reflexivity.
  - unfold next_token. rewrite trim_id by (reflexivity || discriminate).
    change (45 =? 40) with false. change (45 =? 41) with false. change (45 =? 34) with false. change (45 =? 124) with false.
    change (45 =? 58) with false. change (45 =? 35) with false. change (45 =? 45) with true. cbn match. rewrite H. reflexivity.
Qed.
Lemma next_print_N n r : next_token (print_N n ++ r) = read_number false (print_N n ++ r)
  /\ next_token (45 :: print_N n ++ r) = read_number true (print_N n ++ r).
Proof.
  destruct (print_N_nonempty n) as [c [l E]]. pose proof (print_N_digits n) as H. rewrite E in *. cbn in H.
  apply andb_true_iff in H. apply num_start. apply H.
Qed.
Lemma next_Z z rest : delim rest = true -> next_token (print_Z z ++ rest) = ROk (KNum z, rest).
Proof.
  intros H. unfold print_Z. destruct z as [|p|p].
  - rewrite (proj1 (next_print_N (Z.to_N 0) rest)). rewrite read_num_int by exact H. reflexivity.
  - rewrite (proj1 (next_print_N _ rest)). rewrite read_num_int by exact H. reflexivity.
  - change ((45 :: print_N (N.pos p)) ++ rest) with (45 :: print_N (N.pos p) ++ rest).
    rewrite (proj2 (next_print_N _ rest)). rewrite read_num_int by exact H. reflexivity.
Qed.
Lemma next_frac z d rest : delim rest = true -> next_token ((print_Z z ++ 47 :: print_N (Npos d)) ++ rest) = ROk (KDec (Qred (Qmake z d)), rest).
Proof.
  intros H. rewrite <- app_assoc. cbn [app]. unfold print_Z. destruct z as [|p|p].
  - rewrite (proj1 (next_print_N (Z.to_N 0) _)). rewrite read_num_frac by exact H. reflexivity.
  - rewrite (proj1 (next_print_N _ _)). rewrite read_num_frac by exact H. reflexivity.
  - cbn [app]. rewrite (proj2 (next_print_N _ _)). rewrite read_num_frac by exact H. reflexivity.
Qed.
Lemma next_real q rest : delim rest = true -> next_token (print_real q ++ rest) = ROk (KDec (Qred q), rest).
Proof.
  intros H. unfold print_real. destruct (Qred q) as [z d] eqn:Eq. cbn [Qnum Qden].
  assert (Hred : Qred (z # d) = z # d) by (rewrite <- Eq; apply Qred_complete, Qred_correct).
  destruct (Pos.eqb d 1 && Z.leb 0 z) eqn:E; [|rewrite next_frac, Hred by exact H; reflexivity].
  apply andb_true_iff in E. destruct E as [E1 E2]. apply Pos.eqb_eq in E1. subst d. apply Z.leb_le in E2.
  rewrite <- app_assoc. cbn [app].
  assert (Hp : print_Z z = print_N (Z.to_N z)) by (destruct z; [reflexivity|reflexivity|lia]).
  rewrite Hp, (proj1 (next_print_N _ _)), read_num_dot0 by exact H.
  rewrite Z2N.id by exact E2. reflexivity.
Qed.
Lemma dfold_zeros b k a l : (forall x, x = 0 -> x * b + dval 48 = 0) -> a = 0 -> dfold b a (repeat 48 k ++ l) = dfold b 0 l.
Proof.
  intros Hz. revert a. induction k as [|k IH]; intros a ->; [reflexivity|]. unfold dfold. cbn [repeat app fold_left].
  apply IH. apply Hz. reflexivity.
Qed.
Lemma forallb_repeat_t {A} (p : A -> bool) k a : p a = true -> forallb p (repeat a k) = true.
Proof. intros H. induction k as [|k IH]; cbn; [reflexivity|]. rewrite H. exact IH. Qed.
Lemma print_bin_spec w v : (1 <= w)%nat -> v < 2 ^ N.of_nat w ->
  forallb is_bin (print_bin w v) = true /\ List.length (print_bin w v) = w /\ digits_val 2 (print_bin w v) = v.
Proof.
  intros Hw Hv. unfold print_bin. repeat split.
  - rewrite forallb_app, forallb_repeat_t by reflexivity. apply digits_bin. reflexivity.
  - rewrite app_length, repeat_length. pose proof (digits_len 2 (S (N.size_nat v)) v [] w ltac:(lia) Hv Hw) as H. cbn [List.length] in H. lia.
  - unfold digits_val. fold (dfold 2 0 (repeat 48 (w - List.length (digits 2 (S (N.size_nat v)) v [])) ++ digits 2 (S (N.size_nat v)) v [])).
    rewrite dfold_zeros by (auto; intros x ->; reflexivity).
    rewrite digits_fold; [reflexivity|lia|]. apply size_bound_b. lia.
Qed.
Lemma str_next s rest : no_escape s = true -> delim rest = true -> next_token (print_str s ++ rest) = ROk (KStr s, rest).
Proof.
  intros Hs Hr. unfold print_str. cbn [app]. rewrite <- app_assoc. cbn [app]. unfold next_token. rewrite trim_id by (reflexivity || discriminate).
  change (34 =? 40) with false. change (34 =? 41) with false. change (34 =? 34) with true. cbn match.
  rewrite (read_string_ok _ [] s rest Hs); [reflexivity| |rewrite app_length; pose proof (escape_len s); lia].
  destruct rest as [|c r]; [reflexivity|]. cbn [stops]. destruct (delim_not _ _ _ Hr eq_refl) as [_ [_ H]].
  apply negb_true_iff, N.eqb_neq. congruence.
Qed.
Lemma reserved_shape : forallb (fun w => match chars w with c :: s => is_sym c && negb (is_digit c) && negb (c =? 45) && forallb is_sym s | [] => false end) reserved_words = true.
Proof. vm_compute. reflexivity. Qed.
Lemma text_eqb_eq a b : text_eqb a b = true <-> a = b.
Proof.
  revert b. induction a as [|x a IH]; intros [|y b]; cbn; try (split; [discriminate|discriminate]); [split; reflexivity|].
  rewrite andb_true_iff, N.eqb_eq, IH. split; [intros [-> ->]; reflexivity|intros H; injection H as -> ->; auto].
Qed.
Lemma token_ok t rest : printable t -> delim rest = true -> exists p, print_token t = ROk p /\ next_token (p ++ rest) = ROk (t, rest).
Proof.
  intros Hp Hr. destruct t as [| |s|s|z|q|v w|s|s|]; cbn [printable print_token] in *.
  - eexists; split; reflexivity.
  - eexists; split; reflexivity.
  - destruct Hp as [H1 H2]. apply symbol_ok; assumption.
  - eexists; split; [reflexivity|]. cbn [app]. unfold next_token. rewrite trim_id by (reflexivity || discriminate).
    change (58 =? 40) with false. change (58 =? 41) with false. change (58 =? 34) with false. change (58 =? 124) with false. change (58 =? 58) with true. cbn match.
    rewrite (span_stop is_sym s rest Hp (proj1 (delim_stops _ Hr))). reflexivity.
  - eexists; split; [reflexivity|]. apply next_Z. exact Hr.
  - eexists; split; [reflexivity|]. destruct Hp as [H1 H2]. unfold print_Q. rewrite H1.
    destruct (Pos.eqb (Qden q) 1) eqn:E; [apply Pos.eqb_eq in E; contradiction|]. rewrite next_frac by exact Hr.
    destruct q as [n d]. cbn [Qnum Qden]. rewrite H1. reflexivity.
  - eexists; split; [reflexivity|]. destruct Hp as [H1 H2]. destruct (print_bin_spec w v H1 H2) as [Ha [Hl Hv]].
    cbn [app]. unfold next_token. rewrite trim_id by (reflexivity || discriminate).
    change (35 =? 40) with false. change (35 =? 41) with false. change (35 =? 34) with false. change (35 =? 124) with false. change (35 =? 58) with false.
    change (35 =? 35) with true. cbn match. unfold read_bv. change (98 =? 98) with true. cbn match.
    rewrite (span_stop is_bin _ rest Ha (proj2 (proj2 (delim_stops _ Hr)))). rewrite Hl, Hv.
    destruct (print_bin w v) as [|x y]; [cbn in Hl; lia|reflexivity].
  - eexists; split; [reflexivity|]. apply str_next; assumption.
  - eexists; split; [reflexivity|]. pose proof Hp as Hres. unfold is_reserved in Hp. apply existsb_exists in Hp. destruct Hp as [w0 [Hin Hw]].
    apply text_eqb_eq in Hw. subst s. pose proof (proj1 (forallb_forall _ _) reserved_shape w0 Hin) as Hsh. cbn beta in Hsh.
    destruct (chars w0) as [|c s]; [discriminate|]. apply andb_true_iff in Hsh. destruct Hsh as [Hsh H4]. apply andb_true_iff in Hsh. destruct Hsh as [Hsh H3].
    apply andb_true_iff in Hsh. destruct Hsh as [H1 H2]. apply negb_true_iff in H2, H3.
    cbn [app]. rewrite (next_simple c s rest H1 H2 H4 Hr), H3, Hres. reflexivity.
  - destruct Hp.
Qed.

(** ** Sequences of tokens *)
Definition paren (t : token) : bool := match t with KOpen | KClose => true | _ => false end.
(** a token is followed by white space or by a parenthesis, unless it is a parenthesis itself *)
Fixpoint spaced (l : list (token * text)) : bool :=
  match l with
  | [] => true
  | (t, ws) :: r => forallb is_ws ws
      && (paren t || match ws, r with [], (u, _) :: _ => paren u | _, _ => true end) && spaced r
  end.
Fixpoint render (l : list (token * text)) : outcome text :=
  match l with
  | [] => ROk []
  | (t, ws) :: r => do p <- print_token t ; do q <- render r ; ROk (p ++ ws ++ q)
  end.
Lemma span_len p l : (List.length (snd (span p l)) <= List.length l)%nat.
Proof. rewrite (span_eq p l) at 2. rewrite app_length. lia. Qed.
Lemma read_number_len neg l t r : read_number neg l = ROk (t, r) -> match l with c :: _ => is_digit c | [] => false end = true ->
  (List.length r < List.length l)%nat /\ t <> KEof.
Proof.
  unfold read_number. pose proof (span_eq is_digit l) as He. intros H Hd.
  destruct l as [|c l']; [discriminate|]. assert (Ha : fst (span is_digit (c :: l')) <> []).
  { cbn. rewrite Hd. destruct (span is_digit l'). discriminate. }
  destruct (span is_digit (c :: l')) as [a r0]. cbn [fst snd] in *.
  assert (Hl : (List.length r0 < List.length (c :: l'))%nat) by (rewrite He, app_length; destruct a; [congruence|cbn; lia]).
  clear He Hd Ha. destruct (match a with 48 :: _ :: _ => true | _ => false end); [discriminate|].
  assert (Hgo : forall (b : text) (r2 : text) (X : outcome (token * text)),
    match r2 with 47 :: _ | 46 :: _ => RErr | _ => X end = ROk (t, r) -> X = ROk (t, r)).
  { intros b r2 X HX. destruct r2 as [|d r2]; [exact HX|]. destruct d as [|p]; [exact HX|].
    repeat (destruct p as [p|p|]; try exact HX; try discriminate HX). }
  destruct r0 as [|d r1]; [injection H as <- <-; split; [exact Hl|discriminate]|].
  pose proof (span_len is_digit r1) as Hs.
  destruct (N.eq_dec d 47) as [->|H47].
  - destruct (span is_digit r1) as [b r2]. cbn in Hs, Hl. apply (Hgo b) in H. destruct b; [discriminate|].
    destruct (digits_val 10 (n :: b)); [discriminate|]. injection H as <- <-. split; [cbn; lia|discriminate].
  - destruct (N.eq_dec d 46) as [->|H46].
    + destruct (span is_digit r1) as [b r2]. cbn in Hs, Hl. apply (Hgo b) in H. injection H as <- <-. split; [cbn; lia|discriminate].
    + assert (H' : ROk (KNum (if neg then (- Z.of_N (digits_val 10 a))%Z else Z.of_N (digits_val 10 a)), d :: r1) = ROk (t, r)).
      { destruct d as [|p]; [exact H|]. repeat (destruct p as [p|p|]; try exact H); congruence. }
      injection H' as <- <-. split; [exact Hl|discriminate].
Qed.
Lemma read_escape_spec l : read_escape l <> RPanic /\ (forall x, read_escape l = ROk x -> (List.length (snd x) <= List.length l)%nat).
Proof.
  unfold read_escape. destruct l as [|c l]; [split; [discriminate|intros x H; discriminate]|].
  pose proof (span_n_len 5 is_hex l) as H5. pose proof (span_n_len 4 is_hex (c :: l)) as H4.
  assert (Hsnd : let (h, r1) := span_n 4 is_hex (c :: l) in
      forall X, X = (if match r1 with [] => Nat.ltb (List.length h) 4 | _ => false end then RErr else
      if negb (Nat.eqb (List.length h) 4) then ROk (chars "\u" ++ h, r1)
      else let code := digits_val 16 h in if surrogate code then RErr else ROk ([code], r1)) ->
      X <> RPanic /\ (forall x, X = ROk x -> (List.length (snd x) <= List.length (c :: l))%nat)).
  { destruct (span_n 4 is_hex (c :: l)) as [h r1]. cbn [snd] in H4. intros X ->. cbv zeta.
    destruct (match r1 with [] => Nat.ltb (List.length h) 4 | _ => false end); [split; [discriminate|intros ? H; discriminate]|].
    destruct (negb (Nat.eqb (List.length h) 4)); [split; [discriminate|intros x H; injection H as <-; exact H4]|].
    destruct (surrogate (digits_val 16 h)); (split; [discriminate|]); intros x H; [discriminate|injection H as <-; exact H4]. }
  destruct (N.eq_dec c 123) as [->|Hc].
  - destruct (span_n 5 is_hex l) as [h r1]. cbn [snd] in H5.
    destruct (match r1 with [] => Nat.ltb (List.length h) 5 | _ => false end); [split; [discriminate|intros ? H; discriminate]|].
    destruct r1 as [|d r2]; [split; [discriminate|intros x H; injection H as <-; cbn; lia]|]. cbn [List.length] in H5 |- *.
    destruct (N.eq_dec d 125) as [->|Hd].
    + destruct h as [|h0 h]; [split; [discriminate|intros x H; injection H as <-; cbn [snd]; lia]|].
      cbv zeta. destruct (196607 <? digits_val 16 (h0 :: h)); [split; [discriminate|intros x H; injection H as <-; cbn [snd]; lia]|].
      destruct (surrogate (digits_val 16 (h0 :: h))); (split; [discriminate|]); intros x H; [discriminate|injection H as <-; cbn [snd]; lia].
    + match goal with |- ?X <> _ /\ _ => assert (E : X = ROk (chars "\u{" ++ h, d :: r2)) end.
      { destruct d as [|p]; [reflexivity|]. repeat (destruct p as [p|p|]; try reflexivity); congruence. }
      rewrite E. split; [discriminate|]. intros x H. injection H as <-. cbn [snd List.length]. lia.
  - destruct (span_n 4 is_hex (c :: l)) as [h r1]. apply Hsnd.
    destruct c as [|p]; [reflexivity|]. repeat (destruct p as [p|p|]; try reflexivity); congruence.
Qed.
Lemma read_string_fuel f acc l : (List.length l < f)%nat ->
  read_string f acc l <> RPanic /\ (forall x, read_string f acc l = ROk x -> (List.length (snd x) <= List.length l)%nat).
Proof.
  revert acc l. induction f as [|f IH]; intros acc l Hf; [lia|]. cbn [read_string].
  destruct l as [|c r]; [split; [discriminate|intros x H; discriminate]|]. cbn [List.length] in Hf |- *.
  assert (Hw : forall acc' l', (List.length l' <= List.length r)%nat ->
    read_string f acc' l' <> RPanic /\ (forall x, read_string f acc' l' = ROk x -> (List.length (snd x) <= S (List.length r))%nat)).
  { intros acc' l' Hl'. destruct (IH acc' l' ltac:(lia)) as [H1 H2]. split; [exact H1|]. intros x Hx. specialize (H2 x Hx). lia. }
  destruct (c =? 34).
  - destruct r as [|d r2]; [split; [discriminate|intros x H; injection H as <-; cbn; lia]|].
    destruct (d =? 34); [apply Hw; cbn; lia|]. split; [discriminate|]. intros x H. injection H as <-. cbn. lia.
  - destruct (c =? 92); [|apply Hw; lia].
    destruct r as [|d r2]; [apply Hw; lia|].
    destruct (d =? 117); [|apply Hw; lia].
    destruct (read_escape_spec r2) as [Hp Hl]. destruct (read_escape r2) as [x| |]; cbn [obind]; [|split; [discriminate|intros ? H; discriminate]|congruence].
    specialize (Hl x eq_refl). apply Hw. cbn [List.length]. lia.
Qed.
Lemma next_token_len l t r : next_token l = ROk (t, r) -> (t = KEof /\ r = []) \/ (t <> KEof /\ (List.length r < List.length l)%nat).
Proof.
  unfold next_token. pose proof (trim_len l) as Ht. destruct (trim l) as [|c m]; [intros H; injection H as <- <-; left; auto|].
  cbn [List.length] in Ht. intros H. right.
  assert (Hsp : forall p, (List.length (snd (span p m)) <= List.length m)%nat) by (intros p; apply span_len).
  destruct (c =? 40); [injection H as <- <-; split; [discriminate|lia]|].
  destruct (c =? 41); [injection H as <- <-; split; [discriminate|lia]|].
  destruct (c =? 34).
  { destruct (read_string_fuel (S (List.length m)) [] m ltac:(lia)) as [_ H2].
    destruct (read_string (S (List.length m)) [] m) as [x| |]; try discriminate. cbn [obind] in H. injection H as <- <-. specialize (H2 x eq_refl). split; [discriminate|lia]. }
  destruct (c =? 124).
  { specialize (Hsp (fun c => negb (c =? 124) && negb (c =? 92))). destruct (span (fun c => negb (c =? 124) && negb (c =? 92)) m) as [s r1]. cbn [snd] in Hsp.
    destruct r1 as [|d r2]; [discriminate|]. cbn [List.length] in Hsp.
    destruct (N.eq_dec d 124) as [->|Hd]; [injection H as <- <-; split; [discriminate|lia]|].
    exfalso. destruct d as [|p]; [discriminate|]. repeat (destruct p as [p|p|]; try discriminate H). congruence. }
  destruct (c =? 58); [specialize (Hsp is_sym); destruct (span is_sym m); cbn [snd] in Hsp; injection H as <- <-; split; [discriminate|lia]|].
  destruct (c =? 35).
  { unfold read_bv in H. destruct m as [|d m]; [discriminate|]. cbn [List.length] in *.
    pose proof (span_len is_bin m) as Hb. pose proof (span_len is_hex m) as Hx.
    destruct (d =? 98); [destruct (span is_bin m) as [[|? ?] ?]; [discriminate|]; injection H as <- <-; cbn [snd] in Hb; split; [discriminate|lia]|].
    destruct (d =? 120); [|discriminate].
    destruct (span is_hex m) as [[|? ?] ?]; [discriminate|]; injection H as <- <-; cbn [snd] in Hx; split; [discriminate|lia]. }
  destruct (c =? 45).
  { destruct (match m with d :: _ => is_digit d | [] => false end) eqn:Ed.
    - apply read_number_len in H; [|exact Ed]. destruct H. split; [assumption|lia].
    - specialize (Hsp is_sym); destruct (span is_sym m); cbn [snd] in Hsp; injection H as <- <-; split; [discriminate|lia]. }
  destruct (is_digit c) eqn:Ed.
  { apply read_number_len in H; [|exact Ed]. cbn [List.length] in H. destruct H. split; [assumption|lia]. }
  destruct (is_sym c) eqn:Es; [|discriminate].
  cbn [span] in H. rewrite Es in H. specialize (Hsp is_sym). destruct (span is_sym m) as [s r1]. cbn [snd] in Hsp. injection H as <- <-.
  split; [destruct (is_reserved (c :: s)); discriminate|lia].
Qed.

Lemma paren_next t l : paren t = true -> exists p, print_token t = ROk p /\ next_token (p ++ l) = ROk (t, l).
Proof. destruct t; try discriminate; intros _; eexists; split; reflexivity. Qed.
Lemma print_paren t p : paren t = true -> print_token t = ROk p -> p = [40] \/ p = [41].
Proof. destruct t; try discriminate; cbn; intros _ H; injection H as <-; auto. Qed.
Lemma render_ok l : Forall (fun x => printable (fst x)) l -> spaced l = true ->
  exists q, render l = ROk q /\ (List.length l <= List.length q)%nat /\
    (forall t ws r, l = (t, ws) :: r -> paren t = true -> delim q = true) /\ (l = [] -> q = []) /\
    (forall ws0 f, forallb is_ws ws0 = true -> (List.length l < f)%nat -> lex_fuel f (ws0 ++ q) = ROk (map fst l)).
Proof.
  induction l as [|[t ws] r IH]; intros Hp Hs.
  - exists []. split; [reflexivity|]. split; [cbn; lia|]. split; [discriminate|]. split; [reflexivity|]. intros ws0 f Hw Hf. destruct f as [|f]; [cbn in Hf; lia|].
    cbn [lex_fuel]. rewrite (next_token_ws ws0 [] Hw). reflexivity.
  - cbn [spaced] in Hs. apply andb_true_iff in Hs. destruct Hs as [Hs Hr]. apply andb_true_iff in Hs. destruct Hs as [Hw Hsep].
    inversion Hp as [|? ? Hpt Hpr]; subst. cbn [fst] in Hpt. destruct (IH Hpr Hr) as [q [Eq [Hlq [Hdq [Hnil Hlex]]]]].
    assert (Ht : exists p, print_token t = ROk p /\ next_token (p ++ ws ++ q) = ROk (t, ws ++ q)).
    { destruct (paren t) eqn:Ept; [apply paren_next; exact Ept|]. apply token_ok; [exact Hpt|].
      destruct ws as [|w ws]; [|cbn in Hw |- *; apply andb_true_iff in Hw; destruct Hw as [-> _]; reflexivity].
      cbn [app]. destruct r as [|[u wsu] r]; [rewrite (Hnil eq_refl); reflexivity|]. cbn in Hsep. exact (Hdq u wsu r eq_refl Hsep). }
    destruct Ht as [p [Ep En]]. exists (p ++ ws ++ q). split; [cbn [render]; rewrite Ep; cbn [obind]; rewrite Eq; reflexivity|].
    assert (Hne : t <> KEof) by (intros ->; exact Hpt).
    split; [pose proof (next_token_len _ _ _ En) as [[E _]|[_ Hl]]; [contradiction|]; rewrite !app_length in *; cbn [List.length]; lia|].
    split; [intros t' ws' r' E Hpar; injection E as <- <- <-; destruct (print_paren _ _ Hpar Ep) as [-> | ->]; reflexivity|].
    split; [discriminate|]. intros ws0 f Hw0 Hf. destruct f as [|f]; [cbn in Hf; lia|]. cbn [lex_fuel].
    rewrite (next_token_ws ws0 _ Hw0), En. cbn [obind fst snd].
    rewrite (Hlex ws f Hw ltac:(cbn in Hf; lia)). cbn [map fst]. destruct t; try reflexivity. destruct Hpt.
Qed.
Lemma lex_render l q : Forall (fun x => printable (fst x)) l -> spaced l = true -> render l = ROk q -> lex_all q = ROk (map fst l).
Proof.
  intros Hp Hs Hq. destruct (render_ok l Hp Hs) as [q' [E [Hl [_ [_ H]]]]]. rewrite Hq in E. injection E as <-.
  unfold lex_all. apply (H [] _ eq_refl). lia.
Qed.

(** ** Panics *)
(** digits without a leading zero, '/', and then neither a digit nor '/' nor '.' *)
Definition slash_number (l : text) : Prop :=
  exists (neg : bool) a b, l = (if neg then [45] else []) ++ a ++ 47 :: b /\ a <> [] /\ forallb is_digit a = true
    /\ (forall r, a = 48 :: r -> r = []) /\ stops (fun c => is_digit c || (c =? 47) || (c =? 46)) b = true.
Lemma read_number_panic neg l : match l with c :: _ => is_digit c | [] => false end = true ->
  (read_number neg l = RPanic <-> exists a b, l = a ++ 47 :: b /\ a <> [] /\ forallb is_digit a = true
    /\ (forall r, a = 48 :: r -> r = []) /\ stops (fun c => is_digit c || (c =? 47) || (c =? 46)) b = true).
Proof.
  intros Hd. split.
  - intros H. unfold read_number in H. pose proof (span_eq is_digit l) as He. pose proof (span_all is_digit l) as Ha.
    assert (Hne : fst (span is_digit l) <> []) by (destruct l as [|c l']; [discriminate|]; cbn; rewrite Hd; destruct (span is_digit l'); discriminate).
    destruct (span is_digit l) as [a r]. cbn [fst snd] in *.
    destruct (match a with 48 :: _ :: _ => true | _ => false end) eqn:Ez; [discriminate|].
    assert (Hz : forall r0, a = 48 :: r0 -> r0 = []) by (intros r0 ->; destruct r0; [reflexivity|discriminate Ez]).
    assert (Hgo : forall (r2 : text) (X : outcome (token * text)), match r2 with 47 :: _ | 46 :: _ => RErr | _ => X end = RPanic ->
       X = RPanic /\ stops (fun c => (c =? 47) || (c =? 46)) r2 = true).
    { intros r2 X HX. destruct r2 as [|d r2]; [auto|]. cbn [stops]. destruct d as [|p]; [auto|].
      repeat (destruct p as [p|p|]; try (split; [exact HX|reflexivity]); try discriminate HX). }
    destruct r as [|d r1]; [discriminate|].
    destruct (N.eq_dec d 47) as [->|H47].
    + exists a, r1. split; [exact He|]. split; [exact Hne|]. split; [exact Ha|]. split; [exact Hz|].
      pose proof (span_eq is_digit r1) as He1. pose proof (span_stops is_digit r1) as Hs1. destruct (span is_digit r1) as [b r2]. cbn [fst snd] in *.
      apply Hgo in H. destruct H as [H Hst]. destruct b as [|b0 b].
      * cbn in He1. subst r2. destruct r1 as [|e r1]; [reflexivity|]. cbn [stops] in *. lia.
      * exfalso. destruct (digits_val 10 (b0 :: b)); discriminate.
    + exfalso. destruct (N.eq_dec d 46) as [->|H46].
      * destruct (span is_digit r1) as [b r2]. apply Hgo in H. destruct H as [H _]. discriminate.
      * destruct d as [|p]; [discriminate|]. repeat (destruct p as [p|p|]; try discriminate H); congruence.
  - intros [a [b [-> [Hne [Ha [Hz Hb]]]]]]. unfold read_number.
    rewrite (span_stop is_digit a (47 :: b) Ha eq_refl).
    assert (Ez : match a with 48 :: _ :: _ => true | _ => false end = false).
    { destruct a as [|c [|d a]]; [reflexivity|destruct c as [|p]; [reflexivity|]; repeat (destruct p as [p|p|]; try reflexivity)|].
      destruct (N.eq_dec c 48) as [->|Hc]; [discriminate (Hz _ eq_refl)|].
      destruct c as [|p]; [reflexivity|]. repeat (destruct p as [p|p|]; try reflexivity). congruence. }
    rewrite Ez.
    assert (Hs1 : stops is_digit b = true) by (destruct b as [|c b]; cbn [stops] in *; [reflexivity|lia]).
    assert (Hs2 : stops (fun c => (c =? 47) || (c =? 46)) b = true) by (destruct b as [|c b]; cbn [stops] in *; [reflexivity|lia]).
    change b with ([] ++ b). rewrite (span_stop is_digit [] b eq_refl Hs1). cbn match.
    change ([] ++ b) with b. rewrite (match4746 b _ _ _ Hs2). reflexivity.
Qed.
Lemma next_token_panic l : next_token l = RPanic <-> slash_number (trim l).
Proof.
  unfold next_token, slash_number. destruct (trim l) as [|c m].
  { split; [discriminate|]. intros [neg [a [b [E _]]]]. exfalso. destruct neg, a; discriminate E. }
  assert (Hno : is_digit c = false -> c <> 45 -> ~ exists (neg : bool) a b, c :: m = (if neg then [45] else []) ++ a ++ 47 :: b /\ a <> [] /\ forallb is_digit a = true
    /\ (forall r, a = 48 :: r -> r = []) /\ stops (fun c => is_digit c || (c =? 47) || (c =? 46)) b = true).
  { intros Hd Hc [neg [a [b [E [Hne [Ha _]]]]]]. destruct neg; cbn [app] in E; [injection E as E1 E2; contradiction|].
    destruct a as [|a0 a]; [congruence|]. cbn in E. injection E as -> _. cbn in Ha. rewrite Hd in Ha. discriminate. }
  assert (Hx : forall k, c =? k = true -> is_digit k = false -> k <> 45 -> is_digit c = false /\ c <> 45)
    by (intros k Hk; apply N.eqb_eq in Hk; subst; auto).
  destruct (c =? 40) eqn:E40; [split; [discriminate|intros H; exfalso; revert H; apply Hno; apply (Hx _ E40); (reflexivity || discriminate)]|].
  destruct (c =? 41) eqn:E41; [split; [discriminate|intros H; exfalso; revert H; apply Hno; apply (Hx _ E41); (reflexivity || discriminate)]|].
  destruct (c =? 34) eqn:E34.
  { split; [|intros H; exfalso; revert H; apply Hno; apply (Hx _ E34); (reflexivity || discriminate)].
    destruct (read_string_fuel (S (List.length m)) [] m ltac:(lia)) as [H1 _].
    destruct (read_string (S (List.length m)) [] m); [discriminate|discriminate|congruence]. }
  destruct (c =? 124) eqn:E124.
  { split; [|intros H; exfalso; revert H; apply Hno; apply (Hx _ E124); (reflexivity || discriminate)].
    destruct (span (fun c => negb (c =? 124) && negb (c =? 92)) m) as [s r1].
    destruct r1 as [|d r2]; [discriminate|]. destruct d as [|p]; [discriminate|]. repeat (destruct p as [p|p|]; try discriminate). }
  destruct (c =? 58) eqn:E58.
  { split; [destruct (span is_sym m); discriminate|intros H; exfalso; revert H; apply Hno; apply (Hx _ E58); (reflexivity || discriminate)]. }
  destruct (c =? 35) eqn:E35.
  { split; [|intros H; exfalso; revert H; apply Hno; apply (Hx _ E35); (reflexivity || discriminate)].
    unfold read_bv. destruct m as [|d m]; [discriminate|]. destruct (d =? 98); [destruct (span is_bin m) as [[|? ?] ?]; discriminate|].
    destruct (d =? 120); [destruct (span is_hex m) as [[|? ?] ?]; discriminate|discriminate]. }
  destruct (c =? 45) eqn:E45.
  { apply N.eqb_eq in E45. subst c. destruct (match m with d :: _ => is_digit d | [] => false end) eqn:Ed.
    - rewrite (read_number_panic true m Ed). split.
      + intros [a [b [-> H]]]. exists true, a, b. split; [reflexivity|exact H].
      + intros [neg [a [b [E H]]]]. destruct neg; [injection E as ->; eauto|]. exfalso. destruct H as [Hne [Ha _]]. destruct a as [|a0 a]; [congruence|].
        cbn in E. injection E as <- _. cbn in Ha. discriminate.
    - split; [destruct (span is_sym m); discriminate|]. intros [neg [a [b [E [Hne [Ha _]]]]]]. exfalso. destruct a as [|a0 a]; [congruence|].
      cbn in Ha. apply andb_true_iff in Ha. destruct Ha as [Ha0 _]. destruct neg; cbn in E.
      + injection E as ->. rewrite Ha0 in Ed. discriminate.
      + injection E as <- _. discriminate. }
  destruct (is_digit c) eqn:Ed.
  { rewrite (read_number_panic false (c :: m) Ed). split.
    - intros [a [b [E H]]]. exists false, a, b. auto.
    - intros [neg [a [b [E H]]]]. destruct neg; [|eauto]. cbn in E. injection E as -> _. discriminate. }
  split; [|intros H; exfalso; revert H; apply Hno; [reflexivity|apply N.eqb_neq; exact E45]].
  destruct (is_sym c); [|discriminate]. destruct (span is_sym (c :: m)); discriminate.
Qed.
(** the input that remains after reading some tokens *)
Inductive reads : text -> list token -> text -> Prop :=
| reads_nil l : reads l [] l
| reads_cons l t r ts r' : next_token l = ROk (t, r) -> t <> KEof -> reads r ts r' -> reads l (t :: ts) r'.
Lemma lex_fuel_panic f l : (List.length l < f)%nat -> (lex_fuel f l = RPanic <-> exists ts r, reads l ts r /\ slash_number (trim r)).
Proof.
  revert l. induction f as [|f IH]; intros l Hf; [lia|]. cbn [lex_fuel].
  destruct (next_token l) as [[t r]| |] eqn:En; cbn [obind fst snd].
  - destruct (next_token_len _ _ _ En) as [[-> ->]|[Hne Hl]].
    + split; [discriminate|]. intros [ts [r [Hr Hsl]]]. exfalso. inversion Hr as [|? ? ? ? ? H1 H2 H3]; subst.
      * apply next_token_panic in Hsl. congruence.
      * rewrite En in H1. injection H1 as <- <-. contradiction.
    + specialize (IH r ltac:(lia)). split.
      * intros H. assert (Hp : lex_fuel f r = RPanic).
        { destruct t; try contradiction; destruct (lex_fuel f r); try discriminate H; reflexivity. }
        apply IH in Hp. destruct Hp as [ts [r' [H1 H2]]]. exists (t :: ts), r'. split; [econstructor; eassumption|exact H2].
      * intros [ts [r' [Hr Hsl]]]. inversion Hr as [|? ? ? ? ? H1 H2 H3]; subst; [apply next_token_panic in Hsl; congruence|].
        rewrite En in H1. injection H1 as <- <-. rewrite (proj2 IH (ex_intro _ _ (ex_intro _ _ (conj H3 Hsl)))). destruct t; try contradiction; reflexivity.
  - split; [discriminate|]. intros [ts [r' [Hr Hsl]]]. exfalso. inversion Hr as [|? ? ? ? ? H1 H2 H3]; subst; [apply next_token_panic in Hsl; congruence|].
    congruence.
  - split; [|reflexivity]. intros _. exists [], l. split; [constructor|]. apply next_token_panic. exact En.
Qed.
Lemma lex_all_panic l : lex_all l = RPanic <-> exists ts r, reads l ts r /\ slash_number (trim r).
Proof. apply lex_fuel_panic. lia. Qed.
