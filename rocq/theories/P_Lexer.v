(** C37: printed symbols, numbers, strings and tokens are read back by the lexer as the same ones. *)
From Coq Require Import List Bool NArith ZArith QArith String.
From Verif Require Import Base Lexer LexerSound.
Import ListNotations.
Local Open Scope N_scope.

(** In these statements [rest] is what follows in the text: the end, white space or a parenthesis ([delim]). *)

(** Integers and reals, without conditions. *)
Theorem C37_integers : forall z rest, delim rest = true -> next_token (print_Z z ++ rest) = ROk (KNum z, rest).
Proof. exact next_Z. Qed.
Print Assumptions C37_integers.
Theorem C37_reals : forall q rest, delim rest = true ->
  exists q', next_token (print_real q ++ rest) = ROk (KDec q', rest) /\ Qeq q' q.
Proof. intros q rest H. exists (Qred q). split; [exact (next_real q rest H)|apply Qred_correct]. Qed.
Print Assumptions C37_reals.

(** Strings without the characters \u one after the other; otherwise a string may be read as another one. *)
Theorem C37_strings_partial : forall s rest, no_escape s = true -> delim rest = true ->
  next_token (print_str s ++ rest) = ROk (KStr s, rest).
Proof. exact str_next. Qed.
Print Assumptions C37_strings_partial.
Theorem C37_strings_refuted : exists s s', s' <> s /\ next_token (print_str s) = ROk (KStr s', []).
Proof. exists (chars "\u{61}"), (chars "a"). split; [discriminate|reflexivity]. Qed.
Print Assumptions C37_strings_refuted.

(** Symbols without | and \ that are not a dash and a digit. A symbol that begins like a negative number is not
    quoted and is read as that number; a symbol that contains | makes the printer panic, and one that contains \ is
    printed between bars, where it cannot be read. *)
Theorem C37_symbols_partial : forall s rest, quotable s = true -> dash_digit s = false -> delim rest = true ->
  exists p, quote_symbol s = ROk p /\ next_token (p ++ rest) = ROk (KSym s, rest).
Proof. exact symbol_ok. Qed.
Print Assumptions C37_symbols_partial.
Theorem C37_symbols_refuted :
  (exists s p, next_token (124 :: s ++ [124]) = ROk (KSym s, []) /\ quote_symbol s = ROk p /\ next_token p = ROk (KNum (-5), [])) /\
  (exists s, quote_symbol s = RPanic) /\
  (exists s p, quote_symbol s = ROk p /\ next_token p = RErr).
Proof.
  split; [|split].
  - exists (chars "-5"), (chars "-5"). repeat split.
  - exists [124]. reflexivity.
  - exists [92], [124; 92; 124]. split; reflexivity.
Qed.
Print Assumptions C37_symbols_refuted.

(** Tokens: [printable] asks in addition that a keyword consists of symbol characters, that a reserved word is one, that
    a decimal is a proper fraction in lowest terms and that a bit vector fits its width, which is at least 1. *)
Theorem C37_tokens_partial : forall t rest, printable t -> delim rest = true ->
  exists p, print_token t = ROk p /\ next_token (p ++ rest) = ROk (t, rest).
Proof. exact token_ok. Qed.
Print Assumptions C37_tokens_partial.
(** A decimal token that is an integer is printed like an integer. *)
Theorem C37_tokens_refuted : exists t p t', next_token (chars "3.0") = ROk (t, []) /\ print_token t = ROk p /\
  next_token p = ROk (t', []) /\ t' <> t.
Proof. exists (KDec 3), (chars "3"), (KNum 3). repeat split. discriminate. Qed.
Print Assumptions C37_tokens_refuted.

(** Sequences of printable tokens, with white space between any two tokens neither of which is a parenthesis. *)
Theorem C37_sequences_partial : forall l q, Forall (fun x => printable (fst x)) l -> spaced l = true -> render l = ROk q ->
  lex_all q = ROk (map fst l).
Proof. exact lex_render. Qed.
Print Assumptions C37_sequences_partial.
Example C37_sequences_ex :
  let l := [(KOpen, []); (KSym (chars "f x"), [32]); (KNum (-12), []); (KOpen, []); (KKey (chars "named"), [10; 9]);
            (KStr (chars "say ""hi"""), []); (KClose, [32]); (KBv 5 4, [160]); (KDec (-2 # 3), []); (KClose, [])] in
  Forall (fun x => printable (fst x)) l /\ spaced l = true /\
  (exists q, render l = ROk q) /\ render [(KBv 5 4, [])] = ROk (chars "#b0101").
Proof.
  intros l. split; [|split; [reflexivity|split; [eexists; vm_compute; reflexivity|reflexivity]]].
  repeat constructor; vm_compute; auto; discriminate.
Qed.

(** White space and comments do not matter. *)
Theorem C37_blank : forall l,
  (forall ws, forallb is_ws ws = true -> next_token (ws ++ l) = next_token l) /\
  (forall com, forallb (fun c => negb (c =? 10)) com = true -> next_token (59 :: com ++ 10 :: l) = next_token l).
Proof. intros l. split; [intros ws; apply next_token_ws|intros com; apply next_token_comment]. Qed.
Print Assumptions C37_blank.

(** The lexer panics exactly on a text one of whose tokens is an optional dash, a decimal number and a slash not
    followed by a digit, a slash or a dot. *)
Theorem C33_lexer_panic : forall l, lex_all l = RPanic <-> exists ts r, reads l ts r /\ slash_number (trim r).
Proof. exact lex_all_panic. Qed.
Print Assumptions C33_lexer_panic.
Theorem C33_lexer_panic_refuted : exists l, lex_all l = RPanic.
Proof. exists (chars "(assert (= x 1/))"). vm_compute. reflexivity. Qed.
Print Assumptions C33_lexer_panic_refuted.

Example C37_ex_sym : exists s p, quotable s = true /\ dash_digit s = false /\ quote_symbol s = ROk p /\ p <> s /\ next_token p = ROk (KSym s, []).
Proof. exists (chars "let"), (chars "|let|"). repeat split. discriminate. Qed.
Example C37_ex_num : next_token (print_Z (-120) ++ [41]) = ROk (KNum (-120), [41]) /\ print_real (-2 # 4) = chars "-1/2" /\ print_real 7 = chars "7.0".
Proof. repeat split. Qed.
