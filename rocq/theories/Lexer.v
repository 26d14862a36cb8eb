(** The lexer (parser/lexer.rs) and the printing of tokens and constants (ast/printer.rs), over characters given by
    their Unicode code points. *)
From Coq Require Import List Bool NArith ZArith QArith Lia String Ascii.
From Verif Require Import Base.
Import ListNotations.
Open Scope list_scope.
Open Scope N_scope.

(** A [char] is modelled by its code point, an input by the list of its characters. Simplification: reading errors
    (IO, invalid UTF-8) are not modelled, and the positions that only occur in error messages are dropped. The buffering
    by lines ([next_char], [next_line], lexer.rs:184-217) is flattened: a line ends with '\n' or with the input. *)
Definition text : Type := list N.
Fixpoint chars (s : string) : text :=
  match s with EmptyString => [] | String c r => N_of_ascii c :: chars r end.

(** [char::is_whitespace] (the Unicode property White_Space) *)
Definition is_ws (c : N) : bool :=
  ((9 <=? c) && (c <=? 13)) || (c =? 32) || (c =? 133) || (c =? 160) || (c =? 5760) || ((8192 <=? c) && (c <=? 8202))
  || (c =? 8232) || (c =? 8233) || (c =? 8239) || (c =? 8287) || (c =? 12288).
Definition is_digit (c : N) : bool := (48 <=? c) && (c <=? 57).
Definition is_upper (c : N) : bool := (65 <=? c) && (c <=? 90).
Definition is_lower (c : N) : bool := (97 <=? c) && (c <=? 122).
(** [char::is_ascii_hexdigit], and [is_digit(16)] *)
Definition is_hex (c : N) : bool := is_digit c || ((65 <=? c) && (c <=? 70)) || ((97 <=? c) && (c <=? 102)).
Definition is_bin (c : N) : bool := (c =? 48) || (c =? 49).
Definition memN (c : N) (l : list N) : bool := existsb (N.eqb c) l.
(** utils.rs:12-24 [is_symbol_character] *)
Definition is_sym (c : N) : bool := is_digit c || is_upper c || is_lower c || memN c (chars "+-/*=%?!.$_~&^<>@'").
(** the value of a digit *)
Definition dval (c : N) : N := if c <=? 57 then c - 48 else if c <=? 90 then c - 55 else c - 87.
(** [Integer::from_str_radix] on a non-empty list of digits *)
Definition digits_val (base : N) (l : text) : N := fold_left (fun acc c => acc * base + dval c) l 0.

(** lexer.rs:46-145 *)
Definition reserved_words : list string :=
  ["_"; "!"; "as"; "let"; "exists"; "forall"; "match"; "choice"; "lambda"; "cl"; "assume"; "step"; "anchor";
   "declare-fun"; "declare-const"; "declare-sort"; "define-fun"; "define-fun-rec"; "define-funs-rec"; "define-sort";
   "assert"; "check-sat-assuming"; "set-logic"; "declare-rare-rule"]%string.
Fixpoint text_eqb (a b : text) : bool :=
  match a, b with
  | [], [] => true
  | x :: a, y :: b => (x =? y) && text_eqb a b
  | _, _ => false
  end.
(** [Reserved::from_str(s).is_ok()] *)
Definition is_reserved (s : text) : bool := existsb (fun w => text_eqb (chars w) s) reserved_words.

(** lexer.rs:11-44 *)
Inductive token : Type :=
| KOpen | KClose | KSym (s : text) | KKey (s : text) | KNum (z : Z) | KDec (q : Q) | KBv (v : N) (w : nat)
| KStr (s : text) | KRes (s : text) | KEof.

(** lexer.rs:219-232 [read_chars_while] *)
Fixpoint span (p : N -> bool) (l : text) : text * text :=
  match l with
  | [] => ([], [])
  | c :: r => if p c then let (a, b) := span p r in (c :: a, b) else ([], l)
  end.
(** lexer.rs:234-247 *)
Fixpoint drop_ws (l : text) : text :=
  match l with [] => [] | c :: r => if is_ws c then drop_ws r else l end.
(** lexer.rs:206-217: the rest of the line is dropped *)
Fixpoint drop_line (l : text) : text :=
  match l with [] => [] | c :: r => if c =? 10 then r else drop_line r end.
(** lexer.rs:249-258 [consume_whitespace] *)
Fixpoint consume (fuel : nat) (l : text) : text :=
  match fuel with
  | O => l
  | S f => match drop_ws l with
           | c :: r => if c =? 59 then consume f (drop_line r) else c :: r
           | [] => []
           end
  end.
Definition trim (l : text) : text := consume (S (List.length l)) l.

(** lexer.rs:366-411 [read_number]; parsing an empty string of digits panics. *)
Definition read_number (neg : bool) (l : text) : outcome (token * text) :=
  let (a, r) := span is_digit l in
  if match a with 48 :: _ :: _ => true | _ => false end then RErr else
  match r with
  | 47 :: r1 =>
      let (b, r2) := span is_digit r1 in
      match r2 with
      | 47 :: _ | 46 :: _ => RErr
      | _ =>
          match b with
          | [] => RPanic
          | _ => match digits_val 10 b with
                 | 0 => RErr
                 | Npos d =>
                     let q := Qmake (Z.of_N (digits_val 10 a)) d in
                     ROk (KDec (Qred (if neg then Qopp q else q)), r2)
                 end
          end
      end
  | 46 :: r1 =>
      let (b, r2) := span is_digit r1 in
      match r2 with
      | 47 :: _ | 46 :: _ => RErr
      | _ =>
          let q := Qmake (Z.of_N (digits_val 10 (a ++ b))) (Pos.pow 10 (Pos.of_nat (List.length b))) in
          let q := match b with [] => Qmake (Z.of_N (digits_val 10 a)) 1 | _ => q end in
          ROk (KDec (Qred (if neg then Qopp q else q)), r2)
      end
  | _ => let z := Z.of_N (digits_val 10 a) in ROk (KNum (if neg then Z.opp z else z), r)
  end.

(** at most [n] characters that satisfy [p] *)
Fixpoint span_n (n : nat) (p : N -> bool) (l : text) : text * text :=
  match n, l with
  | S n, c :: r => if p c then let (a, b) := span_n n p r in (c :: a, b) else ([], l)
  | _, _ => ([], l)
  end.
(** [char::from_u32] fails on surrogates *)
Definition surrogate (c : N) : bool := (55296 <=? c) && (c <=? 57343).
(** lexer.rs:448-528 [read_unicode_escape_sequence]: what is appended to the string, and the remaining input. The loops
    fail at the end of the input before they look at the number of digits. *)
Definition read_escape (l : text) : outcome (text * text) :=
  match l with
  | [] => RErr
  | 123 :: r =>
      let (h, r1) := span_n 5 is_hex r in
      if match r1 with [] => Nat.ltb (List.length h) 5 | _ => false end then RErr else
      match r1 with
      | 125 :: r2 =>
          match h with
          | [] => ROk (chars "\u{}", r2)
          | _ =>
              let code := digits_val 16 h in
              if 196607 <? code then ROk (chars "\u{" ++ h ++ chars "}", r2)
              else if surrogate code then RErr else ROk ([code], r2)
          end
      | _ => ROk (chars "\u{" ++ h, r1)
      end
  | _ =>
      let (h, r1) := span_n 4 is_hex l in
      if match r1 with [] => Nat.ltb (List.length h) 4 | _ => false end then RErr else
      if negb (Nat.eqb (List.length h) 4) then ROk (chars "\u" ++ h, r1)
      else let code := digits_val 16 h in if surrogate code then RErr else ROk ([code], r1)
  end.
(** lexer.rs:413-446 [read_string], after the opening quote. Fuel: see [read_string_fuel]. *)
Fixpoint read_string (fuel : nat) (acc : text) (l : text) : outcome (text * text) :=
  match fuel with
  | O => RPanic
  | S f =>
      match l with
      | [] => RErr
      | c :: r =>
          if c =? 34 then
            match r with
            | d :: r2 => if d =? 34 then read_string f (acc ++ [34]) r2 else ROk (acc, r)
            | [] => ROk (acc, r)
            end
          else if c =? 92 then
            match r with
            | d :: r2 => if d =? 117 then do x <- read_escape r2 ; read_string f (acc ++ fst x) (snd x)
                         else read_string f (acc ++ [92]) r
            | [] => read_string f (acc ++ [92]) r
            end
          else read_string f (acc ++ [c]) r
      end
  end.
(** lexer.rs:336-364 [read_bitvector] *)
Definition read_bv (l : text) : outcome (token * text) :=
  match l with
  | [] => RErr
  | c :: r =>
      if c =? 98 then
        let (s, r1) := span is_bin r in
        match s with [] => RErr | _ => ROk (KBv (digits_val 2 s) (List.length s), r1) end
      else if c =? 120 then
        let (s, r1) := span is_hex r in
        match s with [] => RErr | _ => ROk (KBv (digits_val 16 s) (List.length s * 4), r1) end
      else RErr
  end.
(** lexer.rs:260-334 *)
Definition next_token (l0 : text) : outcome (token * text) :=
  match trim l0 with
  | [] => ROk (KEof, [])
  | c :: r =>
      if c =? 40 then ROk (KOpen, r)
      else if c =? 41 then ROk (KClose, r)
      else if c =? 34 then do x <- read_string (S (List.length r)) [] r ; ROk (KStr (fst x), snd x)
      else if c =? 124 then
        let (s, r1) := span (fun c => negb (c =? 124) && negb (c =? 92)) r in
        match r1 with
        | 124 :: r2 => ROk (KSym s, r2)
        | _ => RErr
        end
      else if c =? 58 then let (s, r1) := span is_sym r in ROk (KKey s, r1)
      else if c =? 35 then read_bv r
      else if c =? 45 then
        if match r with d :: _ => is_digit d | [] => false end then read_number true r
        else let (s, r1) := span is_sym r in ROk (KSym (45 :: s), r1)
      else if is_digit c then read_number false (c :: r)
      else if is_sym c then
        let (s, r1) := span is_sym (c :: r) in ROk (if is_reserved s then KRes s else KSym s, r1)
      else RErr
  end.
(** all tokens of an input *)
Fixpoint lex_fuel (fuel : nat) (l : text) : outcome (list token) :=
  match fuel with
  | O => RPanic
  | S f => do x <- next_token l ;
           match fst x with KEof => ROk [] | t => do ts <- lex_fuel f (snd x) ; ROk (t :: ts) end
  end.
Definition lex_all (l : text) : outcome (list token) := lex_fuel (S (List.length l)) l.

(** ** Printing *)
(** [Display] of a natural number: decimal digits *)
Fixpoint digits (base : N) (fuel : nat) (n : N) (acc : text) : text :=
  match fuel with
  | O => acc
  | S f => if n <? base then (48 + n) :: acc else digits base f (n / base) ((48 + n mod base) :: acc)
  end.
Definition print_N (n : N) : text := digits 10 (S (N.size_nat n)) n [].
Definition print_Z (z : Z) : text :=
  match z with Zneg p => 45 :: print_N (Npos p) | _ => print_N (Z.to_N z) end.
(** [Display] of [rug::Rational]; the fraction is in lowest terms *)
Definition print_Q (q : Q) : text :=
  let q := Qred q in
  print_Z (Qnum q) ++ (if Pos.eqb (Qden q) 1 then [] else 47 :: print_N (Npos (Qden q))).
(** printer.rs:438-459; [assert!] *)
Definition needs_quote (s : text) : bool :=
  match s with
  | [] => true
  | c :: _ => is_digit c || is_reserved s || existsb (fun c => negb (is_sym c)) s
  end.
Definition quote_symbol (s : text) : outcome text :=
  if existsb (N.eqb 124) s then RPanic
  else ROk (if needs_quote s then 124 :: s ++ [124] else s).
(** printer.rs:461-467 *)
Definition escape_string (s : text) : text := flat_map (fun c => if c =? 34 then [34; 34] else [c]) s.
Definition print_str (s : text) : text := 34 :: escape_string s ++ [34].
(** printer.rs:498-514, [Constant::Real] *)
Definition print_real (q : Q) : text :=
  let q := Qred q in
  if Pos.eqb (Qden q) 1 && Z.leb 0 (Qnum q) then print_Z (Qnum q) ++ [46; 48]
  else print_Z (Qnum q) ++ 47 :: print_N (Npos (Qden q)).
(** binary digits padded with zeroes to a width *)
Definition print_bin (w : nat) (v : N) : text :=
  let d := digits 2 (S (N.size_nat v)) v [] in repeat 48 (w - List.length d) ++ d.
(** printer.rs:568-586 [Display for Token] *)
Definition print_token (t : token) : outcome text :=
  match t with
  | KOpen => ROk [40]
  | KClose => ROk [41]
  | KSym s => quote_symbol s
  | KKey s => ROk (58 :: s)
  | KNum z => ROk (print_Z z)
  | KDec q => ROk (print_Q q)
  | KBv v w => ROk (35 :: 98 :: print_bin w v)
  | KStr s => ROk (print_str s)
  | KRes s => ROk s
  | KEof => ROk (chars "EOF")
  end.
