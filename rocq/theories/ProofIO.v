(** Whole proofs as texts: the printer (ast/printer.rs [write_proof]) and the parser of the commands (parser/mod.rs [parse_proof] and the command parsers), over the
    characters of the text. The printer is the one of Parser.v ([print_proof]: references become ids) followed by the printing of each command; proofs have no constant
    definitions. In the parser all tokens are read first (the code reads them one by one, so that it may report another error before a lexical one). *)
From Coq Require Import List Bool NArith ZArith Arith String.
From Verif Require Import Base Term Sem Utils Rules Checker Lexer TermIO Parser.
Import ListNotations.
Local Open Scope string_scope.
Local Open Scope nat_scope.
Local Open Scope list_scope.

(** ** Printer *)
Definition key (x : string) : piece := (chars (":" ++ x)%string, Some (KKey (chars x))).
(** printer.rs:383-391 and 403-411: the ids of [:premises] and of [:discharge]; the first one of [:discharge] is not quoted *)
Definition p_refs (k : string) (quoted : bool) (l : list string) : outcome (list piece) :=
  match l with
  | [] => ROk []
  | x :: r =>
      do h <- (if quoted then p_sym x else ROk (word (chars x))) ;
      do t <- p_tail (fun x => do q <- p_sym x ; ROk [q]) r ;
      ROk (sp :: key k :: sp :: lp :: h :: t ++ [rp])
  end.
(** printer.rs:216-229, an argument of an anchor *)
Definition p_svar0 (v : string * sort) : outcome (list piece) := do q <- p_sym (fst v) ; do s <- p_sort (snd v) ; ROk (lp :: q :: sp :: s ++ [rp]).
Section PrintProof.
  Variable share : term -> bool.
  Definition p_anchor_arg (a : anchor) (ind : list term) : outcome (list piece * list term) :=
    match a with
    | AVar v => do x <- p_svar0 v ; ROk (x, ind)
    | AAssign v t => do x <- p_svar0 v ; do y <- p_term share t ind ; ROk (lp :: key "=" :: sp :: x ++ sp :: fst y ++ [rp], snd y)
    end.
  (** [:args (...)] of a step (393-401) and of an anchor (207-234); nothing if there are none *)
  Definition p_args {A} (f : A -> list term -> outcome (list piece * list term)) (l : list A) (ind : list term) : outcome (list piece * list term) :=
    match l with [] => ROk ([], ind) | _ => do y <- p_paren f l ind ; ROk (sp :: key "args" :: sp :: fst y, snd y) end.
  (** printer.rs:198-239, 371-414: one command, with the end of the line. The rule is not quoted. *)
  Definition p_cmd (r : raw) (ind : list term) : outcome (list piece * list term) :=
    match r with
    | RwAssume id t => do q <- p_sym id ; do x <- p_term share t ind ; ROk (lp :: kw "assume" :: sp :: q :: sp :: fst x ++ [rp; nl], snd x)
    | RwStep id cl rule prems args disch =>
        do q <- p_sym id ; do c <- p_tail_st (p_term share) cl ind ; do ps <- p_refs "premises" true prems ;
        do a <- p_args (p_term share) args (snd c) ; do ds <- p_refs "discharge" false disch ;
        ROk (lp :: kw "step" :: sp :: q :: sp :: lp :: kw "cl" :: fst c ++ rp :: sp :: key "rule" :: sp :: word (chars rule) :: ps ++ fst a ++ ds ++ [rp; nl], snd a)
    | RwAnchor e args =>
        do q <- p_sym e ; do a <- p_args p_anchor_arg args ind ;
        ROk (lp :: kw "anchor" :: sp :: key "step" :: sp :: q :: fst a ++ [rp; nl], snd a)
    | RwDefine => ROk ([], ind)
    end.
  Fixpoint p_cmds (rs : list raw) (ind : list term) : outcome (list piece * list term) :=
    match rs with
    | [] => ROk ([], ind)
    | r :: rs => do x <- p_cmd r ind ; do y <- p_cmds rs (snd x) ; ROk (fst x ++ fst y, snd y)
    end.
  (** printer.rs:190-250 *)
  Definition print_proof_text (proof : list command) : outcome text :=
    match print_proof proof with Some rs => do x <- p_cmds rs [] ; ROk (out (fst x)) | None => RPanic end.
End PrintProof.

(** ** Parser *)
Section ReadProof.
  (** the configuration of the term parser, [parse_hole_args], and the sorts that are declared *)
  Variables (cf : pcfg) (holes : bool) (sdecl : sdecls).
  (** the fuel of the term parser *)
  Variable F : nat.
  Notation pterm := (parse cf sdecl F MTerm).
  Notation psort := (parse cf sdecl F MSort).
  Definition is_key (k : string) (ts : list token) : bool := match ts with KKey s :: _ => text_eqb s (chars k) | _ => false end.
  Definition expect_key (k : string) (ts : list token) : outcome (list token) := if is_key k ts then ROk (tl ts) else RErr.
  (** 682-720 [ignore_remaining_attributes]. Fuel: one for each keyword. *)
  Fixpoint skip_attrs (n : nat) (ts : list token) : outcome (list token) :=
    match ts with
    | KKey _ :: r =>
        match n with
        | O => RPanic
        | S n =>
            match r with
            | [] | KClose :: _ | KEof :: _ => ROk r
            | KKey _ :: _ => skip_attrs n r
            | KOpen :: r => do r <- skip_parens 1 r ; match r with KClose :: _ => ROk r | _ => skip_attrs n r end
            | _ :: r => match r with KClose :: _ => ROk r | _ => skip_attrs n r end
            end
        end
    | _ => ROk ts
    end.
  (** the end of a command: attributes that are ignored and the closing parenthesis *)
  Definition close_cmd (ts : list token) : outcome (list token) := do r <- skip_attrs F ts ; expect is_close r.
  (** 1371-1379 *)
  Definition term_of_sort (s : sort) (E : venv) (D : defs) (ts : list token) : outcome (term * defs * list token) :=
    do x <- pterm E D ts ; let '(t, D1, r) := x in rassert (sort_eqb s (sort_of t)) ;; ROk (t, D1, r).
  (** 986-992 *)
  Definition read_assume (E : venv) (D : defs) (ts : list token) : outcome (raw * defs * list token) :=
    do x <- expect_symbol ts ; do y <- term_of_sort SBool E D (snd x) ;
    let '(t, D1, r1) := y in
    do r2 <- close_cmd r1 ; ROk (RwAssume (fst x) t, D1, r2).
  (** a list in parentheses after a keyword, if there is the keyword *)
  Definition opt_seq {A S} (k : string) (p : S -> list token -> outcome (A * S * list token)) (s : S) (ts : list token) : outcome (list A * S * list token) :=
    if is_key k ts then do r <- expect is_open (tl ts) ; seq1 p F s r else ROk ([], s, ts).
  (** 1058-1066, 1074-1087: the ids are looked up at once; what is found is not kept here, [parse_cmd] looks them up again *)
  Definition read_ref (look : string -> outcome (nat * nat)) (u : unit) (ts : list token) : outcome (string * unit * list token) :=
    do x <- expect_symbol ts ; do _ <- look (fst x) ; ROk (fst x, u, snd x).
  (** 996-1054 *)
  Definition read_step (ids : list (list (string * nat))) (E : venv) (D : defs) (ts : list token) : outcome (raw * defs * list token) :=
    do x <- expect_symbol ts ;
    do r1 <- expect is_open (snd x) ;
    do r2 <- expect (fun k => match k with KRes w => text_eqb w (chars "cl") | _ => false end) r1 ;
    do y <- seq (term_of_sort SBool E) F D r2 ;
    let '(cl, D1, r3) := y in
    do r4 <- expect_key "rule" r3 ;
    match r4 with
    | KSym w :: r5 | KRes w :: r5 =>
        let rule := string_of w in
        do z <- opt_seq "premises" (read_ref (parse_premise ids)) tt r5 ;
        let '(prems, _, r6) := z in
        do a <- (if is_key "args" r6 then
                   do r <- expect is_open (tl r6) ;
                   if String.eqb rule "hole" && negb holes then do r7 <- skip_parens 1 r ; ROk ([], D1, r7) else seq1 (pterm E) F D1 r
                 else ROk ([], D1, r6)) ;
        let '(args, D2, r7) := a in
        do d <- opt_seq "discharge" (read_ref (parse_discharge ids (fst x))) tt r7 ;
        let '(disch, _, r8) := d in
        do r9 <- close_cmd r8 ; ROk (RwStep (fst x) cl rule prems args disch, D2, r9)
    | _ => RErr
    end.
  (** 1115-1145. [N] are the variables of the new scope. *)
  Definition read_anchor_arg (E : venv) (ND : venv * defs) (ts : list token) : outcome (anchor * (venv * defs) * list token) :=
    let (N, D) := ND in
    match ts with
    | KOpen :: KKey w :: r =>
        if text_eqb w (chars "=") then
          match r with
          | KSym x :: r' =>
              if strict cf then RErr
              else do y <- pterm (N ++ E) D r' ;
                   let '(t, D1, r1) := y in
                   do r2 <- expect is_close r1 ; ROk (AAssign (string_of x, sort_of t) t, ((string_of x, sort_of t) :: N, D1), r2)
          | _ =>
              do x <- TermIO.sorted_var (fun _ => psort (N ++ E)) (N, D) r ;
              let '(v, ND1, r1) := x in
              do y <- term_of_sort (snd v) (N ++ E) (snd ND1) r1 ;
              let '(t, D1, r2) := y in
              do r3 <- expect is_close r2 ; ROk (AAssign v t, (v :: N, D1), r3)
          end
        else RErr
    | _ => do x <- TermIO.sorted_var (fun _ => psort (N ++ E)) (N, D) ts ; let '(v, ND1, r1) := x in ROk (AVar v, ND1, r1)
    end.
  (** 1093-1111 *)
  Definition read_anchor (E : venv) (D : defs) (ts : list token) : outcome (raw * venv * defs * list token) :=
    do r0 <- expect_key "step" ts ; do x <- expect_symbol r0 ;
    do y <- opt_seq "args" (read_anchor_arg E) ([], D) (snd x) ;
    let '(args, ND, r1) := y in
    do r2 <- close_cmd r1 ; ROk (RwAnchor (fst x) args, fst ND, snd ND, r2).
  (** 1182-1217: a function definition, which is added to the definitions *)
  Definition read_define (E : venv) (D : defs) (ts : list token) : outcome (defs * list token) :=
    do x <- expect_symbol ts ; do r0 <- expect is_open (snd x) ;
    do y <- seq (TermIO.sorted_var (fun _ => psort E)) F ([], D) r0 ;
    let '(params, ND, r1) := y in
    do z <- psort E (snd ND) r1 ;
    let '(s, D1, r2) := z in
    match s with
    | TSort s => do w <- term_of_sort s (fst ND ++ E) D1 r2 ;
                 let '(body, D2, r3) := w in
                 do r4 <- expect is_close r3 ; ROk ((fst x, (params, body)) :: D2, r4)
    | _ => RErr
    end.

  (** the state: the stack and the ids ([pstate]), the scopes of the symbol table (innermost first), the definitions *)
  Record rstate : Type := mkRS { rs_st : pstate; rs_vars : list venv; rs_defs : defs }.
  (** 932-940: the scope of a subproof ends with the step that its anchor names *)
  Definition scopes_after (st : pstate) (id : string) (Es : list venv) : list venv :=
    match ps_frames st with f :: _ => if String.eqb (f_end f) id then tl Es else Es | [] => Es end.
  (** one command (861-961), after the opening parenthesis *)
  Definition read_cmd (s : rstate) (ts : list token) : outcome (rstate * list token) :=
    let E := List.concat (rs_vars s) in
    match ts with
    | KRes w :: r =>
        if text_eqb w (chars "assume") then
          do x <- read_assume E (rs_defs s) r ;
          let '(c, D, r1) := x in
          do st <- parse_cmd (rs_st s) c ;
          ROk (mkRS st (match c with RwAssume id _ => scopes_after (rs_st s) id (rs_vars s) | _ => rs_vars s end) D, r1)
        else if text_eqb w (chars "step") then
          do x <- read_step (ps_ids (rs_st s)) E (rs_defs s) r ;
          let '(c, D, r1) := x in
          do st <- parse_cmd (rs_st s) c ;
          ROk (mkRS st (match c with RwStep id _ _ _ _ _ => scopes_after (rs_st s) id (rs_vars s) | _ => rs_vars s end) D, r1)
        else if text_eqb w (chars "anchor") then
          do x <- read_anchor E (rs_defs s) r ;
          let '(c, N, D, r1) := x in
          do st <- parse_cmd (rs_st s) c ; ROk (mkRS st (N :: rs_vars s) D, r1)
        else if text_eqb w (chars "define-fun") then
          do x <- read_define E (rs_defs s) r ; ROk (mkRS (rs_st s) (rs_vars s) (fst x), snd x)
        else RErr
    | _ => RErr
    end.
  (** 849-961, 964-967: the commands up to the end of the text. [first]: no command has been read; [extra]: there is a parenthesis around the proof.
      Fuel: one for each opening parenthesis. *)
  Fixpoint read_cmds (n : nat) (first extra : bool) (s : rstate) (ts : list token) : outcome rstate :=
    match ts with
    | [] => if extra then RErr else ROk s
    | KClose :: r => if extra then match r with [] => ROk s | _ => RErr end else RErr
    | KOpen :: r =>
        match n with
        | O => RPanic
        | S n =>
            if match r with KOpen :: _ => first | KClose :: _ => true | _ => false end then read_cmds n false true s r
            else do x <- read_cmd s r ; read_cmds n false extra (fst x) (snd x)
        end
    | _ => RErr
    end.
End ReadProof.
(** 826-980. [E]: the symbols of the problem, [D]: its definitions *)
Definition read_proof_text (cf : pcfg) (holes : bool) (sdecl : sdecls) (E : venv) (D : defs) (txt : text) : outcome (list command) :=
  do ts <- lex_all txt ;
  let ts := match ts with KSym w :: r => if text_eqb w (chars "unsat") then r else ts | _ => ts end in
  do s <- read_cmds cf holes sdecl (fuel_for ts) (S (List.length ts)) true false (mkRS ps0 [E] D) ts ;
  match ps_frames (rs_st s) with [f] => ROk (f_cmds f) | [] => RPanic | _ => RErr end.
