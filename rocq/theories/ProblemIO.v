(** Problems as texts: the parser of SMT-LIB scripts (parser/mod.rs [parse_problem]), and the printer of the problem that is written for a slice (ast/printer.rs [Display] for
    [ProblemPrelude], [write_asserts], and cli/src/main.rs:676-735). As in ProofIO.v all tokens are read first. *)
From Coq Require Import List Bool NArith ZArith QArith Arith String.
From Verif Require Import Base Term Sem Utils Rules Checker Lexer TermIO Parser ProofIO.
Import ListNotations.
Local Open Scope string_scope.
Local Open Scope nat_scope.
Local Open Scope list_scope.

(** ast/problem.rs:22-40 *)
Record prelude : Type := mkPr { pr_logic : option string; pr_sorts : list (string * nat); pr_funs : list (string * sort) }.
(** The state of the parser (parser/mod.rs:144-172) that commands of a problem change: [is_real_only_logic], the sorts, the symbol table (outside of terms it has one scope), the
    function definitions, and the problem (ast/problem.rs:5-20); the premises are an [IndexSet]. *)
Record pbstate : Type := mkPB { pb_pre : prelude; pb_reals : bool; pb_sorts : sdecls; pb_vars : venv; pb_defs : defs; pb_prems : list term }.
Definition pb0 : pbstate := mkPB (mkPr None [] []) false [] [] [] [].
Definition set_pre (s : pbstate) (p : prelude) : pbstate := mkPB p (pb_reals s) (pb_sorts s) (pb_vars s) (pb_defs s) (pb_prems s).
Definition set_sorts (s : pbstate) (l : sdecls) : pbstate := mkPB (pb_pre s) (pb_reals s) l (pb_vars s) (pb_defs s) (pb_prems s).
Definition set_vars (s : pbstate) (E : venv) : pbstate := mkPB (pb_pre s) (pb_reals s) (pb_sorts s) E (pb_defs s) (pb_prems s).
Definition set_defs (s : pbstate) (D : defs) : pbstate := mkPB (pb_pre s) (pb_reals s) (pb_sorts s) (pb_vars s) D (pb_prems s).
Definition add_prem (l : list term) (t : term) : list term := if memb term_eqb t l then l else l ++ [t].
Definition add_prems (s : pbstate) (ts : list term) : pbstate :=
  mkPB (pb_pre s) (pb_reals s) (pb_sorts s) (pb_vars s) (pb_defs s) (fold_left add_prem ts (pb_prems s)).
Definition add_fun (p : prelude) (x : string) (s : sort) : prelude := mkPr (pr_logic p) (pr_sorts p) (pr_funs p ++ [(x, s)]).
Definition add_sort (p : prelude) (x : string) (k : nat) : prelude := mkPr (pr_logic p) (pr_sorts p ++ [(x, k)]) (pr_funs p).
Definition set_logic (p : prelude) (x : string) : prelude := mkPr (Some x) (pr_sorts p) (pr_funs p).
Definition contains (p x : string) : bool := match String.index 0 p x with Some _ => true | None => false end.
(** 798-807 *)
Definition real_only (logic : string) : bool :=
  (contains "LRA" logic || contains "NRA" logic || contains "RDL" logic) && negb (contains "I" logic).

Section ReadProblem.
  (** the configuration ([reals] is not used: 234-240, it depends on the logic) and [apply_function_defs] *)
  Variables (cf : pcfg) (apply_defs : bool).
  (** the fuel of the term parser *)
  Variable F : nat.
  Definition cf_of (s : pbstate) : pcfg := mkP (strict cf) (subtyping cf) (expand_lets cf) (pb_reals s).
  Definition pb_term (s : pbstate) (E : venv) : defs -> list token -> outcome (term * defs * list token) := parse (cf_of s) (pb_sorts s) F MTerm E.
  Definition pb_sort (s : pbstate) (D : defs) (ts : list token) : outcome (sort * defs * list token) :=
    do x <- parse (cf_of s) (pb_sorts s) F MSort (pb_vars s) D ts ;
    let '(t, D1, r) := x in match t with TSort so => ROk (so, D1, r) | _ => RPanic end.
  (** 1149-1163, 734-738 *)
  Definition read_declare_fun (s : pbstate) (ts : list token) : outcome (pbstate * list token) :=
    do x <- expect_symbol ts ; do r0 <- expect is_open (snd x) ;
    do y <- seq (pb_sort s) F (pb_defs s) r0 ;
    let '(ss, D1, r1) := y in
    do z <- pb_sort s D1 r1 ;
    let '(s1, D2, r2) := z in
    do r3 <- expect is_close r2 ;
    let so := match ss with [] => s1 | _ => SFun (ss ++ [s1]) end in
    ROk (set_pre (set_vars (set_defs s D2) ((fst x, so) :: pb_vars s)) (add_fun (pb_pre s) (fst x) so), r3).
  (** 739-745 *)
  Definition read_declare_const (s : pbstate) (ts : list token) : outcome (pbstate * list token) :=
    do x <- expect_symbol ts ; do z <- pb_sort s (pb_defs s) (snd x) ;
    let '(so, D1, r1) := z in
    do r2 <- expect is_close r1 ;
    ROk (set_pre (set_vars (set_defs s D1) ((fst x, so) :: pb_vars s)) (add_fun (pb_pre s) (fst x) so), r2).
  (** 1167-1178, 746-754 *)
  Definition read_declare_sort (s : pbstate) (ts : list token) : outcome (pbstate * list token) :=
    do x <- expect_symbol ts ;
    match snd x with
    | KNum z :: KClose :: r =>
        if Z.leb 0 z && Z.ltb z 18446744073709551616
        then ROk (set_pre (set_sorts s ((fst x, SArity (Z.to_nat z)) :: pb_sorts s)) (add_sort (pb_pre s) (fst x) (Z.to_nat z)), r)
        else RErr
    | _ => RErr
    end.
  (** 1182-1198 without the parentheses around it: name, parameters, sort *)
  Definition read_dec (s : pbstate) (D : defs) (ts : list token) : outcome (string * list (string * sort) * sort * defs * list token) :=
    do x <- expect_symbol ts ; do r0 <- expect is_open (snd x) ;
    do y <- seq (TermIO.sorted_var (fun _ => parse (cf_of s) (pb_sorts s) F MSort (pb_vars s))) F ([], D) r0 ;
    let '(params, ND, r1) := y in
    do z <- pb_sort s (snd ND) r1 ;
    let '(so, D1, r2) := z in ROk ((fst x, params, so), D1, r2).
  (** the body of a function, in the scope of its parameters *)
  Definition read_body (s : pbstate) (params : list (string * sort)) (so : sort) (D : defs) (ts : list token) : outcome (term * defs * list token) :=
    term_of_sort (cf_of s) (pb_sorts s) F so (rev params ++ pb_vars s) D ts.
  (** 1202-1217, 755-782 *)
  Definition read_define_fun (s : pbstate) (ts : list token) : outcome (pbstate * list token) :=
    do x <- read_dec s (pb_defs s) ts ;
    let '((f, params, so), D1, r1) := x in
    do y <- read_body s params so D1 r1 ;
    let '(body, D2, r2) := y in
    do r3 <- expect is_close r2 ;
    if apply_defs then ROk (set_defs s ((f, (params, body)) :: D2), r3)
    else
      let lam := match params with [] => body | _ => TBind BLambda params body end in
      let fv := TVar f (sort_of lam) in
      ROk (add_prems (set_vars (set_defs s D2) ((f, sort_of lam) :: pb_vars s)) [TOp OEquals [fv; lam]], r3).
  (** 1256-1266 *)
  Definition rec_sort (params : list (string * sort)) (so : sort) : sort := match params with [] => so | _ => SFun (map snd params ++ [so]) end.
  (** 1220-1245 *)
  Definition rec_prem (E : venv) (f : string) (params : list (string * sort)) (body : term) : outcome term :=
    match assoc f E with
    | None => RPanic
    | Some so =>
        let app := match params with [] => TVar f so | _ => TApp (TVar f so) (map (fun v => TVar (fst v) (snd v)) params) end in
        let eq := TOp OEquals [app; body] in
        ROk (match params with [] => eq | _ => TBind BForall params eq end)
    end.
  Fixpoint read_bodies (s : pbstate) (decs : list (string * list (string * sort) * sort)) (ts : list token) : outcome (pbstate * list token) :=
    match decs with
    | [] => ROk (s, ts)
    | (f, params, so) :: decs =>
        do y <- read_body s params so (pb_defs s) ts ;
        let '(body, D1, r1) := y in
        do p <- rec_prem (pb_vars s) f params body ;
        read_bodies (add_prems (set_defs s D1) [p]) decs r1
    end.
  Definition declare_recs (s : pbstate) (decs : list (string * list (string * sort) * sort)) : pbstate :=
    set_vars s (fold_left (fun E d => let '(f, params, so) := d in (f, rec_sort params so) :: E) decs (pb_vars s)).
  (** 1250-1291, one function *)
  Definition read_define_rec (s : pbstate) (ts : list token) : outcome (pbstate * list token) :=
    do x <- read_dec s (pb_defs s) ts ;
    let '(d, D1, r1) := x in
    do y <- read_bodies (declare_recs (set_defs s D1) [d]) [d] r1 ;
    do r2 <- expect is_close (snd y) ; ROk (fst y, r2).
  (** 1250-1291, several functions *)
  Definition read_define_recs (s : pbstate) (ts : list token) : outcome (pbstate * list token) :=
    do r0 <- expect is_open ts ;
    do x <- seq1 (fun D ts => do r <- expect is_open ts ; do x <- read_dec s D r ; let '(d, D1, r1) := x in do r2 <- expect is_close r1 ; ROk (d, D1, r2)) F (pb_defs s) r0 ;
    let '(ds, D1, r1) := x in
    do r2 <- expect is_open r1 ;
    do y <- read_bodies (declare_recs (set_defs s D1) ds) ds r2 ;
    do r3 <- expect is_close (snd y) ; do r4 <- expect is_close r3 ; ROk (fst y, r4).
  (** 1295-1313, 785-788. The parameters are sorts without arguments while the definition is read. *)
  Definition read_define_sort (s : pbstate) (ts : list token) : outcome (pbstate * list token) :=
    do x <- expect_symbol ts ; do r0 <- expect is_open (snd x) ;
    do y <- seq (fun (u : unit) ts => do x <- expect_symbol ts ; ROk (fst x, u, snd x)) F tt r0 ;
    let '(ps, _, r1) := y in
    do z <- pb_sort (set_sorts s (rev (map (fun p => (p, SArity 0)) ps) ++ pb_sorts s)) (pb_defs s) r1 ;
    let '(so, D1, r2) := z in
    do r3 <- expect is_close r2 ;
    ROk (set_sorts (set_defs s D1) ((fst x, SDef ps so) :: pb_sorts s), r3).
  (** 789-793 *)
  Definition read_assert (s : pbstate) (ts : list token) : outcome (pbstate * list token) :=
    do x <- pb_term s (pb_vars s) (pb_defs s) ts ;
    let '(t, D1, r1) := x in
    do r2 <- expect is_close r1 ; ROk (add_prems (set_defs s D1) [t], r2).
  (** 794-799 *)
  Definition read_assuming (s : pbstate) (ts : list token) : outcome (pbstate * list token) :=
    do r0 <- expect is_open ts ;
    do x <- seq1 (pb_term s (pb_vars s)) F (pb_defs s) r0 ;
    let '(l, D1, r1) := x in
    do r2 <- expect is_close r1 ; ROk (add_prems (set_defs s D1) l, r2).
  (** 800-812 *)
  Definition read_set_logic (s : pbstate) (ts : list token) : outcome (pbstate * list token) :=
    do x <- expect_symbol ts ; do r <- expect is_close (snd x) ;
    ROk (mkPB (set_logic (pb_pre s) (fst x)) (real_only (fst x)) (pb_sorts s) (pb_vars s) (pb_defs s) (pb_prems s), r).
  (** one command after the opening parenthesis; all other commands are skipped *)
  Definition read_pcmd (s : pbstate) (ts : list token) : outcome (pbstate * list token) :=
    match ts with
    | KRes w :: r =>
        if text_eqb w (chars "declare-fun") then read_declare_fun s r
        else if text_eqb w (chars "declare-const") then read_declare_const s r
        else if text_eqb w (chars "declare-sort") then read_declare_sort s r
        else if text_eqb w (chars "define-fun") then read_define_fun s r
        else if text_eqb w (chars "define-fun-rec") then read_define_rec s r
        else if text_eqb w (chars "define-funs-rec") then read_define_recs s r
        else if text_eqb w (chars "define-sort") then read_define_sort s r
        else if text_eqb w (chars "assert") then read_assert s r
        else if text_eqb w (chars "check-sat-assuming") then read_assuming s r
        else if text_eqb w (chars "set-logic") then read_set_logic s r
        else do r1 <- skip_parens 1 r ; ROk (s, r1)
    | _ :: r => do r1 <- skip_parens 1 r ; ROk (s, r1)
    | [] => RErr
    end.
  (** 732-818. Fuel: one for each command. *)
  Fixpoint read_pcmds (n : nat) (s : pbstate) (ts : list token) : outcome pbstate :=
    match ts with
    | [] => ROk s
    | KOpen :: r => match n with O => RPanic | S n => do x <- read_pcmd s r ; read_pcmds n (fst x) (snd x) end
    | _ => RErr
    end.
End ReadProblem.
(** 729-821 *)
Definition read_problem_text (cf : pcfg) (apply_defs : bool) (txt : text) : outcome pbstate :=
  do ts <- lex_all txt ; read_pcmds cf apply_defs (fuel_for ts) (S (List.length ts)) pb0 ts.
(** 79-101 [parse_instance_with_pool] without a file of rules: the premises and the proof. Numerals of the proof are integers. *)
Definition read_instance (cf : pcfg) (apply_defs holes : bool) (problem proof : text) : outcome (list term * list command) :=
  do s <- read_problem_text cf apply_defs problem ;
  do p <- read_proof_text (mkP (strict cf) (subtyping cf) (expand_lets cf) false) holes (pb_sorts s) (pb_vars s) (pb_defs s) proof ;
  ROk (pb_prems s, p).

(** ** The printer *)
(** printer.rs:298-330: with [smt_lib_strict] negative and fractional constants are printed as applications. Without sharing the text is the one of the term in which they are. *)
Definition plain_nat (q : Q) : term :=
  if Pos.eqb (Qden q) 1 then TConst (CReal q)
  else TOp ORealDiv [TConst (CReal (inject_Z (Qnum q))); TConst (CReal (inject_Z (Zpos (Qden q))))].
Definition plain_const (c : const) : term :=
  match c with
  | CInt z => if Z.ltb z 0 then TOp OSub [TConst (CInt (- z))] else TConst c
  | CReal q => let r := Qred q in if Z.ltb (Qnum r) 0 then TOp OSub [plain_nat (Qopp r)] else if Pos.eqb (Qden r) 1 then TConst c else plain_nat r
  | _ => TConst c
  end.
Fixpoint plain (t : term) : term :=
  match t with
  | TConst c => plain_const c
  | TVar _ _ | TSort _ => t
  | TApp f args => TApp (plain f) (map plain args)
  | TOp o args => TOp o (map plain args)
  | TBind b vs body => TBind b vs (plain body)
  | TLet bs body => TLet (map (fun v => (fst v, plain (snd v))) bs) (plain body)
  | TPOp o oargs args => TPOp o (map plain oargs) (map plain args)
  end.
Definition no_share (t : term) : bool := false.
(** printer.rs:595-603; the sorts of a function have at least one argument *)
Definition p_decl (d : string * sort) : outcome (list piece) :=
  do q <- p_sym (fst d) ;
  match snd d with
  | SFun ss =>
      match removelast ss with
      | [] => RPanic
      | a :: l => do x <- p_sort a ; do y <- p_tail p_sort l ; do z <- p_sort (last ss SBool) ;
                  ROk (lp :: kw "declare-fun" :: sp :: q :: sp :: lp :: x ++ y ++ rp :: sp :: z ++ [rp; nl])
      end
  | s => do z <- p_sort s ; ROk (lp :: kw "declare-fun" :: sp :: q :: sp :: lp :: rp :: sp :: z ++ [rp; nl])
  end.
(** printer.rs:591-593 *)
Definition p_sdecl (d : string * nat) : outcome (list piece) :=
  do q <- p_sym (fst d) ; ROk [lp; kw "declare-sort"; sp; q; sp; p_nat (N.of_nat (snd d)); rp; nl].
(** printer.rs:76-80 *)
Definition p_assert (t : term) : outcome (list piece) :=
  do x <- p_term no_share (plain t) [] ; ROk (lp :: kw "assert" :: sp :: fst x ++ [rp; nl]).
Fixpoint p_all {A} (f : A -> outcome (list piece)) (l : list A) : outcome (list piece) :=
  match l with [] => ROk [] | a :: r => do x <- f a ; do y <- p_all f r ; ROk (x ++ y) end.
(** printer.rs:587-606, 64-83, main.rs:707-720; the logic is not quoted *)
Definition logic_of (p : prelude) : string := match pr_logic p with Some l => l | None => "ALL" end.
Definition problem_pieces (p : prelude) (asserts : list term) : outcome (list piece) :=
  do ss <- p_all p_sdecl (pr_sorts p) ; do fs <- p_all p_decl (pr_funs p) ; do as_ <- p_all p_assert asserts ;
  ROk ([lp; kw "set-logic"; sp; kw (logic_of p); rp; nl] ++ ss ++ fs ++ as_ ++ [lp; kw "check-sat"; rp; nl; lp; kw "exit"; rp; nl]).
Definition print_problem (p : prelude) (asserts : list term) : outcome text := do l <- problem_pieces p asserts ; ROk (out l).
