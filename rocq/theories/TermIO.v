(** Printing of terms (ast/printer.rs) and parsing of terms (parser/mod.rs) *)
From Coq Require Import List Bool NArith ZArith QArith Lia String Ascii.
From Verif Require Import Base Term Sem Num Utils Subst Lexer.
Import ListNotations.
Open Scope list_scope.
Open Scope nat_scope.

(** Names of variables, sorts and functions are Coq strings here: their characters are limited to the code points
    below 256. String literals and the lexer are not limited. *)
Fixpoint string_of (l : text) : string :=
  match l with [] => EmptyString | c :: r => String (ascii_of_N c) (string_of r) end.
Fixpoint assoc {A} (x : string) (l : list (string * A)) : option A :=
  match l with [] => None | (y, a) :: r => if String.eqb x y then Some a else assoc x r end.

(** ** Names of operators, term.rs:534-663 *)
Definition op_name (o : op) : string :=
  match o with
  | OTrue => "true" | OFalse => "false" | ONot => "not" | OImplies => "=>" | OAnd => "and" | OOr => "or" | OXor => "xor"
  | OEquals => "=" | ODistinct => "distinct" | OIte => "ite" | OAdd => "+" | OSub => "-" | OMult => "*" | OIntDiv => "div"
  | ORealDiv => "/" | OMod => "mod" | OAbs => "abs" | OLt => "<" | OGt => ">" | OLe => "<=" | OGe => ">="
  | OToReal => "to_real" | OToInt => "to_int" | OIsInt => "is_int" | OSelect => "select" | OStore => "store"
  | OStrConcat => "str.++" | OStrLen => "str.len" | OStrLt => "str.<" | OStrLe => "str.<=" | OCharAt => "str.at"
  | OSubstring => "str.substr" | OPrefixOf => "str.prefixof" | OSuffixOf => "str.suffixof" | OContains => "str.contains"
  | OIndexOf => "str.indexof" | OReplace => "str.replace" | OReplaceAll => "str.replace_all"
  | OReplaceRe => "str.replace_re" | OReplaceReAll => "str.replace_re_all" | OStrIsDigit => "str.is_digit"
  | OStrToCode => "str.to_code" | OStrFromCode => "str.from_code" | OStrToInt => "str.to_int" | OStrFromInt => "str.from_int"
  | OStrToRe => "str.to_re" | OStrInRe => "str.in_re" | OReNone => "re.none" | OReAll => "re.all" | OReAllChar => "re.allchar"
  | OReConcat => "re.++" | OReUnion => "re.union" | OReInter => "re.inter" | OReStar => "re.*" | OReComp => "re.comp"
  | OReDiff => "re.diff" | ORePlus => "re.+" | OReOpt => "re.opt" | OReRange => "re.range"
  | OBvNot => "bvnot" | OBvNeg => "bvneg" | OBvAnd => "bvand" | OBvOr => "bvor" | OBvAdd => "bvadd" | OBvMul => "bvmul"
  | OBvUDiv => "bvudiv" | OBvURem => "bvurem" | OBvShl => "bvshl" | OBvLShr => "bvlshr" | OBvULt => "bvult"
  | OBvConcat => "concat" | OBvNAnd => "bvnand" | OBvNOr => "bvnor" | OBvXor => "bvxor" | OBvXNor => "bvxnor"
  | OBvComp => "bvcomp" | OBvSub => "bvsub" | OBvSDiv => "bvsdiv" | OBvSRem => "bvsrem" | OBvSMod => "bvsmod"
  | OBvAShr => "bvashr" | OBvULe => "bvule" | OBvUGt => "bvugt" | OBvUGe => "bvuge" | OBvSLt => "bvslt"
  | OBvSLe => "bvsle" | OBvSGt => "bvsgt" | OBvSGe => "bvsge" | OUBvToInt => "ubv_to_int" | OSBvToInt => "sbv_to_int"
  | OBvPBbTerm => "@pbbterm" | OBvBbTerm => "@bbterm" | OBvConst => "@bv" | OBvSize => "@bvsize"
  | OPow2 => "int.pow2" | OIsPow2 => "int.ispow2" | OLog2 => "int.log2" | ORareList => "rare-list" | OCl => "cl"
  | ODelete => "@d"
  end%string.
(** [Operator::from_str] *)
Definition op_of (x : string) : option op := find (fun o => String.eqb (op_name o) x) op_list.
(** term.rs:665-684 *)
Definition pop_name (o : pop) : string :=
  match o with
  | PBvExtract => "extract" | PBvBitOf => "@bit_of" | PBvIntOf => "@int_of" | PZeroExtend => "zero_extend"
  | PSignExtend => "sign_extend" | PRotateLeft => "rotate_left" | PRotateRight => "rotate_right" | PRepeat => "repeat"
  | PBvConst => "bv" | PIntToBv => "int_to_bv" | PRePower => "re.^" | PReLoop => "re.loop" | PArrayConst => "const"
  end%string.
Definition pop_list : list pop :=
  [PBvExtract; PBvBitOf; PBvIntOf; PZeroExtend; PSignExtend; PRotateLeft; PRotateRight; PRepeat; PBvConst; PIntToBv; PRePower; PReLoop; PArrayConst].
Definition pop_of (x : string) : option pop := find (fun o => String.eqb (pop_name o) x) pop_list.
(** printer.rs:516-526 *)
Definition binder_name (b : binder) : string :=
  match b with BForall => "forall" | BExists => "exists" | BChoice => "choice" | BLambda => "lambda" end%string.

(** ** The printer *)
(** What is printed, in pieces; the text is the concatenation of the first components. The second component says which
    token a piece is meant to be (it is not printed, and [None] for white space). *)
Definition piece : Type := text * option token.
Definition out (l : list piece) : text := flat_map fst l.
Definition toks (l : list piece) : list token := flat_map (fun p => match snd p with Some t => [t] | None => [] end) l.
Definition sp : piece := ([32%N], None).
(** the end of a command *)
Definition nl : piece := ([10%N], None).
Definition lp : piece := ([40%N], Some KOpen).
Definition rp : piece := ([41%N], Some KClose).
Definition word (s : text) : piece := (s, Some (if is_reserved s then KRes s else KSym s)).
Definition kw (x : string) : piece := word (chars x).
Definition p_sym (x : string) : outcome piece :=
  do q <- quote_symbol (chars x) ; ROk (q, Some (KSym (chars x))).
Definition p_nat (n : N) : piece := (print_N n, Some (KNum (Z.of_N n))).
(** printer.rs:498-514 *)
Definition p_const (c : const) : list piece :=
  match c with
  | CInt z => [(print_Z z, Some (KNum z))]
  | CReal q => [(print_real q, Some (KDec (Qred q)))]
  | CStr s => [(print_str s, Some (KStr s))]
  | CBV v w => [lp; kw "_"; sp; word (chars "bv" ++ print_Z v); sp; p_nat (N.of_nat w); rp]
  end.
Section PrtSeq.
  Context {A : Type} (f : A -> outcome (list piece)).
  (** a space before each element *)
  Fixpoint p_tail (l : list A) : outcome (list piece) :=
    match l with
    | [] => ROk []
    | a :: r => do x <- f a ; do y <- p_tail r ; ROk (sp :: x ++ y)
    end.
End PrtSeq.
(** printer.rs:543-566 and 426-436 *)
Fixpoint p_sort (s : sort) : outcome (list piece) :=
  match s with
  | SFun ss => do x <- p_tail p_sort ss ; ROk (lp :: kw "Func" :: x ++ [rp])
  | SAtom n [] => do x <- p_sym n ; ROk [x]
  | SAtom n ss => do h <- p_sym n ; do x <- p_tail p_sort ss ; ROk (lp :: h :: x ++ [rp])
  | SVar n => ROk [kw n]
  | SBool => ROk [kw "Bool"] | SInt => ROk [kw "Int"] | SReal => ROk [kw "Real"] | SString => ROk [kw "String"]
  | SRegLan => ROk [kw "RegLan"]
  | SArray a b => do x <- p_sort a ; do y <- p_sort b ; ROk (lp :: kw "Array" :: sp :: x ++ sp :: y ++ [rp])
  | SBV w => ROk [lp; kw "_"; sp; kw "BitVec"; sp; p_nat (N.of_nat w); rp]
  | SRareList => ROk [kw "rare-list"]
  | SType => ROk [kw "Type"]
  end.
(** the position of a term in [term_indices] *)
Fixpoint index_of (t : term) (l : list term) : option nat :=
  match l with [] => None | u :: r => if term_eqb t u then Some 0 else option_map S (index_of t r) end.
(** the name of a shared term; the prefix is the one for proofs *)
Definition share_name (i : nat) : text := chars "@p_" ++ print_N (N.of_nat i).
Section PrtState.
  Context {A : Type} (f : A -> list term -> outcome (list piece * list term)).
  Fixpoint p_tail_st (l : list A) (ind : list term) : outcome (list piece * list term) :=
    match l with
    | [] => ROk ([], ind)
    | a :: r => do x <- f a ind ; do y <- p_tail_st r (snd x) ; ROk (sp :: fst x ++ fst y, snd y)
    end.
End PrtState.
(** printer.rs:152-159: a non-empty list in parentheses, the elements separated by spaces *)
Definition p_paren {A} (f : A -> list term -> outcome (list piece * list term)) (l : list A) (ind : list term)
  : outcome (list piece * list term) :=
  match l with
  | [] => ROk ([lp; rp], ind)
  | a :: r => do x <- f a ind ; do y <- p_tail_st f r (snd x) ; ROk (lp :: fst x ++ fst y ++ [rp], snd y)
  end.
Section Printer.
  (** which terms are shared (printer.rs:107-126: it depends on reference counts, and on whether the term is closed);
      constants, variables and sorts are not *)
  Variable share : term -> bool.
  Definition shareable (t : term) : bool :=
    match t with TConst _ | TVar _ _ | TSort _ => false | _ => share t end.
  (** printer.rs:103-141, 281-369; [smt_lib_strict] is off (proofs), and there are no constant definitions *)
  Fixpoint p_term (t : term) (ind : list term) : outcome (list piece * list term) :=
    let raw (ind : list term) : outcome (list piece * list term) :=
      match t with
      | TConst c => ROk (p_const c, ind)
      | TVar x _ => do q <- p_sym x ; ROk ([q], ind)
      | TApp f args => do x <- p_term f ind ; do y <- p_tail_st p_term args (snd x) ; ROk (lp :: fst x ++ fst y ++ [rp], snd y)
      | TOp o [] => ROk ([kw (op_name o)], ind)
      | TOp o args => do y <- p_tail_st p_term args ind ; ROk (lp :: kw (op_name o) :: fst y ++ [rp], snd y)
      | TSort s => do x <- p_sort s ; ROk (x, ind)
      | TBind b vs body =>
          do x <- p_paren (fun v ind => do q <- p_sym (fst v) ; do s <- p_sort (snd v) ; ROk (lp :: q :: sp :: s ++ [rp], ind)) vs ind ;
          do y <- p_term body (snd x) ;
          ROk (lp :: kw (binder_name b) :: sp :: fst x ++ sp :: fst y ++ [rp], snd y)
      | TLet bs body =>
          do x <- p_paren (fun v ind => do q <- p_sym (fst v) ; do s <- p_term (snd v) ind ; ROk (lp :: q :: sp :: fst s ++ [rp], snd s)) bs ind ;
          do y <- p_term body (snd x) ;
          ROk (lp :: kw "let" :: sp :: fst x ++ sp :: fst y ++ [rp], snd y)
      | TPOp o oargs args =>
          do x <- p_tail_st p_term oargs ind ;
          match args with
          | [] => ROk (lp :: kw "_" :: sp :: kw (pop_name o) :: fst x ++ [rp], snd x)
          | _ => do y <- p_tail_st p_term args (snd x) ;
                 ROk (lp :: lp :: kw "_" :: sp :: kw (pop_name o) :: fst x ++ rp :: fst y ++ [rp], snd y)
          end
      end in
    if shareable t then
      match index_of t ind with
      | Some i => ROk ([word (share_name i)], ind)
      | None =>
          do x <- raw (ind ++ [t]) ;
          ROk (lp :: kw "!" :: sp :: fst x ++ [sp; (chars ":named", Some (KKey (chars "named"))); sp; word (share_name (List.length ind)); rp], snd x)
      end
    else raw ind.
End Printer.

(** ** The parser *)
(** Config, parser/mod.rs:28-58, and [interpret_ints_as_reals] (234-240) *)
Record pcfg : Type := mkP { strict : bool; subtyping : bool; expand_lets : bool; reals : bool }.
(** a function definition: parameters and body *)
Definition fdef : Type := list (string * sort) * term.
Definition defs : Type := list (string * fdef).
(** the symbol table, innermost scope first; later declarations of a scope come first *)
Definition venv : Type := list (string * sort).

(** [Integer::from_str]: white space is ignored, and underscores after the first digit *)
Definition parse_int (s : text) : option Z :=
  let s := filter (fun c => negb (memN c [9; 10; 11; 12; 13; 32]%N)) s in
  let '(neg, s) := match s with 45%N :: r => (true, r) | 43%N :: r => (false, r) | _ => (false, s) end in
  match s with
  | d :: r => if is_digit d && forallb (fun c => is_digit c || N.eqb c 95) r
              then let z := Z.of_N (digits_val 10 (d :: filter (fun c => negb (N.eqb c 95)) r)) in
                   Some (if neg then Z.opp z else z)
              else None
  | [] => None
  end.
(** [Integer::to_usize().unwrap()] *)
Definition to_usize (z : Z) : outcome nat :=
  if Z.leb 0 z && Z.ltb z 18446744073709551616 then ROk (Z.to_nat z) else RPanic.

Section Seq.
  Context {A S : Type} (p : S -> list token -> outcome (A * S * list token)).
  (** parse_sequence, 648-670. Fuel: one for each element. *)
  Fixpoint seq (n : nat) (s : S) (ts : list token) : outcome (list A * S * list token) :=
    match ts with
    | KClose :: r => ROk ([], s, r)
    | _ =>
        match n with
        | O => RPanic
        | Datatypes.S n =>
            do x <- p s ts ;
            let '(a, s1, r1) := x in
            do y <- seq n s1 r1 ;
            let '(l, s2, r2) := y in ROk (a :: l, s2, r2)
        end
    end.
  Definition seq1 (n : nat) (s : S) (ts : list token) : outcome (list A * S * list token) :=
    do x <- seq n s ts ; match fst (fst x) with [] => RErr | _ => ROk x end.
End Seq.
(** read_until_close_parens, 672-690 *)
Fixpoint skip_parens (depth : nat) (ts : list token) : outcome (list token) :=
  match depth with
  | O => ROk ts
  | _ => match ts with
         | [] => RErr
         | KOpen :: r => skip_parens (S depth) r
         | KClose :: r => skip_parens (pred depth) r
         | KEof :: _ => RErr
         | _ :: r => skip_parens depth r
         end
  end.
Definition expect (t : token -> bool) (ts : list token) : outcome (list token) :=
  match ts with k :: r => if t k then ROk r else RErr | [] => RErr end.
Definition is_open (t : token) : bool := match t with KOpen => true | _ => false end.
Definition is_close (t : token) : bool := match t with KClose => true | _ => false end.
Definition expect_symbol (ts : list token) : outcome (string * list token) :=
  match ts with KSym s :: r => ROk (string_of s, r) | _ => RErr end.

Inductive mode : Type := MTerm | MApp | MSort.
(** Sorts that are declared (137-142, [sort_declarations]) or defined ([sort_defs], [SortDef]); the latest first. The two are separate tables in the code, here a definition is
    found even if there is a later declaration with its name. *)
Inductive sdecl1 : Type := SArity (k : nat) | SDef (ps : list string) (body : sort).
Definition sdecls : Type := list (string * sdecl1).
Fixpoint sort_def (x : string) (l : sdecls) : option (list string * sort) :=
  match l with
  | [] => None
  | (y, SDef ps b) :: r => if String.eqb x y then Some (ps, b) else sort_def x r
  | _ :: r => sort_def x r
  end.
Fixpoint sort_arity (x : string) (l : sdecls) : option nat :=
  match l with
  | [] => None
  | (y, SArity k) :: r => if String.eqb x y then Some k else sort_arity x r
  | _ :: r => sort_arity x r
  end.
(** ast/substitution.rs:165-175, 237-263 on a sort: the keys are sorts without arguments *)
Fixpoint sort_subst (m : list (string * sort)) (s : sort) : sort :=
  match s with
  | SAtom x [] => match assoc x m with Some s' => s' | None => s end
  | SAtom x ss => SAtom x (map (sort_subst m) ss)
  | SFun ss => SFun (map (sort_subst m) ss)
  | SArray a b => SArray (sort_subst m a) (sort_subst m b)
  | _ => s
  end.
Section Parser.
  Variable cf : pcfg.
  (** sort declarations and definitions. Polymorphic sorts are not modelled. *)
  Variable sdecl : sdecls.

  (** 526-547 [interpret_div_as_real_lit] *)
  Definition as_lit (t : term) : option Z :=
    match t with
    | TConst (CInt i) => Some i
    | TConst (CReal q) => if reals cf && Pos.eqb (Qden (Qred q)) 1 then Some (Qnum (Qred q)) else None
    | _ => None
    end.
  Definition div_lit (a b : term) : option Q :=
    match as_lit a, as_lit b with
    | Some x, Some y =>
        if Z.ltb 0 x && Z.ltb 0 y && negb (Z.eqb x 1 && Z.eqb y 1) && Z.eqb (Z.gcd x y) 1
        then Some (Qred (Qmake x (Z.to_pos y))) else None
    | _, _ => None
    end.
  (** the checks of [make_op], 244-524. [OBvConst] and [ORareList] (only for RARE rules) are not modelled. *)
  Definition op_ok (o : op) (ss : list sort) : bool :=
    op_wt o ss
    && match o with
       | OAnd | OOr | OXor => negb (strict cf) || min_len 2 ss
       | OAdd | OSub | OMult => subtyping cf || all_eq ss
       | ORealDiv => subtyping cf || forallb (sort_eqb SReal) ss
       | OAbs => subtyping cf || forallb (sort_eqb SInt) ss
       | _ => true
       end.
  (** the operator [@d] looks at its first argument before the number of arguments is checked *)
  Definition make_op (o : op) (args : list term) : outcome term :=
    if op_eqb o ODelete && Nat.eqb (List.length args) 0 then RPanic
    else if op_ok o (map sort_of args) then
      match o, args with
      | ORealDiv, a :: b :: _ => match div_lit a b with Some q => ROk (TConst (CReal q)) | None => ROk (TOp o args) end
      | _, _ => ROk (TOp o args)
      end
    else RErr.
  (** 549-594 [make_app] *)
  Definition make_app (f : term) (args : list term) : outcome term :=
    match sort_of f with
    | SFun ss => if min_len 1 ss && list_eqb sort_eqb (removelast ss) (map sort_of args) then ROk (TApp f args) else RErr
    | _ => RErr
    end.
  (** 109-134 [FunctionDef::apply] *)
  Definition fapply (d : fdef) (args : list term) : outcome term :=
    if negb (Nat.eqb (List.length args) (List.length (fst d))) then RErr
    else match args with
    | [] => ROk (snd d)
    | _ =>
        rassert (list_eqb sort_eqb (map snd (fst d)) (map sort_of args)) ;;
        subst (fold_left (fun m p => sins m (TVar (fst (fst p)) (snd (fst p))) (snd p)) (combine (fst d) args) []) (snd d)
    end.
  (** 1550-1675 [make_indexed_op]; the indices are integers *)
  Definition make_indexed_op (o : pop) (is_ : list Z) (args : list term) : outcome term :=
    let oargs := map (fun z => TConst (CInt z)) is_ in
    let t := ROk (TPOp o oargs args) in
    let bv1 := match map sort_of args with [SBV _] => true | _ => false end in
    let re1 := match map sort_of args with [SRegLan] => true | _ => false end in
    match o with
    | PBvConst =>
        match is_, args with
        | [v; w], [] => do w' <- to_usize w ; rassert (Z.leb 0 v) ;; rassert (Z.leb 1 w) ;; ROk (TConst (CBV v w'))
        | _, _ => RErr
        end
    | PBvExtract =>
        match is_, map sort_of args with
        | [i; j], [SBV m] =>
            rassert (Z.leb 0 i && Z.leb 0 j) ;; do i' <- to_usize i ; do j' <- to_usize j ;
            rassert (Nat.ltb i' m && Nat.leb j' i') ;; t
        | _, _ => RErr
        end
    | PIntToBv =>
        match is_, map sort_of args with [n], [SInt] => to_usize n ;; t | _, _ => RErr end
    | PZeroExtend | PSignExtend | PRepeat =>
        match is_ with [n] => rassert bv1 ;; rassert (Z.leb 0 n) ;; to_usize n ;; t | _ => RErr end
    | PBvBitOf | PBvIntOf | PRotateLeft | PRotateRight =>
        match is_ with [n] => rassert bv1 ;; rassert (Z.leb 0 n) ;; t | _ => RErr end
    | PRePower => match is_ with [n] => rassert re1 ;; rassert (Z.leb 0 n) ;; t | _ => RErr end
    | PReLoop => match is_ with [n; m] => rassert re1 ;; rassert (Z.leb 0 n && Z.leb 0 m) ;; t | _ => RErr end
    | PArrayConst => RErr
    end.
  (** 1677-1692 *)
  Definition make_qualified_op (o : pop) (s : term) (args : list term) : outcome term :=
    match o, s, map sort_of args with
    | PArrayConst, TSort (SArray _ b), [v] => if sort_eqb b v then ROk (TPOp o [s] args) else RErr
    | _, _, _ => RErr
    end.
  Fixpoint unsorts (l : list term) : outcome (list sort) :=
    match l with
    | [] => ROk []
    | TSort s :: r => do ss <- unsorts r ; ROk (s :: ss)
    | _ => RErr
    end.
  (** 1819-1888 [make_sort] *)
  Definition make_sort (x : string) (ss : list sort) : outcome term :=
    let nullary s := match ss with [] => ROk (TSort s) | _ => RErr end in
    if String.eqb x "Bool" then nullary SBool
    else if String.eqb x "Int" then nullary SInt
    else if String.eqb x "Real" then nullary SReal
    else if String.eqb x "String" then nullary SString
    else if String.eqb x "RegLan" then nullary SRegLan
    else if String.eqb x "Type" then ROk (TSort SType)
    else if String.eqb x "Array" then match ss with [a; b] => ROk (TSort (SArray a b)) | _ => RErr end
    else match sort_def x sdecl with
         | Some (ps, b) => if Nat.eqb (List.length ps) (List.length ss) then ROk (TSort (sort_subst (rev (combine ps ss)) b)) else RErr
         | None =>
             match sort_arity x sdecl with
             | Some k => if Nat.eqb k (List.length ss) then ROk (TSort (SAtom x ss)) else RErr
             | None => RErr
             end
         end.

  Notation pres := (outcome (term * defs * list token)).
  Definition ret (D : defs) (r : list token) (o : outcome term) : pres := do t <- o ; ROk (t, D, r).
  (** The functions called by [parse] below; they are given the parsers for terms, applications and sorts. [n] is the fuel
      for sequences. *)
  Section Helpers.
    Variables pT pA pS : venv -> defs -> list token -> pres.
    Variable n : nat.
    (** 1518-1548 *)
    Definition ints (E : venv) (D : defs) (r : list token) : outcome (list Z * defs * list token) :=
      do y <- seq1 (pT E) n D r ;
      let '(l, D1, r1) := y in
      do zs <- omap (fun t => ok_or (as_signed_integer t)) l ; ROk (zs, D1, r1).
    Definition indexed (E : venv) (D : defs) (ts : list token) : outcome (pop * list Z * defs * list token) :=
      do x <- expect_symbol ts ;
      let '(s, r) := x in
      if prefix "bv" s then
        match parse_int (skipn 2 (chars s)) with
        | None => RPanic
        | Some v => do y <- ints E D r ; let '(zs, D1, r1) := y in ROk (PBvConst, v :: zs, D1, r1)
        end
      else match pop_of s with
           | None => RErr
           | Some o => do y <- ints E D r ; let '(zs, D1, r1) := y in ROk (o, zs, D1, r1)
           end.
    (** 1550-1561 *)
    Definition qualified (E : venv) (D : defs) (ts : list token) : outcome (pop * term * defs * list token) :=
      do x <- expect_symbol ts ;
      match pop_of (fst x) with
      | None => RErr
      | Some o => do y <- pS E D (snd x) ; let '(s, D1, r1) := y in
                  do r2 <- expect is_close r1 ; ROk (o, s, D1, r2)
      end.
    (** 1319-1325; the variable is declared at once *)
    Definition sorted_var (ED : venv * defs) (ts : list token) : outcome (string * sort * (venv * defs) * list token) :=
      let (E, D) := ED in
      do r0 <- expect is_open ts ; do x <- expect_symbol r0 ;
      do y <- pS E D (snd x) ;
      let '(s, D2, r2) := y in
      do r3 <- expect is_close r2 ;
      match s with TSort s => ROk ((fst x, s), ((fst x, s) :: E, D2), r3) | _ => RErr end.
    (** bindings of [let] and of [eo::define] *)
    Definition binding (E : venv) (D : defs) (ts : list token) : outcome (string * term * defs * list token) :=
      do r0 <- expect is_open ts ; do x <- expect_symbol r0 ;
      do y <- pT E D (snd x) ;
      let '(v, D1, r1) := y in
      do r2 <- expect is_close r1 ; ROk ((fst x, v), D1, r2).
    Definition bind_env (E : venv) (bs : list (string * term)) : venv :=
      fold_left (fun e b => (fst b, sort_of (snd b)) :: e) bs E.
    Definition expand (bs : list (string * term)) (t : term) : outcome term :=
      subst (fold_left (fun m b => sins m (TVar (fst b) (sort_of (snd b))) (snd b)) bs []) t.
    (** 1381-1407 *)
    Definition bound_vars (b : binder) (E : venv) (D : defs) (r0 : list token)
      : outcome (list (string * sort) * (venv * defs) * list token) :=
      match b with
      | BChoice => do y <- sorted_var (E, D) r0 ; let '(v, ED, r1) := y in
                   do r2 <- expect is_close r1 ; ROk ([v], ED, r2)
      | _ => seq1 sorted_var n (E, D) r0
      end.
    Definition binder_term (b : binder) (E : venv) (D : defs) (ts : list token) : pres :=
      do r0 <- expect is_open ts ;
      do x <- bound_vars b E D r0 ;
      let '(vs, ED1, r1) := x in
      do y <- pT (fst ED1) (snd ED1) r1 ;
      let '(t, D2, r2) := y in
      (match b with BLambda => ROk tt | _ => rassert (sort_eqb SBool (sort_of t)) end) ;;
      do r3 <- expect is_close r2 ; ROk (TBind b vs t, D2, r3).
    (** 1410-1450 *)
    Definition let_term (E : venv) (D : defs) (r : list token) : pres :=
      do r0 <- expect is_open r ;
      do x <- seq1 (binding E) n D r0 ;
      let '(bs, D1, r1) := x in
      do y <- pT (bind_env E bs) D1 r1 ;
      let '(t, D2, r2) := y in
      do r3 <- expect is_close r2 ;
      if expand_lets cf then ret D2 r3 (expand bs t) else ROk (TLet bs t, D2, r3).
    Definition eo_define (E : venv) (D : defs) (r : list token) : pres :=
      do r0 <- (match r with KKey _ :: KKey k :: r0 => if text_eqb k (chars "define") then ROk r0 else RErr | _ => RErr end) ;
      do r1 <- expect is_open r0 ;
      do y <- seq1 (binding E) n D r1 ;
      let '(bs, D1, r2) := y in
      do z <- pT (bind_env E bs) D1 r2 ;
      let '(t, D2, r3) := z in
      do r4 <- expect is_close r3 ; ret D2 r4 (expand bs t).
    (** 1452-1516: annotated terms *)
    Definition attribute (inner : term) (D : defs) (ts : list token) : outcome (unit * defs * list token) :=
      match ts with
      | KKey k :: r =>
          if text_eqb k (chars "named") then
            do x <- expect_symbol r ; ROk (tt, (fst x, ([], inner)) :: D, snd x)
          else match r with
               | KOpen :: r1 => do r2 <- skip_parens 1 r1 ; ROk (tt, D, r2)
               | KKey _ :: _ | KClose :: _ | KEof :: _ | [] => ROk (tt, D, r)
               | _ :: r1 => ROk (tt, D, r1)
               end
      | _ => RErr
      end.
    Definition annotated (E : venv) (D : defs) (r : list token) : pres :=
      do x <- pT E D r ;
      let '(t, D1, r1) := x in
      do y <- seq1 (attribute t) n D1 r1 ; let '(_, D2, r2) := y in ROk (t, D2, r2).
    (** the arguments of a head that is already parsed *)
    Definition app_args (E : venv) (f : pres) : pres :=
      do f <- f ; let '(f, D1, r1) := f in
      do y <- seq1 (pT E) n D1 r1 ; let '(l, D2, r2) := y in ret D2 r2 (make_app f l).
    Definition indexed_args (E : venv) (D : defs) (r : list token) : pres :=
      do x <- indexed E D r ; let '(o, zs, D1, r1) := x in
      do y <- seq1 (pT E) n D1 r1 ; let '(l, D2, r2) := y in ret D2 r2 (make_indexed_op o zs l).
    Definition qualified_args (E : venv) (D : defs) (r : list token) : pres :=
      do x <- qualified E D r ; let '(o, s, D1, r1) := x in
      do y <- seq1 (pT E) n D1 r1 ; let '(l, D2, r2) := y in ret D2 r2 (make_qualified_op o s l).
    (** 1702-1760: applications that begin with a reserved word *)
    Definition reserved_app (w : text) (E : venv) (D : defs) (r : list token) : pres :=
      if text_eqb w (chars "_") then
        do x <- indexed E D r ; let '(o, zs, D1, r1) := x in ret D1 r1 (make_indexed_op o zs [])
      else if text_eqb w (chars "as") then
        do x <- qualified E D r ; let '(o, s, D1, r1) := x in ret D1 r1 (make_qualified_op o s [])
      else if text_eqb w (chars "exists") then binder_term BExists E D r
      else if text_eqb w (chars "forall") then binder_term BForall E D r
      else if text_eqb w (chars "choice") then binder_term BChoice E D r
      else if text_eqb w (chars "lambda") then binder_term BLambda E D r
      else if text_eqb w (chars "!") then annotated E D r
      else if text_eqb w (chars "let") then let_term E D r
      else if text_eqb w (chars "cl") then
        do x <- seq (pT E) n D r ; let '(l, D1, r1) := x in ret D1 r1 (make_op OCl l)
      else RErr.
    (** 1762-1790: applications that begin with a symbol *)
    Definition symbol_app (x : string) (E : venv) (D : defs) (r : list token) (whole : list token) : pres :=
      match op_of x with
      | Some o => do y <- seq1 (pT E) n D r ; let '(l, D1, r1) := y in ret D1 r1 (make_op o l)
      | None =>
          if String.eqb x "eo" then eo_define E D r
          else match assoc x D with
          | Some _ => do y <- seq1 (pT E) n D r ; let '(l, D1, r1) := y in
                      (* the definition is looked up again after the arguments *)
                      match assoc x D1 with Some d1 => ret D1 r1 (fapply d1 l) | None => RPanic end
          | None => app_args E (pT E D whole)
          end
      end.
    Definition term_body (E : venv) (D : defs) (ts : list token) : pres :=
      match ts with
      | KBv v w :: r => ROk (TConst (CBV (Z.of_N v) w), D, r)
      | KNum z :: r => ROk (TConst (if reals cf then CReal (inject_Z z) else CInt z), D, r)
      | KDec q :: r => ROk (TConst (CReal q), D, r)
      | KStr s :: r => ROk (TConst (CStr s), D, r)
      | KSym s :: r =>
          let x := string_of s in
          match assoc x D with
          | Some d => ret D r (fapply d [])
          | None => match op_of x with
                    | Some o => ret D r (make_op o [])
                    | None => match assoc x E with Some so => ROk (TVar x so, D, r) | None => RErr end
                    end
          end
      | KOpen :: r => pA E D r
      | _ => RErr
      end.
    Definition app_body (E : venv) (D : defs) (ts : list token) : pres :=
      match ts with
      | KRes w :: r => reserved_app w E D r
      | KSym s :: r => symbol_app (string_of s) E D r ts
      | KOpen :: KRes w :: r =>
          if text_eqb w (chars "_") then indexed_args E D r
          else if text_eqb w (chars "as") then qualified_args E D r
          else app_args E (pA E D (KRes w :: r))
      | KOpen :: r => app_args E (pA E D r)
      | _ => app_args E (pT E D ts)
      end.
    Definition sort_body (E : venv) (D : defs) (ts : list token) : pres :=
      match ts with
      | KSym s :: r => ret D r (make_sort (string_of s) [])
      | KOpen :: KRes w :: r =>
          if text_eqb w (chars "_") then
            do x <- expect_symbol r ;
            do y <- seq1 (pT E) n D (snd x) ;
            let '(l, D1, r1) := y in
            if String.eqb (fst x) "BitVec" then
              match l with
              | [a] => match as_integer a with Some z => do w' <- to_usize z ; ROk (TSort (SBV w'), D1, r1) | None => RErr end
              | _ => RErr
              end
            else RErr
          else RErr
      | KOpen :: r =>
          do x <- expect_symbol r ;
          do y <- seq1 (pS E) n D (snd x) ;
          let '(l, D1, r1) := y in
          do ss <- unsorts l ; ret D1 r1 (make_sort (fst x) ss)
      | _ => RErr
      end.
  End Helpers.
  (** parse_term (1327-1356, [MTerm]), parse_application (1694-1817, [MApp]: after the opening parenthesis), parse_sort
      (1911-1958, [MSort]). The tokens are the remaining ones, an empty list means the end of the input. *)
  Fixpoint parse (n : nat) (m : mode) (E : venv) (D : defs) (ts : list token) : pres :=
    match n with
    | O => RPanic
    | S n =>
        match m with
        | MTerm => term_body (parse n MApp) E D ts
        | MApp => app_body (parse n MTerm) (parse n MApp) (parse n MSort) n E D ts
        | MSort => sort_body (parse n MTerm) (parse n MSort) n E D ts
        end
    end.
  Definition fuel_for (ts : list token) : nat := 2 * List.length ts + 2.
  (** the terms of a whole text, one after the other *)
  Definition read_term (E : venv) (D : defs) (txt : text) : outcome (term * defs) :=
    do ts <- lex_all txt ;
    do x <- parse (fuel_for ts) MTerm E D ts ;
    let '(t, D1, r) := x in match r with [] => ROk (t, D1) | _ => RErr end.
End Parser.
Definition print_term (share : term -> bool) (t : term) : outcome text := do x <- p_term share t [] ; ROk (out (fst x)).
