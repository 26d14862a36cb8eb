(** SMT-LIB semantics of terms (specification; independent of the checker).
    An interpretation fixes the universe of uninterpreted sorts, the meaning of application, the
    meaning of the operators whose SMT-LIB meaning is not fixed here (arrays, regular expressions,
    division by zero, ...), and decision/choice functions for its quantifiers. *)
From Coq Require Import List String ZArith QArith Bool Arith NArith Lia.
From Verif Require Import Term Field.
Import ListNotations.

(** ** Sort of a term: models PrimitivePool::compute_sort, ast/pool/mod.rs:74-340.
    Unreachable/panicking cases return [SType]; [ParamSort] cases are not modelled. *)
Definition bv_width (s : sort) : option nat := match s with SBV w => Some w | _ => None end.
Definition const_sort (c : const) : sort :=
  match c with CInt _ => SInt | CReal _ => SReal | CStr _ => SString | CBV _ w => SBV w end.
Definition as_const_int (t : term) : option Z :=
  match t with TConst (CInt z) => Some z | _ => None end.
Definition as_const_nat (t : term) : option nat :=
  match as_const_int t with Some z => if Z.leb 0 z then Some (Z.to_nat z) else None | None => None end.

Definition op_sort (o : op) (ss : list sort) : sort :=
  match o with
  | OTrue | OFalse | ONot | OImplies | OAnd | OOr | OXor | OEquals | ODistinct
  | OLt | OGt | OLe | OGe | OIsInt | OStrLt | OStrLe | OPrefixOf | OSuffixOf | OContains
  | OStrIsDigit | OStrInRe | OBvULt | OBvULe | OBvUGt | OBvUGe | OBvSLt | OBvSLe | OBvSGt | OBvSGe
  | OCl | ODelete => SBool
  | OBvSize | OUBvToInt | OSBvToInt => SInt
  | OBvAdd | OBvSub | OBvNot | OBvNeg | OBvAnd | OBvOr | OBvMul | OBvUDiv | OBvURem | OBvShl
  | OBvLShr | OBvNAnd | OBvNOr | OBvXor | OBvXNor | OBvSDiv | OBvSRem | OBvSMod | OBvAShr =>
      match ss with SBV w :: _ => SBV w | _ => SType end
  | OBvComp => SBV 1
  | OBvBbTerm | OBvPBbTerm => SBV (List.length ss)
  | OBvConst => SType   (* see [sort_of] *)
  | OBvConcat =>
      fold_left (fun acc s => match acc, s with SBV a, SBV b => SBV (a + b) | _, _ => SType end) ss (SBV 0)
  | OIte => nth 1 ss SType
  | OAdd | OSub | OMult | OAbs => if existsb (sort_eqb SReal) ss then SReal else SInt
  | ORealDiv | OToReal => SReal
  | OIntDiv | OMod | OToInt => SInt
  | OSelect => match ss with SArray _ b :: _ => b | _ => SType end
  | OStore => nth 0 ss SType
  | OStrLen | OIndexOf | OStrToCode | OStrToInt => SInt
  | OStrConcat | OCharAt | OSubstring | OReplace | OReplaceAll | OReplaceRe | OReplaceReAll
  | OStrFromCode | OStrFromInt => SString
  | OStrToRe | OReNone | OReAll | OReAllChar | OReConcat | OReUnion | OReInter | OReStar | OReComp
  | OReDiff | ORePlus | OReOpt | OReRange => SRegLan
  | OPow2 | OLog2 => SInt
  | OIsPow2 => SBool
  | ORareList => SRareList
  end.

Definition pop_sort (o : pop) (oargs : list term) (ss : list sort) : sort :=
  match o, oargs, ss with
  | PBvExtract, [i; j], _ =>
      match as_const_nat i, as_const_nat j with
      | Some i, Some j => if Nat.leb j i then SBV (i - j + 1) else SType | _, _ => SType end
  | (PZeroExtend | PSignExtend), i :: _, SBV w :: _ =>
      match as_const_nat i with Some n => SBV (n + w) | None => SType end
  | (PRotateLeft | PRotateRight), _, s :: _ => s
  | PRepeat, i :: _, SBV w :: _ => match as_const_nat i with Some n => SBV (n * w) | None => SType end
  | PIntToBv, i :: _, _ => match as_const_nat i with Some n => SBV n | None => SType end
  | PBvBitOf, _, _ => SBool
  | PBvIntOf, _, _ => SInt
  | (PRePower | PReLoop), _, _ => SRegLan
  | PArrayConst, TSort s :: _, _ => s
  | _, _, _ => SType
  end.

Fixpoint sort_of (t : term) : sort :=
  match t with
  | TConst c => const_sort c
  | TVar _ s => s
  | TApp f _ => match sort_of f with SFun ss => last ss SType | _ => SType end
  | TOp OBvConst [_; a] => match as_const_nat a with Some n => SBV n | None => SType end
  | TOp o args => op_sort o (map sort_of args)
  | TSort _ => SType
  | TBind b vs body =>
      match b with
      | BForall | BExists => SBool
      | BChoice => match vs with (_, s) :: _ => s | [] => SType end
      | BLambda => SFun (map snd vs ++ [sort_of body])
      end
  | TLet _ body => sort_of body
  | TPOp o oargs args => pop_sort o oargs (map sort_of args)
  end.

(** ** Well-sorted terms: the checks done while parsing a term, parser/mod.rs:244-524 (make_op),
    549-594 (make_app), 1381-1407 (binders), 1410-1450 (let), 1561-1693 (indexed operators).
    This is the most permissive configuration: [strict] off and [allow_int_real_subtyping] on.
    Not covered (rejected here): polymorphic sorts and the RARE-only operators [OBvConst], [ORareList];
    sort terms used as terms. *)
Definition is_num_sort (s : sort) : bool := match s with SInt | SReal => true | _ => false end.
Definition is_bv_sort (s : sort) : bool := match s with SBV _ => true | _ => false end.
Fixpoint all_eq (ss : list sort) : bool :=
  match ss with a :: ((b :: _) as r) => sort_eqb a b && all_eq r | _ => true end.
Definition min_len {A} (n : nat) (l : list A) : bool := Nat.leb n (List.length l).
Definition sorts_are (l ss : list sort) : bool := list_eqb sort_eqb ss l.
Definition op_wt (o : op) (ss : list sort) : bool :=
  match o with
  | OTrue | OFalse | OReNone | OReAll | OReAllChar => sorts_are [] ss
  | ONot | ODelete => sorts_are [SBool] ss
  | OImplies => min_len 2 ss && forallb (sort_eqb SBool) ss
  | OAnd | OOr | OXor => min_len 1 ss && forallb (sort_eqb SBool) ss
  | OEquals | ODistinct => min_len 2 ss && all_eq ss
  | OIte => match ss with [c; a; b] => sort_eqb SBool c && sort_eqb a b | _ => false end
  | OAdd | OMult => min_len 2 ss && forallb is_num_sort ss
  | OSub => min_len 1 ss && forallb is_num_sort ss
  | OIntDiv => min_len 2 ss && forallb (sort_eqb SInt) ss
  | ORealDiv => min_len 2 ss && forallb is_num_sort ss
  | OMod => sorts_are [SInt; SInt] ss
  | OAbs => match ss with [s] => is_num_sort s | _ => false end
  | OLt | OGt | OLe | OGe => min_len 2 ss && forallb is_num_sort ss
  | OToReal => sorts_are [SInt] ss
  | OToInt | OIsInt => sorts_are [SReal] ss
  | OSelect => match ss with [SArray a b; i] => sort_eqb a i | _ => false end
  | OStore => match ss with [SArray a b; i; v] => sort_eqb a i && sort_eqb b v | _ => false end
  | OStrConcat => min_len 2 ss && forallb (sort_eqb SString) ss
  | OStrLen | OStrIsDigit | OStrToCode | OStrToInt | OStrToRe => sorts_are [SString] ss
  | OStrLt | OStrLe | OPrefixOf | OSuffixOf | OContains | OReRange => sorts_are [SString; SString] ss
  | OCharAt => sorts_are [SString; SInt] ss
  | OSubstring => sorts_are [SString; SInt; SInt] ss
  | OIndexOf => sorts_are [SString; SString; SInt] ss
  | OReplace | OReplaceAll => sorts_are [SString; SString; SString] ss
  | OStrFromCode | OStrFromInt | OPow2 | OLog2 | OIsPow2 => sorts_are [SInt] ss
  | OStrInRe => sorts_are [SString; SRegLan] ss
  | OReConcat | OReUnion | OReInter | OReDiff => min_len 2 ss && forallb (sort_eqb SRegLan) ss
  | OReStar | OReComp | ORePlus | OReOpt => sorts_are [SRegLan] ss
  | OReplaceRe | OReplaceReAll => sorts_are [SString; SRegLan; SString] ss
  | OBvNot | OBvNeg | OBvSize | OUBvToInt | OSBvToInt =>
      match ss with [s] => is_bv_sort s | _ => false end
  | OBvBbTerm => min_len 1 ss && forallb (sort_eqb SBool) ss
  | OBvPBbTerm => min_len 1 ss && forallb (sort_eqb SInt) ss
  | OBvConcat => min_len 2 ss && forallb is_bv_sort ss
  | OCl => true
  | OBvAdd | OBvMul | OBvAnd | OBvOr | OBvXor =>
      min_len 2 ss && forallb is_bv_sort ss && all_eq ss
  | OBvUDiv | OBvURem | OBvShl | OBvLShr | OBvULt | OBvNAnd | OBvNOr | OBvXNor | OBvComp | OBvSub
  | OBvSDiv | OBvSRem | OBvSMod | OBvAShr | OBvULe | OBvUGt | OBvUGe | OBvSLt | OBvSLe | OBvSGt | OBvSGe =>
      match ss with [a; b] => is_bv_sort a && sort_eqb a b | _ => false end
  | OBvConst | ORareList => false
  end.

Definition pop_wt (o : pop) (oargs : list term) (ss : list sort) : bool :=
  match o, map as_const_nat oargs, ss with
  | PBvExtract, [Some i; Some j], [SBV m] => Nat.ltb i m && Nat.leb j i
  | PIntToBv, [Some _], [SInt] => true
  | (PBvBitOf | PBvIntOf | PZeroExtend | PSignExtend | PRotateLeft | PRotateRight | PRepeat), [Some _], [SBV _] => true
  | PRePower, [Some _], [SRegLan] => true
  | PReLoop, [Some _; Some _], [SRegLan] => true
  | PArrayConst, _, [s] => match oargs with [TSort (SArray _ b)] => sort_eqb b s | _ => false end
  | _, _, _ => false
  end.

Fixpoint wt (t : term) : bool :=
  match t with
  | TConst _ | TVar _ _ => true
  | TApp f args =>
      wt f && forallb wt args &&
      match sort_of f with
      | SFun ss => min_len 1 ss && list_eqb sort_eqb (removelast ss) (map sort_of args)
      | _ => false
      end
  | TOp o args => forallb wt args && op_wt o (map sort_of args)
  | TSort _ => false
  | TBind b vs body =>
      wt body && min_len 1 vs &&
      match b with
      | BLambda => true
      | BChoice => Nat.eqb (List.length vs) 1 && sort_eqb (sort_of body) SBool
      | _ => sort_eqb (sort_of body) SBool
      end
  | TLet bs body => forallb (fun p => wt (snd p)) bs && wt body
  | TPOp o oargs args => forallb wt args && pop_wt o oargs (map sort_of args)
  end.

(** ** Values and interpretations *)
Inductive value_ (K U : Type) : Type :=
| VB (b : bool)
| VN (k : K)                 (* Int and Real: Int is the subset of integers *)
| VBV (w : nat) (z : Z)
| VS (s : list N)
| VU (u : U).
Arguments VB {K U}. Arguments VN {K U}. Arguments VBV {K U}. Arguments VS {K U}. Arguments VU {K U}.

Section Dom.
  Context {F : ofield} {U : Type}.
  Notation value := (value_ F U).
  Definition veqb_ (equ : U -> U -> bool) (a b : value) : bool :=
    match a, b with
    | VB x, VB y => Bool.eqb x y
    | VN x, VN y => oeqb x y
    | VBV w x, VBV w' y => Nat.eqb w w' && Z.eqb x y
    | VS x, VS y => list_eqb N.eqb x y
    | VU x, VU y => equ x y
    | _, _ => false
    end.
  (** membership of a value in (the denotation of) a sort *)
  Definition dom_ (udom : sort -> value -> bool) (s : sort) (v : value) : bool :=
    match s with
    | SBool => match v with VB _ => true | _ => false end
    | SInt => match v with VN k => oeqb k (inj (ofloor k)) | _ => false end
    | SReal => match v with VN _ => true | _ => false end
    | SBV w => match v with VBV w' z => Nat.eqb w w' && Z.leb 0 z && Z.ltb z (2 ^ Z.of_nat w) | _ => false end
    | SString => match v with VS _ => true | _ => false end
    | _ => udom s v
    end.
End Dom.

(** Int is a subset of Real: the graph of a function does not depend on whether its result sort is
    declared Int or Real.  A lambda term is interpreted from its parameter sorts, the erased result sort
    and its graph. *)
Fixpoint num_erase (s : sort) : sort :=
  match s with
  | SInt => SReal
  | SFun ss => SFun (map num_erase ss)
  | SAtom n ss => SAtom n (map num_erase ss)
  | SArray a b => SArray (num_erase a) (num_erase b)
  | _ => s
  end.

(** The regular expressions of the SMT-LIB theory of strings: what membership means for each operator.  A value of sort RegLan
    stands for the language of the strings that str.in_re puts into it. *)
Definition in_re_ {K U : Type} (iop : op -> list (value_ K U) -> value_ K U) (s : list N) (r : value_ K U) : bool :=
  match iop OStrInRe [VS s; r] with VB b => b | _ => false end.
Record re_laws {K U : Type} (iop : op -> list (value_ K U) -> value_ K U) : Prop := {
  re_none : forall s, in_re_ iop s (iop OReNone []) = false;
  re_all : forall s, in_re_ iop s (iop OReAll []) = true;
  re_allchar : forall s, in_re_ iop s (iop OReAllChar []) = true <-> List.length s = 1%nat;
  re_to_re : forall s w, in_re_ iop s (iop OStrToRe [VS w]) = true <-> s = w;
  re_range : forall s a b, in_re_ iop s (iop OReRange [VS a; VS b]) = true <->
    exists x y z, a = [x] /\ b = [y] /\ s = [z] /\ (x <= z)%N /\ (z <= y)%N;
  re_concat : forall s a b, in_re_ iop s (iop OReConcat [a; b]) = true <->
    exists u v, s = u ++ v /\ in_re_ iop u a = true /\ in_re_ iop v b = true;
  re_union : forall s a b, in_re_ iop s (iop OReUnion [a; b]) = in_re_ iop s a || in_re_ iop s b;
  re_inter : forall s a b, in_re_ iop s (iop OReInter [a; b]) = in_re_ iop s a && in_re_ iop s b;
  re_diff : forall s a b, in_re_ iop s (iop OReDiff [a; b]) = in_re_ iop s a && negb (in_re_ iop s b);
  re_comp : forall s a, in_re_ iop s (iop OReComp [a]) = negb (in_re_ iop s a);
  re_star : forall s a, in_re_ iop s (iop OReStar [a]) = true <->
    exists ws, s = List.concat ws /\ Forall (fun w => in_re_ iop w a = true) ws;
  re_plus : forall s a, in_re_ iop s (iop ORePlus [a]) = true <->
    exists ws, ws <> [] /\ s = List.concat ws /\ Forall (fun w => in_re_ iop w a = true) ws;
  re_opt : forall s a, in_re_ iop s (iop OReOpt [a]) = true <-> s = [] \/ in_re_ iop s a = true
}.

Record interp : Type := mkI {
  iF : ofield;
  iU : Type;
  ieqU : iU -> iU -> bool;
  ieqU_eq : forall a b, ieqU a b = true <-> a = b;
  iudom : sort -> value_ iF iU -> bool;                       (* carriers of the remaining sorts *)
  idom := dom_ iudom : sort -> value_ iF iU -> bool;
  iapp : value_ iF iU -> list (value_ iF iU) -> value_ iF iU; (* function application *)
  iop : op -> list (value_ iF iU) -> value_ iF iU;            (* operators left open by the spec *)
  ipop : pop -> list term -> list (value_ iF iU) -> value_ iF iU;
  iall : sort -> (value_ iF iU -> bool) -> bool;
  iall_spec : forall s f, iall s f = true <-> (forall v, idom s v = true -> f v = true);
  ichoice : sort -> (value_ iF iU -> bool) -> value_ iF iU;
  ichoice_dom : forall s f, idom s (ichoice s f) = true;
  ichoice_spec : forall s f v, idom s v = true -> f v = true -> f (ichoice s f) = true;
  ichoice_ext : forall s f g, (forall v, idom s v = true -> f v = g v) -> ichoice s f = ichoice s g;
  ilam : list sort -> sort -> (list (value_ iF iU) -> value_ iF iU) -> value_ iF iU;
  ilam_ext : forall ss s f g,
     (forall vs, Forall2 (fun s v => idom s v = true) ss vs -> f vs = g vs) -> ilam ss s f = ilam ss s g;
  (* the interpretation respects sorts *)
  iapp_dom : forall ss r f vs,
     idom (SFun (ss ++ [r])) f = true -> Forall2 (fun s v => idom s v = true) ss vs ->
     idom r (iapp f vs) = true;
  iop_dom : forall o ss vs,
     op_wt o ss = true -> Forall2 (fun s v => idom s v = true) ss vs ->
     idom (op_sort o ss) (iop o vs) = true;
  ipop_dom : forall o oargs ss vs,
     pop_wt o oargs ss = true -> Forall2 (fun s v => idom s v = true) ss vs ->
     idom (pop_sort o oargs ss) (ipop o oargs vs) = true;
  ilam_dom : forall ss r f,
     (forall vs, Forall2 (fun s v => idom s v = true) ss vs -> idom r (f vs) = true) ->
     idom (SFun (ss ++ [r])) (ilam ss (num_erase r) f) = true;
  (* regular expressions have their standard meaning *)
  ire : re_laws iop
}.

#[global] Arguments idom : simpl never.

(** ** Bit-vector arithmetic on (width, value) pairs, SMT-LIB theory FixedSizeBitVectors / QF_BV *)
Definition bvmod (w : nat) (z : Z) : Z := Z.modulo z (2 ^ Z.of_nat w).
Definition bvsigned (w : nat) (z : Z) : Z :=
  if Z.testbit z (Z.of_nat w - 1) then z - 2 ^ Z.of_nat w else z.
Definition bvudiv (w : nat) (x y : Z) : Z := if Z.eqb y 0 then 2 ^ Z.of_nat w - 1 else x / y.
Definition bvurem (w : nat) (x y : Z) : Z := if Z.eqb y 0 then x else Z.modulo x y.
Definition bvneg (w : nat) (x : Z) : Z := bvmod w (- x).
Definition bvmsb (w : nat) (x : Z) : bool := Z.testbit x (Z.of_nat w - 1).
Definition bvsdiv (w : nat) (x y : Z) : Z :=
  match bvmsb w x, bvmsb w y with
  | false, false => bvudiv w x y
  | true, false => bvneg w (bvudiv w (bvneg w x) y)
  | false, true => bvneg w (bvudiv w x (bvneg w y))
  | true, true => bvudiv w (bvneg w x) (bvneg w y)
  end.
Definition bvsrem (w : nat) (x y : Z) : Z :=
  match bvmsb w x, bvmsb w y with
  | false, false => bvurem w x y
  | true, false => bvneg w (bvurem w (bvneg w x) y)
  | false, true => bvurem w x (bvneg w y)
  | true, true => bvneg w (bvurem w (bvneg w x) (bvneg w y))
  end.
Definition bvsmod (w : nat) (x y : Z) : Z :=
  let ax := if bvmsb w x then bvneg w x else x in
  let ay := if bvmsb w y then bvneg w y else y in
  let u := bvurem w ax ay in
  if Z.eqb u 0 then u
  else match bvmsb w x, bvmsb w y with
       | false, false => u
       | true, false => bvmod w (bvneg w u + y)
       | false, true => bvmod w (u + y)
       | true, true => bvneg w u
       end.
Definition bvbin (o : op) : option (nat -> Z -> Z -> Z) :=
  match o with
  | OBvAnd => Some (fun _ => Z.land)
  | OBvOr => Some (fun _ => Z.lor)
  | OBvXor => Some (fun _ => Z.lxor)
  | OBvNAnd => Some (fun w x y => 2 ^ Z.of_nat w - 1 - Z.land x y)%Z
  | OBvNOr => Some (fun w x y => 2 ^ Z.of_nat w - 1 - Z.lor x y)%Z
  | OBvXNor => Some (fun w x y => 2 ^ Z.of_nat w - 1 - Z.lxor x y)%Z
  | OBvAdd => Some (fun w x y => bvmod w (x + y))
  | OBvSub => Some (fun w x y => bvmod w (x - y))
  | OBvMul => Some (fun w x y => bvmod w (x * y))
  | OBvUDiv => Some bvudiv
  | OBvURem => Some bvurem
  | OBvShl => Some (fun w x y => bvmod w (x * 2 ^ y))
  | OBvLShr => Some (fun w x y => x / 2 ^ y)%Z
  | OBvAShr => Some (fun w x y => bvmod w (bvsigned w x / 2 ^ y))
  | OBvSDiv => Some bvsdiv
  | OBvSRem => Some bvsrem
  | OBvSMod => Some bvsmod
  | _ => None
  end.
Definition bvcmp (o : op) : option (nat -> Z -> Z -> bool) :=
  match o with
  | OBvULt => Some (fun _ => Z.ltb)
  | OBvULe => Some (fun _ => Z.leb)
  | OBvUGt => Some (fun _ => Z.gtb)
  | OBvUGe => Some (fun _ => Z.geb)
  | OBvSLt => Some (fun w x y => Z.ltb (bvsigned w x) (bvsigned w y))
  | OBvSLe => Some (fun w x y => Z.leb (bvsigned w x) (bvsigned w y))
  | OBvSGt => Some (fun w x y => Z.gtb (bvsigned w x) (bvsigned w y))
  | OBvSGe => Some (fun w x y => Z.geb (bvsigned w x) (bvsigned w y))
  | _ => None
  end.
(** value of a list of bits, least significant first *)
Fixpoint bits_val (l : list bool) : Z :=
  match l with [] => 0 | b :: r => (if b then 1 else 0) + 2 * bits_val r end%Z.

(** Euclidean division of SMT-LIB Ints: m = n*q + r, 0 <= r < |n|. *)
Definition ediv (m n : Z) : Z := if Z.ltb n 0 then - (m / - n) else m / n.
Definition emod (m n : Z) : Z := Z.modulo m (Z.abs n).

(** str.substr of SMT-LIB: at most n characters from position i; empty if the position is outside of the string *)
Definition substr (s : list N) (i n : Z) : list N :=
  if Z.ltb i 0 || Z.leb (Z.of_nat (List.length s)) i || Z.leb n 0 then []
  else firstn (Z.to_nat n) (skipn (Z.to_nat i) s).

Section Eval.
  Context (I : interp).
  Definition value : Type := value_ (iF I) (iU I).
  Definition env : Type := string -> sort -> value.
  Notation idom := (idom I).
  Definition veqb : value -> value -> bool := veqb_ (ieqU I).

  Definition truth (v : value) : bool := match v with VB b => b | _ => false end.
  Definition num (v : value) : iF I := match v with VN k => k | _ => o0 end.
  Definition bvw (v : value) : nat := match v with VBV w _ => w | _ => 0%nat end.
  Definition bvz (v : value) : Z := match v with VBV _ z => z | _ => 0%Z end.
  Definition str (v : value) : list N := match v with VS s => s | _ => [] end.
  Definition vint (z : Z) : value := VN (inj z).

  Definition upd (E : env) (x : string) (s : sort) (v : value) : env :=
    fun y s' => if String.eqb y x && sort_eqb s' s then v else E y s'.
  (** later bindings of the list take precedence *)
  Fixpoint upds (E : env) (vs : list (string * sort)) (vals : list value) : env :=
    match vs, vals with
    | (x, s) :: r, v :: rv => upds (upd E x s v) r rv
    | _, _ => E
    end.

  (** chainable predicate: adjacent elements related *)
  Fixpoint chain (r : value -> value -> bool) (l : list value) : bool :=
    match l with
    | a :: ((b :: _) as t) => r a b && chain r t
    | _ => true
    end.
  Fixpoint pairwise (r : value -> value -> bool) (l : list value) : bool :=
    match l with
    | a :: t => forallb (r a) t && pairwise r t
    | [] => true
    end.
  Fixpoint implies_list (l : list value) : bool :=
    match l with
    | [] => true
    | [a] => truth a
    | a :: t => implb (truth a) (implies_list t)
    end.
  Definition bin2 (o : op) (f : value -> value -> value) (l : list value) : value :=
    match l with [a; b] => f a b | _ => iop I o l end.
  Definition fold1 (o : op) (f : value -> value -> value) (l : list value) : value :=
    match l with a :: b :: r => fold_left f (b :: r) a | _ => iop I o l end.

  (** division: the value for a zero divisor is left to the interpretation *)
  Definition rdiv (a b : value) : value :=
    if oeqb (num b) o0 then iop I ORealDiv [a; b] else VN (odiv (num a) (num b)).
  Definition idiv (a b : value) : value :=
    if oeqb (num b) o0 then iop I OIntDiv [a; b] else vint (ediv (ofloor (num a)) (ofloor (num b))).
  Definition imod (a b : value) : value :=
    if oeqb (num b) o0 then iop I OMod [a; b] else vint (emod (ofloor (num a)) (ofloor (num b))).
  Definition bv2 (f : nat -> Z -> Z -> Z) (a b : value) : value :=
    VBV (bvw a) (f (bvw a) (bvz a) (bvz b)).

  Definition eval_op (o : op) (vs : list value) : value :=
    match o with
    | OTrue => VB true
    | OFalse => VB false
    | ONot => match vs with [a] => VB (negb (truth a)) | _ => iop I o vs end
    | OImplies => VB (implies_list vs)
    | OAnd => VB (forallb truth vs)
    | OOr | OCl => VB (existsb truth vs)
    | OXor => VB (fold_left xorb (map truth vs) false)
    | OEquals => VB (chain veqb vs)
    | ODistinct => VB (pairwise (fun a b => negb (veqb a b)) vs)
    | OIte => match vs with [c; a; b] => if truth c then a else b | _ => iop I o vs end
    | OAdd => VN (fold_left oadd (map num vs) o0)
    | OSub => match vs with
              | [a] => VN (oopp (num a))
              | a :: r => VN (fold_left osub (map num r) (num a))
              | [] => iop I o vs end
    | OMult => VN (fold_left omul (map num vs) o1)
    | OIntDiv => fold1 o idiv vs
    | ORealDiv => fold1 o rdiv vs
    | OMod => bin2 o imod vs
    | OAbs => match vs with [a] => VN (if oleb o0 (num a) then num a else oopp (num a)) | _ => iop I o vs end
    | OLt => VB (chain (fun a b => oltb (num a) (num b)) vs)
    | OGt => VB (chain (fun a b => oltb (num b) (num a)) vs)
    | OLe => VB (chain (fun a b => oleb (num a) (num b)) vs)
    | OGe => VB (chain (fun a b => oleb (num b) (num a)) vs)
    | OToReal => match vs with [a] => VN (num a) | _ => iop I o vs end
    | OToInt => match vs with [a] => vint (ofloor (num a)) | _ => iop I o vs end
    | OIsInt => match vs with [a] => VB (oeqb (num a) (inj (ofloor (num a)))) | _ => iop I o vs end
    | OStrConcat => VS (List.concat (map str vs))
    | OStrLen => match vs with [a] => vint (Z.of_nat (List.length (str a))) | _ => iop I o vs end
    | OSubstring => match vs with [a; i; n] => VS (substr (str a) (ofloor (num i)) (ofloor (num n))) | _ => iop I o vs end
    | OBvNot => match vs with [a] => VBV (bvw a) (2 ^ Z.of_nat (bvw a) - 1 - bvz a) | _ => iop I o vs end
    | OBvNeg => match vs with [a] => VBV (bvw a) (bvneg (bvw a) (bvz a)) | _ => iop I o vs end
    | OBvAnd | OBvOr | OBvXor | OBvAdd | OBvMul =>
        match bvbin o with Some f => fold1 o (bv2 f) vs | None => iop I o vs end
    | OBvNAnd | OBvNOr | OBvXNor | OBvSub | OBvUDiv | OBvURem | OBvShl | OBvLShr | OBvAShr
    | OBvSDiv | OBvSRem | OBvSMod =>
        match bvbin o with Some f => bin2 o (bv2 f) vs | None => iop I o vs end
    | OBvULt | OBvULe | OBvUGt | OBvUGe | OBvSLt | OBvSLe | OBvSGt | OBvSGe =>
        match bvcmp o with
        | Some f => bin2 o (fun a b => VB (f (bvw a) (bvz a) (bvz b))) vs
        | None => iop I o vs end
    | OBvConcat =>
        fold1 o (fun a b => VBV (bvw a + bvw b) (bvz a * 2 ^ Z.of_nat (bvw b) + bvz b)) vs
    | OBvComp => bin2 o (fun a b => VBV 1 (if Z.eqb (bvz a) (bvz b) then 1 else 0)%Z) vs
    | OUBvToInt => match vs with [a] => vint (bvz a) | _ => iop I o vs end
    | OSBvToInt => match vs with [a] => vint (bvsigned (bvw a) (bvz a)) | _ => iop I o vs end
    | OBvBbTerm => VBV (List.length vs) (bits_val (map truth vs))
    | OBvPBbTerm => VBV (List.length vs) (bits_val (map (fun v => oeqb (num v) o1) vs))
    | OReConcat | OReUnion | OReInter | OReDiff => fold1 o (fun a b => iop I o [a; b]) vs
    | OBvSize => match vs with [a] => vint (Z.of_nat (bvw a)) | _ => iop I o vs end
    | _ => iop I o vs
    end.

  Definition eval_pop (o : pop) (oargs : list term) (vs : list value) : value :=
    match o, map as_const_nat oargs, vs with
    | PBvExtract, [Some i; Some j], [a] =>
        VBV (i - j + 1) (bvmod (i - j + 1) (bvz a / 2 ^ Z.of_nat j))
    | PBvBitOf, [Some i], [a] => VB (Z.testbit (bvz a) (Z.of_nat i))
    | PBvIntOf, [Some i], [a] => vint (if Z.testbit (bvz a) (Z.of_nat i) then 1 else 0)
    | PZeroExtend, [Some i], [a] => VBV (i + bvw a) (bvz a)
    | PSignExtend, [Some i], [a] => VBV (i + bvw a) (bvmod (i + bvw a) (bvsigned (bvw a) (bvz a)))
    | PRotateLeft, [Some i], [a] =>
        let w := bvw a in let k := Nat.modulo i w in
        VBV w (bvmod w (bvz a * 2 ^ Z.of_nat k) + bvz a / 2 ^ Z.of_nat (w - k))
    | PRotateRight, [Some i], [a] =>
        let w := bvw a in let k := Nat.modulo i w in
        VBV w (bvz a / 2 ^ Z.of_nat k + bvmod w (bvz a * 2 ^ Z.of_nat (w - k)))
    | PRepeat, [Some i], [a] =>
        VBV (i * bvw a) (Nat.iter i (fun acc => acc * 2 ^ Z.of_nat (bvw a) + bvz a)%Z 0%Z)
    | PIntToBv, [Some i], [a] => VBV i (bvmod i (ofloor (num a)))
    | _, _, _ => ipop I o oargs vs
    end.

  Definition eval_const (c : const) : value :=
    match c with
    | CInt z => vint z
    | CReal q => VN (injQ q)
    | CStr s => VS s
    | CBV v w => VBV w (bvmod w v)
    end.

  (** universal closure of a Boolean function of the environment over a binding list *)
  Fixpoint eval_all (vs : list (string * sort)) (body : env -> bool) (E : env) : bool :=
    match vs with
    | [] => body E
    | (x, s) :: r => iall I s (fun v => eval_all r body (upd E x s v))
    end.

  Definition eval_bind (b : binder) (vs : list (string * sort)) (bs : sort) (body : env -> value) (E : env) : value :=
    match b with
    | BForall => VB (eval_all vs (fun E' => truth (body E')) E)
    | BExists => VB (negb (eval_all vs (fun E' => negb (truth (body E'))) E))
    | BChoice =>
        match vs with
        | [(x, s)] => ichoice I s (fun v => truth (body (upd E x s v)))
        | _ => ilam I (map snd vs) (num_erase bs) (fun vals => body (upds E vs vals))   (* ill-formed term *)
        end
    | BLambda => ilam I (map snd vs) (num_erase bs) (fun vals => body (upds E vs vals))
    end.

  Fixpoint eval (t : term) (E : env) {struct t} : value :=
    match t with
    | TConst c => eval_const c
    | TVar x s => E x s
    | TApp f args => iapp I (eval f E) (map (fun a => eval a E) args)
    | TOp o args => eval_op o (map (fun a => eval a E) args)
    | TSort _ => VB false
    | TBind b vs body => eval_bind b vs (sort_of body) (eval body) E
    | TLet bs body =>
        (* simultaneous let *)
        eval body (upds E (map (fun p => (fst p, sort_of (snd p))) bs)
                          (map (fun p => eval (snd p) E) bs))
    | TPOp o oargs args => eval_pop o oargs (map (fun a => eval a E) args)
    end.

  Definition holds (E : env) (t : term) : bool := truth (eval t E).
  (** a clause is a disjunction *)
  Definition clause_holds (E : env) (c : clause) : Prop := exists l, In l c /\ holds E l = true.

  Definition env_ok (E : env) : Prop := forall x s, idom s (E x s) = true.
End Eval.

Arguments truth {I}. Arguments num {I}. Arguments vint {I}. Arguments bvz {I}. Arguments bvw {I}.
Arguments veqb {I}. Arguments upd {I}. Arguments upds {I}. Arguments str {I}.
Arguments eval_op {I}. Arguments eval_pop {I}. Arguments eval_const {I}. Arguments eval {I}.
Arguments holds {I}. Arguments clause_holds {I}. Arguments env_ok {I}.
Arguments eval_bind {I}. Arguments eval_all {I}. Arguments chain {I}. Arguments pairwise {I}.
Arguments implies_list {I}. Arguments fold1 {I}. Arguments bin2 {I}.
Arguments rdiv {I}. Arguments idiv {I}. Arguments imod {I}. Arguments bv2 {I}.

Section SemLemmas.
  Context {I : interp}.
  Implicit Types E : env I.

  Lemma veqb_eq (a b : value I) : veqb a b = true <-> a = b.
  Proof.
    destruct a, b; simpl; try (split; discriminate).
    - rewrite eqb_true_iff. split; congruence.
    - change (oeqb k k0 = true <-> (VN k : value I) = VN k0). rewrite oeqb_eq. split; congruence.
    - change (Nat.eqb w w0 && Z.eqb z z0 = true <-> (VBV w z : value I) = VBV w0 z0).
      rewrite andb_true_iff, Nat.eqb_eq, Z.eqb_eq.
      split; [intros [-> ->]; reflexivity | intros H; injection H; auto].
    - change (list_eqb N.eqb s s0 = true <-> (VS s : value I) = VS s0).
      rewrite list_eqb_eq by apply N.eqb_eq. split; congruence.
    - change (ieqU I u u0 = true <-> (VU u : value I) = VU u0). rewrite ieqU_eq. split; congruence.
  Qed.
  Lemma veqb_refl (a : value I) : veqb a a = true.
  Proof. apply veqb_eq; reflexivity. Qed.
  Lemma veqb_sym (a b : value I) : veqb a b = veqb b a.
  Proof.
    destruct (veqb a b) eqn:E1, (veqb b a) eqn:E2; try reflexivity;
      [apply veqb_eq in E1|apply veqb_eq in E2]; subst; rewrite veqb_refl in *; congruence.
  Qed.

  Lemma holds_not E t : holds E (tNot t) = negb (holds E t).
  Proof. reflexivity. Qed.
  Lemma holds_true E : holds E tTrue = true.
  Proof. reflexivity. Qed.
  Lemma holds_false E : holds E tFalse = false.
  Proof. reflexivity. Qed.
  Lemma holds_and E l : holds E (TOp OAnd l) = forallb (holds E) l.
  Proof.
    unfold holds; cbn [eval eval_op truth]. induction l as [|a r IH]; [reflexivity|].
    simpl. rewrite IH. reflexivity.
  Qed.
  Lemma holds_or E l : holds E (TOp OOr l) = existsb (holds E) l.
  Proof.
    unfold holds; cbn [eval eval_op truth]. induction l as [|a r IH]; [reflexivity|].
    simpl. rewrite IH. reflexivity.
  Qed.
  Lemma holds_implies E a b : holds E (TOp OImplies [a; b]) = implb (holds E a) (holds E b).
  Proof. reflexivity. Qed.
  Lemma holds_xor E a b : holds E (TOp OXor [a; b]) = xorb (holds E a) (holds E b).
  Proof. unfold holds; simpl. destruct (truth (eval a E)); reflexivity. Qed.
  Lemma holds_eq E a b : holds E (tEq a b) = veqb (eval a E) (eval b E).
  Proof. unfold holds, tEq; simpl. rewrite andb_true_r. reflexivity. Qed.
  Lemma holds_eq_iff E a b : holds E (tEq a b) = true <-> eval a E = eval b E.
  Proof. rewrite holds_eq. apply veqb_eq. Qed.
  Lemma holds_ite E c a b : holds E (TOp OIte [c; a; b]) = if holds E c then holds E a else holds E b.
  Proof. unfold holds; simpl. destruct (truth (eval c E)); reflexivity. Qed.
  Lemma eval_not E t : eval (tNot t) E = VB (negb (holds E t)).
  Proof. reflexivity. Qed.
  Lemma eval_ite E c a b : eval (TOp OIte [c; a; b]) E = if holds E c then eval a E else eval b E.
  Proof. reflexivity. Qed.

  Lemma clause_holds_cons E t c : clause_holds E (t :: c) <-> holds E t = true \/ clause_holds E c.
  Proof.
    unfold clause_holds. split.
    - intros [l [[<-|H] Hl]]; eauto.
    - intros [H|[l [H1 H2]]]; [exists t|exists l]; simpl; auto.
  Qed.
  Lemma clause_holds_nil E : ~ clause_holds E [].
  Proof. intros [l [[] _]]. Qed.
  Lemma clause_holds_one E t : clause_holds E [t] <-> holds E t = true.
  Proof. rewrite clause_holds_cons. split; [intros [H|H]; [exact H|destruct (clause_holds_nil E H)]|auto]. Qed.
  Lemma clause_holds_incl E c d : incl c d -> clause_holds E c -> clause_holds E d.
  Proof. intros H [l [H1 H2]]. exists l. auto. Qed.
  Lemma clause_holds_app E c d : clause_holds E (c ++ d) <-> clause_holds E c \/ clause_holds E d.
  Proof.
    unfold clause_holds. split.
    - intros [l [H Hl]]. apply in_app_or in H. destruct H; [left|right]; eauto.
    - intros [[l [H Hl]]|[l [H Hl]]]; exists l; split; auto; apply in_or_app; auto.
  Qed.
End SemLemmas.
