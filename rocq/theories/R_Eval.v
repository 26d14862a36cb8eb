(** ast/evaluate.rs, and the rule evaluate (checker/rules/extras.rs:256-260).
    The cache of [evaluate_impl] is not modelled: it maps a term to its own result.  Operations of [rug] that panic (division by
    zero), failed [unwrap]s and underflows of [usize] subtractions are [RPanic].  Widths and shift amounts are unbounded:
    [as u32] casts of widths and memory exhaustion are not modelled. *)
From Coq Require Import List String ZArith QArith Qround Bool Arith Lia.
From Verif Require Import Base Term Sem Rules Num.
Import ListNotations.
Local Open Scope nat_scope.

(** Value, 8-15 *)
Inductive cval : Type := EB (b : bool) | EI (z : Z) | ER (q : Q) | ES (s : list N) | EBV (z : Z) (w : nat).
(** derived equality *)
Definition cval_eqb (a b : cval) : bool :=
  match a, b with
  | EB x, EB y => Bool.eqb x y
  | EI x, EI y => Z.eqb x y
  | ER x, ER y => Qeq_bool x y
  | ES x, ES y => list_eqb N.eqb x y
  | EBV x w, EBV y v => Z.eqb x y && Nat.eqb w v
  | _, _ => false
  end.
(** from_constant, from_term, 18-35 *)
Definition from_const (c : const) : cval :=
  match c with CInt z => EI z | CReal q => ER q | CStr s => ES s | CBV v w => EBV v w end.
Definition from_term (t : term) : option cval :=
  match t with
  | TConst c => Some (from_const c)
  | TOp OTrue _ => Some (EB true)
  | TOp OFalse _ => Some (EB false)
  | _ => None
  end.
(** new_bitvec, 39-41: [keep_bits] is the remainder modulo a power of two, also for negative integers *)
Definition new_bv (z : Z) (w : nat) : cval := EBV (bvmod w z) w.
(** as_bool .. as_bitvec, 44-73 *)
Definition as_b (v : cval) : option bool := match v with EB b => Some b | _ => None end.
Definition as_i (v : cval) : option Z := match v with EI z => Some z | _ => None end.
Definition as_r (v : cval) : option Q := match v with ER q => Some q | _ => None end.
Definition as_bv (v : cval) : option (Z * nat) := match v with EBV z w => Some (z, w) | _ => None end.
(** as_signed_bitvec, 76-85.  [w - 1] underflows for width 0. *)
Definition as_sbv (v : cval) : outcome (option (Z * nat)) :=
  match v with
  | EBV z w =>
      match w with
      | O => RPanic
      | S k => ROk (Some (if Z.testbit z (Z.of_nat k) then (2 ^ Z.of_nat w - z)%Z else z, w))
      end
  | _ => ROk None
  end.
(** into_term, 88-97.  [Rational]s are kept in lowest terms. *)
Definition into_term (v : cval) : term :=
  match v with
  | EB true => TOp OTrue []
  | EB false => TOp OFalse []
  | EI z => TConst (CInt z)
  | ER q => TConst (CReal (Qred q))
  | ES s => TConst (CStr s)
  | EBV z w => TConst (CBV z w)
  end.

(** The [?] operator on options, and indexing *)
Definition res : Type := outcome (option cval).
Definition some (v : cval) : res := ROk (Some v).
Definition oq {A B} (x : option A) (f : A -> outcome (option B)) : outcome (option B) :=
  match x with Some a => f a | None => ROk None end.
Definition oo {A B} (x : outcome (option A)) (f : A -> outcome (option B)) : outcome (option B) :=
  match x with ROk (Some a) => f a | ROk None => ROk None | RErr => RErr | RPanic => RPanic end.
Definition arg {B} (l : list cval) (n : nat) (f : cval -> outcome (option B)) : outcome (option B) :=
  match nth_error l n with Some a => f a | None => RPanic end.
(** try_fold *)
Fixpoint tfold {A} (f : A -> cval -> outcome (option A)) (acc : A) (l : list cval) : outcome (option A) :=
  match l with [] => ROk (Some acc) | a :: r => oo (f acc a) (fun acc' => tfold f acc' r) end.
Definition usize (z : Z) : option Z := if Z.leb 0 z && Z.ltb z (2 ^ 64) then Some z else None.

(** mixed_type_arith and arith_op, 159-188.  [fi] and [fq] may panic. *)
Definition mixed (fi : Z -> Z -> outcome Z) (fq : Q -> Q -> outcome Q) (real : bool) (acc a : cval) : res :=
  let qq x y := do r <- fq x y ; some (ER r) in
  match acc, a with
  | EI l, EI r => if real then qq (inject_Z l) (inject_Z r) else do z <- fi l r ; some (EI z)
  | EI l, ER r => qq (inject_Z l) r
  | ER l, EI r => qq l (inject_Z r)
  | ER l, ER r => qq l r
  | _, _ => ROk None
  end.
Definition is_num_val (v : cval) : bool := match v with EI _ | ER _ => true | _ => false end.
Definition arith fi fq (real : bool) (l : list cval) : res :=
  match l with
  | [] => RPanic
  | a :: r => if is_num_val a then tfold (mixed fi fq real) a r else ROk None
  end.
Definition quot_i (x y : Z) : outcome Z := if Z.eqb y 0 then RPanic else ROk (Z.quot x y).
Definition quot_q (x y : Q) : outcome Q := if Qeq_bool y 0 then RPanic else ROk (x / y)%Q.
Definition ok2 {A} (f : A -> A -> A) (x y : A) : outcome A := ROk (f x y).
(** bitvec_op, 190-202 *)
Definition bvop (f : Z -> Z -> Z) (l : list cval) : res :=
  match l with
  | [] => RPanic
  | EBV z w :: r => oo (tfold (fun acc a => oq (as_bv a) (fun b => ROk (Some (bvmod w (f acc (fst b)))))) z r) (fun z' => some (new_bv z' w))
  | _ => ROk None
  end.
(** comparison_op, 204-221 *)
Definition compare (fq : Q -> Q -> bool) (a b : cval) : option bool :=
  match a, b with
  | EI l, EI r => Some (fq (inject_Z l) (inject_Z r))
  | EI l, ER r => Some (fq (inject_Z l) r)
  | ER l, EI r => Some (fq l (inject_Z r))
  | ER l, ER r => Some (fq l r)
  | _, _ => None
  end.
Fixpoint cmp_go (fq : Q -> Q -> bool) (acc : bool) (l : list cval) : res :=
  match l with
  | a :: ((b :: _) as r) => if acc then oq (compare fq a b) (fun x => cmp_go fq x r) else cmp_go fq false r
  | _ => some (EB acc)
  end.
Definition qltb (x y : Q) : bool := negb (Qle_bool y x).
(** bitvec_comparison_op, 223-234 *)
Definition bvcmp_u (f : Z -> Z -> bool) (l : list cval) : res :=
  arg l 0 (fun a => arg l 1 (fun b => oq (as_bv a) (fun x => oq (as_bv b) (fun y => some (EB (f (fst x) (fst y))))))).
Definition bvcmp_s (f : Z -> Z -> bool) (l : list cval) : res :=
  arg l 0 (fun a => oo (as_sbv a) (fun x => arg l 1 (fun b => oo (as_sbv b) (fun y => some (EB (f (fst x) (fst y))))))).
(** binary operators on bit-vectors, unsigned and signed *)
Definition bv2u (f : nat -> Z -> Z -> outcome (option Z)) (l : list cval) : res :=
  arg l 0 (fun a => oq (as_bv a) (fun x => arg l 1 (fun b => oq (as_bv b) (fun y => oo (f (snd x) (fst x) (fst y)) (fun z => some (new_bv z (snd x))))))).
Definition bv2s (f : nat -> Z -> Z -> outcome (option Z)) (l : list cval) : res :=
  arg l 0 (fun a => oo (as_sbv a) (fun x => arg l 1 (fun b => oo (as_sbv b) (fun y => oo (f (snd x) (fst x) (fst y)) (fun z => some (new_bv z (snd x))))))).
Definition okz (z : Z) : outcome (option Z) := ROk (Some z).
Fixpoint windows_eq (l : list cval) : bool :=
  match l with a :: ((b :: _) as r) => cval_eqb a b && windows_eq r | _ => true end.
(** all values different: the set of the values has as many elements as the list *)
Fixpoint all_diff (l : list cval) : bool :=
  match l with [] => true | a :: r => forallb (fun b => negb (cval_eqb a b)) r && all_diff r end.
(** set_bit from the lowest bit up, 473-488 *)
Fixpoint set_bits (f : cval -> option bool) (l : list cval) : option Z :=
  match l with
  | [] => Some 0%Z
  | a :: r => match f a, set_bits f r with Some b, Some z => Some ((if b then 1 else 0) + 2 * z)%Z | _, _ => None end
  end.
Definition opt {A} (x : option A) (f : A -> cval) : res := oq x (fun a => some (f a)).
Definition zabs_q (q : Q) : Q := if Qle_bool 0 q then q else (- q)%Q.

(** eval_op, 236-493 *)
Definition ev_op (o : op) (l : list cval) : res :=
  match o with
  | OTrue => some (EB true)
  | OFalse => some (EB false)
  | ONot => arg l 0 (fun a => opt (as_b a) (fun b => EB (negb b)))
  | OImplies =>
      match l with
      | [] => RPanic
      | _ => oo (tfold (fun acc a => if acc : bool then ROk (Some true) else oq (as_b a) (fun b => ROk (Some (negb b)))) false (removelast l))
               (fun x => opt (as_b (last l (EB true))) (fun b => EB (x || b)))
      end
  | OAnd => oo (tfold (fun acc a => if acc : bool then oq (as_b a) (fun b => ROk (Some b)) else ROk (Some false)) true l) (fun b => some (EB b))
  | OOr => oo (tfold (fun acc a => if acc : bool then ROk (Some true) else oq (as_b a) (fun b => ROk (Some b))) false l) (fun b => some (EB b))
  | OXor => oo (tfold (fun acc a => oq (as_b a) (fun b => ROk (Some (xorb acc b)))) false l) (fun b => some (EB b))
  | OEquals => some (EB (windows_eq l))
  | ODistinct => some (EB (all_diff l))
  | OIte => arg l 0 (fun c => oq (as_b c) (fun b => if b : bool then arg l 1 some else arg l 2 some))
  | OAdd => arith (ok2 Z.add) (ok2 Qplus) false l
  | OSub => match l with
            | [EI z] => some (EI (- z))
            | [ER q] => some (ER (- q))
            | [_] => ROk None
            | _ => arith (ok2 Z.sub) (ok2 Qminus) false l
            end
  | OMult => arith (ok2 Z.mul) (ok2 Qmult) false l
  | OIntDiv => arith quot_i quot_q false l
  | ORealDiv => arith quot_i quot_q true l
  | OMod => arg l 0 (fun a => oq (as_i a) (fun x => arg l 1 (fun b => oq (as_i b) (fun y => if Z.eqb y 0 then RPanic else some (EI (Z.rem x y))))))
  | OAbs => arg l 0 (fun a => match a with EI z => some (EI (Z.abs z)) | ER q => some (ER (zabs_q q)) | _ => ROk None end)
  | OPow2 => arg l 0 (fun a => oq (as_i a) (fun v => if Z.ltb v 0 then some (EI 0) else oq (usize v) (fun v => some (EI (2 ^ v)))))
  | OLog2 => arg l 0 (fun a => oq (as_i a) (fun v => some (EI (if Z.leb v 0 then 0 else Z.log2 v))))
  | OIsPow2 => arg l 0 (fun a => oq (as_i a) (fun v => some (EB (Z.ltb 0 v && Z.eqb v (2 ^ Z.log2 v)))))
  | OLt => cmp_go qltb true l
  | OGt => cmp_go (fun x y => qltb y x) true l
  | OLe => cmp_go Qle_bool true l
  | OGe => cmp_go (fun x y => Qle_bool y x) true l
  | OToReal => arg l 0 (fun a => opt (as_i a) (fun z => ER (inject_Z z)))
  | OToInt => arg l 0 (fun a => opt (as_r a) (fun q => EI (Qfloor q)))
  | OIsInt => arg l 0 (fun a => opt (as_r a) (fun q => EB (Qis_int q)))
  | OBvNot => arg l 0 (fun a => opt (as_bv a) (fun x => new_bv (Z.lnot (fst x)) (snd x)))
  | OBvNeg => arg l 0 (fun a => opt (as_bv a) (fun x => new_bv (- fst x) (snd x)))
  | OBvAnd => bvop Z.land l
  | OBvOr => bvop Z.lor l
  | OBvXor => bvop Z.lxor l
  | OBvAdd => bvop Z.add l
  | OBvMul => bvop Z.mul l
  | OBvSub => bv2s (fun _ a b => okz (a - b)) l
  | OBvUDiv => bv2u (fun w a b => okz (if Z.eqb b 0 then 2 ^ Z.of_nat w - 1 else Z.quot a b)) l
  | OBvURem => bv2u (fun w a b => okz (if Z.eqb b 0 then a else Z.rem a b)) l
  | OBvSDiv => bv2s (fun _ a b => if Z.eqb b 0 then ROk None else okz (Z.quot a b)) l
  | OBvSRem => bv2s (fun _ a b => if Z.eqb b 0 then ROk None else okz (Z.rem (Z.abs a) (Z.abs b) * Z.sgn a)) l
  | OBvSMod => bv2s (fun _ a b => if Z.eqb b 0 then ROk None else okz (Z.rem (Z.abs a) (Z.abs b) * Z.sgn b)) l
  | OBvShl => bv2u (fun _ a b => oq (usize b) (fun n => okz (Z.shiftl a n))) l
  | OBvLShr => bv2u (fun _ a b => oq (usize b) (fun n => okz (Z.shiftr a n))) l
  | OBvAShr => bv2u (fun w a b =>
      match usize b, w with
      | Some n, S k =>
          if Z.testbit a (Z.of_nat k) then
            if Z.ltb (Z.of_nat w) n then RPanic
            else okz (Z.lor (Z.shiftr a n) (Z.shiftl (Z.shiftl 1 n - 1) (Z.of_nat w - n)))
          else okz (Z.shiftr a n)
      | _, _ => RPanic
      end) l
  | OBvULt => bvcmp_u Z.ltb l
  | OBvULe => bvcmp_u Z.leb l
  | OBvUGt => bvcmp_u Z.gtb l
  | OBvUGe => bvcmp_u Z.geb l
  | OBvSLt => bvcmp_s Z.ltb l
  | OBvSLe => bvcmp_s Z.leb l
  | OBvSGt => bvcmp_s Z.gtb l
  | OBvSGe => bvcmp_s Z.geb l
  | OBvConcat =>
      oo (tfold (fun acc a => oq (as_bv a) (fun b => ROk (Some ((Z.shiftl (fst acc) (Z.of_nat (snd b)) + fst b)%Z, snd acc + snd b)))) (0%Z, 0) l)
         (fun x => some (new_bv (fst x) (snd x)))
  | OBvNAnd => bv2u (fun _ a b => okz (Z.lnot (Z.land a b))) l
  | OBvNOr => bv2u (fun _ a b => okz (Z.lnot (Z.lor a b))) l
  | OBvXNor => bv2u (fun _ a b => okz (Z.lnot (Z.lxor a b))) l
  | OBvComp => arg l 0 (fun a => arg l 1 (fun b => oq (as_bv a) (fun x => oq (as_bv b) (fun y => some (new_bv (if Z.eqb (fst x) (fst y) then 1 else 0) 1)))))
  | OUBvToInt => arg l 0 (fun a => opt (as_bv a) (fun x => EI (fst x)))
  | OSBvToInt => arg l 0 (fun a => oo (as_sbv a) (fun x => some (EI (fst x))))
  | OBvSize => arg l 0 (fun a => opt (as_bv a) (fun x => EI (Z.of_nat (snd x))))
  | OBvConst => arg l 0 (fun a => oq (as_i a) (fun v => arg l 1 (fun b => oq (as_i b) (fun w => match usize w with Some n => some (new_bv v (Z.to_nat n)) | None => RPanic end))))
  | OBvBbTerm => opt (set_bits as_b l) (fun z => EBV z (List.length l))
  | OBvPBbTerm => opt (set_bits (fun a => option_map (Z.eqb 1) (as_i a)) l) (fun z => EBV z (List.length l))
  | _ => ROk None
  end.

(** rotate_right, 569-577 *)
Definition rotr (z : Z) (w r : nat) : outcome Z :=
  match w with
  | O => RPanic
  | _ => let k := Nat.modulo r w in ROk (Z.shiftl (bvmod k z) (Z.of_nat (w - k)) + Z.shiftr z (Z.of_nat k))%Z
  end.
(** eval_param_op, 495-567 *)
Definition op_usize {B} (l : list cval) (n : nat) (f : nat -> outcome (option B)) : outcome (option B) :=
  arg l n (fun a => oq (as_i a) (fun z => match usize z with Some k => f (Z.to_nat k) | None => RPanic end)).
Definition ev_pop (o : pop) (ol l : list cval) : res :=
  match o with
  | PBvExtract => op_usize ol 0 (fun i => op_usize ol 1 (fun j => arg l 0 (fun a => oq (as_bv a) (fun x =>
      if Nat.ltb i j then RPanic else some (new_bv (Z.shiftr (bvmod i (fst x)) (Z.of_nat j)) (i - j + 1))))))
  | PZeroExtend => op_usize ol 0 (fun i => arg l 0 (fun a => oq (as_bv a) (fun x => some (new_bv (fst x) (snd x + i)))))
  | PSignExtend => op_usize ol 0 (fun i => arg l 0 (fun a => oo (as_sbv a) (fun x => some (new_bv (fst x) (snd x + i)))))
  | PRotateLeft => op_usize ol 0 (fun i => arg l 0 (fun a => oq (as_bv a) (fun x =>
      if Nat.ltb (snd x) i then RPanic else do z <- rotr (fst x) (snd x) (snd x - i) ; some (new_bv z (snd x)))))
  | PRotateRight => op_usize ol 0 (fun i => arg l 0 (fun a => oq (as_bv a) (fun x => do z <- rotr (fst x) (snd x) i ; some (new_bv z (snd x)))))
  | PRepeat => op_usize ol 0 (fun i => arg l 0 (fun a => oq (as_bv a) (fun x =>
      some (new_bv (Nat.iter i (fun r => Z.shiftl r (Z.of_nat (snd x)) + fst x)%Z 0%Z) (snd x * i)))))
  | PIntToBv => op_usize ol 0 (fun w => arg l 0 (fun a => oq (as_i a) (fun v => some (new_bv v w))))
  | PBvConst => arg ol 0 (fun a => oq (as_i a) (fun v => op_usize ol 1 (fun w => some (new_bv v w))))
  | PBvBitOf => op_usize ol 0 (fun i => arg l 0 (fun a => oq (as_bv a) (fun x => some (EB (Z.testbit (fst x) (Z.of_nat i))))))
  | PBvIntOf => op_usize ol 0 (fun i => arg l 0 (fun a => oq (as_bv a) (fun x => some (EI (if Z.testbit (fst x) (Z.of_nat i) then 1 else 0)))))
  | _ => ROk None
  end.

(** evaluate_impl, 111-156; a value is a term that [from_term] accepts, and the operators are applied only if all arguments are values *)
Definition values (l : list term) : option (list cval) :=
  fold_right (fun t acc => match from_term t, acc with Some v, Some r => Some (v :: r) | _, _ => None end) (Some []) l.
Fixpoint evaluate (t : term) : outcome term :=
  match t with
  | TConst c => ROk (into_term (from_const c))
  | TOp o args =>
      do args' <- omap evaluate args ;
      match values args' with
      | None => ROk (TOp o args')
      | Some vs => do r <- ev_op o vs ; ROk (match r with Some v => into_term v | None => TOp o args' end)
      end
  | TPOp o oargs args =>
      do oargs' <- omap evaluate oargs ;
      do args' <- omap evaluate args ;
      match values oargs', values args' with
      | Some ovs, Some vs => do r <- ev_pop o ovs vs ; ROk (match r with Some v => into_term v | None => TPOp o oargs' args' end)
      | _, _ => ROk (TPOp o oargs' args')
      end
  | _ => ROk t
  end.
(** the rule *)
Definition r_evaluate : rule := fun c _ _ =>
  len_is c 1 ;;
  do t0 <- idx c 0 ;
  do ts <- m_op2 OEquals t0 ;
  do t <- evaluate (fst ts) ;
  teq t (snd ts).
