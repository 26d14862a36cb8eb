(** checker/rules/bitvectors.rs: the bit-blasting rules.

    A bit-blasted term is [(bbterm b_0 ... b_(n-1))], least significant bit first.  Vectors of terms are lists, [x\[i\]] is [nth i x]
    where the code has established that [i] is in range, and the test that makes an out-of-range index a panic is explicit. *)
From Coq Require Import List String ZArith Bool Arith Lia.
From Verif Require Import Base Term Sem Rules.
Import ListNotations.
Local Open Scope nat_scope.

(** the terms built with build_term! *)
Definition tAnd2 (a b : term) : term := TOp OAnd [a; b].
Definition tOr2 (a b : term) : term := TOp OOr [a; b].
Definition tXor2 (a b : term) : term := TOp OXor [a; b].
Definition tEq2 (a b : term) : term := TOp OEquals [a; b].
Definition tBb (l : list term) : term := TOp OBvBbTerm l.
(** [((_ @bit_of i) t)] *)
Definition bit_of (i : nat) (t : term) : term := TPOp PBvBitOf [TConst (CInt (Z.of_nat i))] [t].
Definition get (l : list term) (i : nat) : term := nth i l tFalse.
(** build_term_vec, 8-24 *)
Definition build_term_vec (t : term) (size : nat) : list term :=
  match as_op OBvBbTerm t with
  | Some args => args
  | None => map (fun i => bit_of i t) (seq 0 size)
  end.
(** the vector of a term whose elements 0..size-1 are then all accessed by index: too short a vector panics *)
Definition bits_of (t : term) (size : nat) : outcome (list term) :=
  let v := build_term_vec t size in if Nat.leb size (List.length v) then ROk v else RPanic.
(** [let Sort::BitVec(size) = pool.sort(x).as_sort().cloned().unwrap() else { unreachable!() }] *)
Definition bv_size (t : term) : outcome nat := match sort_of t with SBV w => ROk w | _ => RPanic end.

(** ** Circuits *)
(** the carry and the sum of a full adder, as written in 38-48 and 56 *)
Definition t_carry (x y c : term) : term := tOr2 (tAnd2 x y) (tAnd2 (tXor2 x y) c).
Definition t_sum (x y c : term) : term := tXor2 (tXor2 x y) c.
(** the loop 37-50 over i = 1..size, pushing onto [carries] *)
Definition carries (x y : list term) (c0 : term) (size : nat) : list term :=
  fold_left (fun cs i => (cs ++ [t_carry (get x (i - 1)) (get y (i - 1)) (get cs (i - 1))])%list) (seq 1 (size - 1)) [c0].
(** the rows 52-60 *)
Definition sums (x y cs : list term) (size : nat) : list term :=
  map (fun i => t_sum (get x i) (get y i) (get cs i)) (seq 0 size).
(** ripple_carry_adder, 26-63 *)
Definition ripple_carry_adder (x y : term) (size : nat) : outcome term :=
  do x <- bits_of x size ; do y <- bits_of y size ;
  ROk (tBb (sums x y (carries x y tFalse size) size)).

(** row [j] of [shift], 75-88 *)
Definition mul_shift (x y : list term) (size j : nat) : list term :=
  map (fun i => if Nat.leb j i then tAnd2 (get y j) (get x (i - j)) else tFalse) (seq 0 size).
(** row [j] of [carry], 94-112; [prev] is row j-1 of [res] and [sh] is row j of [shift] *)
Definition mul_carry (prev sh : list term) (size j : nat) : list term :=
  fold_left (fun cs i =>
      let prev_carry := if Nat.ltb j i then get cs (i - 1) else tFalse in
      (cs ++ [if Nat.ltb j i then t_carry (get prev (i - 1)) (get sh (i - 1)) prev_carry else tFalse])%list)
    (seq 1 (size - 1)) [tFalse].
(** row [j] of [res], 115-125; [rows] are the rows before it *)
Definition mul_res (sh00 : term) (rows : list (list term)) (prev sh cs : list term) (size j : nat) : list term :=
  map (fun i => if Nat.eqb i 0 then sh00
                else if Nat.ltb i j then get (nth i rows []) i
                else t_sum (get prev i) (get sh i) (get cs i)) (seq 0 size).
(** the rows of [res], 91 and 93-126 *)
Definition mul_rows (x y : list term) (size : nat) : list (list term) :=
  let sh0 := mul_shift x y size 0 in
  fold_left (fun rows j =>
      let prev := nth (j - 1) rows [] in let sh := mul_shift x y size j in
      (rows ++ [mul_res (get sh0 0) rows prev sh (mul_carry prev sh size j) size j])%list)
    (seq 1 (size - 1)) [map (get sh0) (seq 0 size)].
(** shift_add_multiplier, 65-128; for size 0 the code evaluates [res\[size - 1\]] *)
Definition shift_add_multiplier (x y : term) (size : nat) : outcome term :=
  do x <- bits_of x size ; do y <- bits_of y size ;
  if Nat.eqb size 0 then RPanic else ROk (tBb (nth (size - 1) (mul_rows x y size) [])).

(** ** Rules *)
(** value, 130-164.  The literal is compared with the computed value without reducing it modulo 2^size. *)
Fixpoint const_bits (l : list term) : outcome (list bool) :=
  match l with
  | [] => ROk []
  | a :: r => do b <- (if term_eqb a tTrue then ROk true else if term_eqb a tFalse then ROk false else RErr) ;
              do bs <- const_bits r ; ROk (b :: bs)
  end.
Definition r_bb_const : rule := fun c _ _ =>
  len_is c 1 ;;
  do t <- idx c 0 ; do vr <- m_op2 OEquals t ; do args <- m_ops OBvBbTerm (snd vr) ;
  match fst vr with
  | TConst (CBV m size) =>
      rassert (Nat.eqb size (List.length args)) ;;
      do bs <- const_bits args ; rassert (Z.eqb m (bits_val bs))
  | _ => RErr
  end.
(** var, 166-179 *)
Definition r_bb_var : rule := fun c _ _ =>
  len_is c 1 ;;
  do t <- idx c 0 ; do xr <- m_op2 OEquals t ;
  match sort_of (fst xr) with
  | SBV size => teq (tBb (build_term_vec (fst xr) size)) (snd xr)
  | _ => RErr
  end.
(** the loop "for arg in args { .. size1 != size .. }" *)
Definition same_size (size : nat) (args : list term) : outcome unit :=
  ofor (fun a => do w <- bv_size a ; rassert (Nat.eqb w size)) args.
(** "let mut expected_res = args[0]; while i < args.len() { expected_res = f expected_res args[i] }" *)
Fixpoint ofold (f : term -> term -> outcome term) (acc : term) (l : list term) : outcome term :=
  match l with [] => ROk acc | a :: r => do acc' <- f acc a ; ofold f acc' r end.
(** [(= (o ...) res)] for an n-ary [o] *)
Definition r_bb_nary (o : op) (f : nat -> term -> term -> outcome term) : rule := fun c _ _ =>
  len_is c 1 ;;
  do t <- idx c 0 ; do lr <- m_op2 OEquals t ; do args <- m_ops o (fst lr) ;
  do a0 <- idx args 0 ; do size <- bv_size a0 ;
  same_size size args ;;
  do res <- ofold (f size) a0 (tl args) ;
  teq res (snd lr).
(** the body of the loops of and (181-222), or (224-266) and xor (268-310) *)
Definition bb_bitwise (g : term -> term -> term) (size : nat) (x y : term) : outcome term :=
  do x <- bits_of x size ; do y <- bits_of y size ;
  ROk (tBb (map (fun i => g (get x i) (get y i)) (seq 0 size))).
Definition r_bb_and : rule := r_bb_nary OBvAnd (bb_bitwise tAnd2).
Definition r_bb_or : rule := r_bb_nary OBvOr (bb_bitwise tOr2).
Definition r_bb_xor : rule := r_bb_nary OBvXor (bb_bitwise tXor2).
(** add, 430-458, and mult, 460-488 *)
Definition r_bb_add : rule := r_bb_nary OBvAdd (fun size x y => ripple_carry_adder x y size).
Definition r_bb_mult : rule := r_bb_nary OBvMul (fun size x y => shift_add_multiplier x y size).
(** [(= (o x y) res)] where the expected term is built from the vectors of [x] and [y] *)
Definition r_bb_bin (o : op) (f : nat -> list term -> list term -> outcome term) : rule := fun c _ _ =>
  len_is c 1 ;;
  do t <- idx c 0 ; do lr <- m_op2 OEquals t ; do xy <- m_op2 o (fst lr) ;
  do size <- bv_size (fst xy) ;
  do x <- bits_of (fst xy) size ; do y <- bits_of (snd xy) size ;
  do res <- f size x y ;
  teq res (snd lr).
(** [(= (o x) res)] *)
Definition r_bb_un (o : op) (f : nat -> list term -> term) : rule := fun c _ _ =>
  len_is c 1 ;;
  do t <- idx c 0 ; do lr <- m_op2 OEquals t ; do x <- m_op1 o (fst lr) ;
  do size <- bv_size x ; do xs <- bits_of x size ;
  teq (f size xs) (snd lr).
(** the bitwise equalities of xnor (322-331), equality (533-540) and comp (559-566) *)
Definition bit_eqs (size : nat) (x y : list term) : list term := map (fun i => tEq2 (get x i) (get y i)) (seq 0 size).
(** xnor, 312-335 *)
Definition r_bb_xnor : rule := r_bb_bin OBvXNor (fun size x y => ROk (tBb (bit_eqs size x y))).
(** not, 337-359 *)
Definition r_bb_not : rule := r_bb_un OBvNot (fun size x => tBb (map (fun i => tNot (get x i)) (seq 0 size))).
(** the comparison loop of ult (371-381) and slt (408-417) *)
Definition lt_loop (x y : list term) (is : list nat) : term :=
  fold_left (fun r i => tOr2 (tAnd2 (tEq2 (get x i) (get y i)) r) (tAnd2 (tNot (get x i)) (get y i)))
    is (tAnd2 (tNot (get x 0)) (get y 0)).
(** ult, 361-384; [x\[0\]] panics for size 0 *)
Definition r_bb_ult : rule := r_bb_bin OBvULt (fun size x y => if Nat.eqb size 0 then RPanic else ROk (lt_loop x y (seq 1 (size - 1)))).
(** slt, 386-428 *)
Definition r_bb_slt : rule := r_bb_bin OBvSLt (fun size x y =>
  if Nat.eqb size 0 then RPanic else
  if Nat.eqb size 1 then ROk (tAnd2 (get x 0) (tNot (get y 0))) else
  let m := size - 1 in
  ROk (tOr2 (tAnd2 (tEq2 (get x m) (get y m)) (lt_loop x y (seq 1 (size - 2)))) (tAnd2 (get x m) (tNot (get y m))))).
(** neg, 490-522: an adder of the negated bits and [false] with carry [true] *)
Definition r_bb_neg : rule := r_bb_un OBvNeg (fun size x =>
  let nx := map tNot x in let zs := map (fun _ => tFalse) x in
  tBb (sums nx zs (carries nx zs tTrue size) size)).
(** 541-546 and 567-572; [expected_res_args\[0\]] panics when there is none *)
Definition conj_eqs (size : nat) (x y : list term) : outcome term :=
  match bit_eqs size x y with [] => RPanic | [e] => ROk e | es => ROk (TOp OAnd es) end.
(** equality, 524-549 *)
Definition r_bb_equal : rule := r_bb_bin OEquals conj_eqs.
(** comp, 551-577 *)
Definition r_bb_comp : rule := r_bb_bin OBvComp (fun size x y => do e <- conj_eqs size x y ; ROk (tBb [e])).
(** the loops 590-594 and 598-607: [e] gives the expected bit at an index *)
Fixpoint extract_loop (e : nat -> outcome term) (i : nat) (l : list term) : outcome unit :=
  match l with
  | [] => ROk tt
  | a :: r => do x <- e i ; teq x a ;; extract_loop e (S i) r
  end.
(** extract, 580-608.  The upper index is not looked at.  Negative indices are excluded by the parser ([as_const_nat]: panic here). *)
Definition r_bb_extract : rule := fun c _ _ =>
  len_is c 1 ;;
  do t <- idx c 0 ; do lr <- m_op2 OEquals t ; do bits <- m_ops OBvBbTerm (snd lr) ;
  match fst lr with
  | TPOp PBvExtract [_; tj] [x] =>
      do j <- unwrap (as_const_nat tj) ;
      match as_op OBvBbTerm x with
      | Some args => extract_loop (idx args) j bits
      | None => extract_loop (fun i => ROk (bit_of i x)) j bits
      end
  | _ => RErr
  end.
(** concat, 610-655: from the last argument to the first *)
Fixpoint concat_bits (l : list term) : outcome (list term * nat) :=
  match l with
  | [] => ROk ([], 0)
  | a :: r => do w <- bv_size a ; do p <- concat_bits r ; ROk ((build_term_vec a w ++ fst p)%list, w + snd p)
  end.
Definition r_bb_concat : rule := fun c _ _ =>
  len_is c 1 ;;
  do t <- idx c 0 ; do lr <- m_op2 OEquals t ; do args <- m_ops OBvConcat (fst lr) ; do res <- m_ops OBvBbTerm (snd lr) ;
  rassert (negb (Nat.eqb (List.length args) 0)) ;;    (* concat_args.len() - 1; the parser requires two arguments *)
  do p <- concat_bits (rev args) ;
  rassert (Nat.eqb (List.length res) (snd p)) ;;
  teq (tBb (fst p)) (tBb res).
(** sign_extend, 657-677; [x\[size - 1\]] panics for size 0 *)
Definition r_bb_sign_extend : rule := fun c _ _ =>
  len_is c 1 ;;
  do t <- idx c 0 ; do lr <- m_op2 OEquals t ;
  match fst lr with
  | TPOp PSignExtend [ti] [x] =>
      do i <- unwrap (as_const_nat ti) ;
      if Nat.eqb i 0 then teq x (snd lr) else
      do size <- bv_size x ;
      do xs <- bits_of x size ;
      if Nat.eqb size 0 then RPanic else
      teq (tBb (xs ++ repeat (get xs (size - 1)) i)%list) (snd lr)
  | _ => RErr
  end.

Definition bv_rules : list (string * rule) :=
  [("bitblast_const", r_bb_const); ("bitblast_var", r_bb_var); ("bitblast_and", r_bb_and); ("bitblast_or", r_bb_or);
   ("bitblast_xor", r_bb_xor); ("bitblast_xnor", r_bb_xnor); ("bitblast_not", r_bb_not); ("bitblast_comp", r_bb_comp);
   ("bitblast_ult", r_bb_ult); ("bitblast_slt", r_bb_slt); ("bitblast_add", r_bb_add); ("bitblast_mult", r_bb_mult);
   ("bitblast_neg", r_bb_neg); ("bitblast_equal", r_bb_equal); ("bitblast_extract", r_bb_extract);
   ("bitblast_concat", r_bb_concat); ("bitblast_sign_extend", r_bb_sign_extend)]%string.

(** ** Examples: the rules accept the bit-blasting of their operators and nothing else *)
Definition bvx2 : term := TVar "x" (SBV 2).
Definition bvy2 : term := TVar "y" (SBV 2).
Definition xb (i : nat) : term := bit_of i bvx2.
Definition yb (i : nat) : term := bit_of i bvy2.
Example bb_var_ok : r_bb_var [tEq bvx2 (tBb [xb 0; xb 1])] [] [] = ROk tt. Proof. vm_compute. reflexivity. Qed.
Example bb_const_ok : r_bb_const [tEq (TConst (CBV 2 2)) (tBb [tFalse; tTrue])] [] [] = ROk tt. Proof. vm_compute. reflexivity. Qed.
Example bb_const_range : r_bb_const [tEq (TConst (CBV 6 2)) (tBb [tFalse; tTrue])] [] [] = RErr. Proof. vm_compute. reflexivity. Qed.
Example bb_and_ok : r_bb_and [tEq (TOp OBvAnd [bvx2; bvy2]) (tBb [tAnd2 (xb 0) (yb 0); tAnd2 (xb 1) (yb 1)])] [] [] = ROk tt.
Proof. vm_compute. reflexivity. Qed.
Example bb_add_ok : r_bb_add [tEq (TOp OBvAdd [bvx2; bvy2])
  (tBb [t_sum (xb 0) (yb 0) tFalse; t_sum (xb 1) (yb 1) (t_carry (xb 0) (yb 0) tFalse)])] [] [] = ROk tt.
Proof. vm_compute. reflexivity. Qed.
Example bb_mult_ok : r_bb_mult [tEq (TOp OBvMul [bvx2; bvy2])
  (tBb [tAnd2 (yb 0) (xb 0); t_sum (tAnd2 (yb 0) (xb 1)) (tAnd2 (yb 1) (xb 0)) tFalse])] [] [] = ROk tt.
Proof. vm_compute. reflexivity. Qed.
Example bb_slt_ok : r_bb_slt [tEq (TOp OBvSLt [bvx2; bvy2])
  (tOr2 (tAnd2 (tEq2 (xb 1) (yb 1)) (tAnd2 (tNot (xb 0)) (yb 0))) (tAnd2 (xb 1) (tNot (yb 1))))] [] [] = ROk tt.
Proof. vm_compute. reflexivity. Qed.
Example bb_neg_ok : r_bb_neg [tEq (TOp OBvNeg [bvx2])
  (tBb [t_sum (tNot (xb 0)) tFalse tTrue; t_sum (tNot (xb 1)) tFalse (t_carry (tNot (xb 0)) tFalse tTrue)])] [] [] = ROk tt.
Proof. vm_compute. reflexivity. Qed.
Example bb_concat_ok : r_bb_concat [tEq (TOp OBvConcat [bvx2; bvy2]) (tBb [yb 0; yb 1; xb 0; xb 1])] [] [] = ROk tt.
Proof. vm_compute. reflexivity. Qed.
Example bb_extract_ok : r_bb_extract [tEq (TPOp PBvExtract [TConst (CInt 1); TConst (CInt 1)] [bvx2]) (tBb [xb 1])] [] [] = ROk tt.
Proof. vm_compute. reflexivity. Qed.
Example bb_sign_extend_ok : r_bb_sign_extend [tEq (TPOp PSignExtend [TConst (CInt 1)] [bvx2]) (tBb [xb 0; xb 1; xb 1])] [] [] = ROk tt.
Proof. vm_compute. reflexivity. Qed.
Example bb_comp_ok : r_bb_comp [tEq (TOp OBvComp [bvx2; bvy2]) (tBb [TOp OAnd [tEq2 (xb 0) (yb 0); tEq2 (xb 1) (yb 1)]])] [] [] = ROk tt.
Proof. vm_compute. reflexivity. Qed.
(** [unreachable!()] of bitblast_equal on an equality of Booleans *)
Example bb_equal_panics : r_bb_equal [tEq (tEq tTrue tTrue) tTrue] [] [] = RPanic. Proof. vm_compute. reflexivity. Qed.
