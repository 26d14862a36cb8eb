(** checker/rules/pb_blasting.rs: the pseudo-Boolean bit-blasting rules. *)
From Coq Require Import List String ZArith QArith Bool Arith Lia.
From Verif Require Import Base Term Sem Sorting Rules Num R_CP.
Import ListNotations.
Local Open Scope nat_scope.

(** the pattern [((_ int_of idx) bv)] *)
Definition as_intof (t : term) : option (term * term) :=
  match t with TPOp PBvIntOf [i] [x] => Some (i, x) | _ => None end.
(** [((_ int_of i) t)] *)
Definition int_of (i : nat) (t : term) : term := TPOp PBvIntOf [TConst (CInt (Z.of_nat i))] [t].
(** get_bit_width, 9-17 *)
Definition get_bit_width (x : term) : outcome nat := match sort_of x with SBV n => ROk n | _ => RErr end.
(** 2^i, as [Integer::from(1) << i] *)
Definition shl1 (i : nat) : Z := (2 ^ Z.of_nat i)%Z.

(** the body of the loop of check_pbblast_sum, 39-77, for the summand number [i] *)
Definition pb_summand (bv : term) (i : nat) (e : term) : outcome unit :=
  let plain := if Nat.eqb i 0 then do p <- ok_or (as_intof e) ; ROk (1%Z, p) else RErr in
  do r <- match op2 OMult e with
          | Some (c, y) => match as_intof y with
                           | Some p => do z <- as_integer_err c ; ROk (z, p)
                           | None => plain end
          | None => plain
          end ;
  let '(c, (ix, b)) := r in
  do k <- as_integer_err ix ;
  rassert (Z.eqb c (shl1 i)) ;; rassert (Z.eqb k (Z.of_nat i)) ;; teq b bv.
Fixpoint for_i {A} (f : nat -> A -> outcome unit) (i : nat) (l : list A) : outcome unit :=
  match l with [] => ROk tt | a :: r => f i a ;; for_i f (S i) r end.
(** check_pbblast_sum, 20-79 *)
Definition pb_sum (bv : term) (sum : list term) : outcome unit :=
  do w <- get_bit_width bv ; rassert (Nat.leb (List.length sum) w) ;; for_i (pb_summand bv) 0 sum.
(** check_pbblast_sum_short_circuit, 84-119; [pbbterm\[i\]] is in range *)
Definition pb_short_summand (pbb : list term) (i : nat) (e : term) : outcome unit :=
  do r <- match op2 OMult e with
          | Some (c, b) => do z <- as_integer_err c ; ROk (z, b)
          | None => if Nat.eqb i 0 then ROk (1%Z, e) else RErr
          end ;
  rassert (Z.eqb (fst r) (shl1 i)) ;; do p <- idx pbb i ; teq (snd r) p.
Definition pb_short_sum (pbb sum : list term) : outcome unit :=
  rassert (Nat.leb (List.length sum) (List.length pbb)) ;; for_i (pb_short_summand pbb) 0 sum.
(** check_pbblast_constraint, 124-140 *)
Definition pb_constraint (l r : term) (ls rs : list term) : outcome unit :=
  match as_op OBvPBbTerm l with
  | Some pl => do pr <- m_ops OBvPBbTerm r ; pb_short_sum pl ls ;; pb_short_sum pr rs
  | None => pb_sum l ls ;; pb_sum r rs
  end.

(** the pattern [(= (o x y) (rel (- s1 s2) k))] applied to [conclusion\[0\]]: x, y, s1, s2 *)
Definition pb_pattern (o rel : op) (k : Z) (c : clause) : outcome ((term * term) * (term * term)) :=
  do t <- idx c 0 ; do lr <- m_op2 OEquals t ; do xy <- m_op2 o (fst lr) ;
  do dk <- m_op2 rel (snd lr) ; do s <- m_op2 OSub (fst dk) ; rassert (is_numb k (snd dk)) ;; ROk (xy, s).
(** pbblast_bveq, 145-156 *)
Definition r_pb_eq : rule := fun c _ _ =>
  do p <- pb_pattern OEquals OEquals 0 c ; let '((x, y), (sx, sy)) := p in
  pb_constraint x y (split_summation sx) (split_summation sy).
(** pbblast_bvult, 161-171 *)
Definition r_pb_ult : rule := fun c _ _ =>
  do p <- pb_pattern OBvULt OGe 1 c ; let '((x, y), (sy, sx)) := p in
  pb_constraint y x (split_summation sy) (split_summation sx).
(** pbblast_bvugt, 177-187 *)
Definition r_pb_ugt : rule := fun c _ _ =>
  do p <- pb_pattern OBvUGt OGe 1 c ; let '((x, y), (sx, sy)) := p in
  pb_constraint x y (split_summation sx) (split_summation sy).
(** pbblast_bvuge, 193-202 *)
Definition r_pb_uge : rule := fun c _ _ =>
  do p <- pb_pattern OBvUGe OGe 0 c ; let '((x, y), (sx, sy)) := p in
  pb_constraint x y (split_summation sx) (split_summation sy).
(** pbblast_bvule, 208-217 *)
Definition r_pb_ule : rule := fun c _ _ =>
  do p <- pb_pattern OBvULe OGe 0 c ; let '((x, y), (sy, sx)) := p in
  pb_constraint x y (split_summation sx) (split_summation sy).
(** check_pbblast_signed_relation, 220-262; [n - 1] panics for n = 0 *)
Definition pb_sign (n : nat) (sign bv : term) : outcome unit :=
  match as_op OBvPBbTerm bv with
  | Some pbb =>
      do b <- ok_or (nth_error pbb (List.length pbb - 1)) ;
      do cb <- m_op2 OMult sign ; do k <- as_integer_err (fst cb) ;
      (if Nat.eqb n 0 then RPanic else ROk tt) ;;
      rassert (Z.eqb k (shl1 (n - 1))) ;; teq (snd cb) b
  | None =>
      do cb <- m_op2 OMult sign ; do ib <- ok_or (as_intof (snd cb)) ;
      do k <- as_integer_err (fst cb) ; do i <- as_integer_err (fst ib) ;
      (if Nat.eqb n 0 then RPanic else ROk tt) ;;
      rassert (Z.eqb k (shl1 (n - 1))) ;; rassert (Z.eqb i (Z.of_nat (n - 1))) ;; teq (snd ib) bv
  end.
(** the pattern [(= (o x y) (>= (+ (- s1 g1) (- g2 s2)) k))] *)
Definition pb_signed_pattern (o : op) (k : Z) (c : clause) : outcome ((term * term) * ((term * term) * (term * term))) :=
  do t <- idx c 0 ; do lr <- m_op2 OEquals t ; do xy <- m_op2 o (fst lr) ;
  do dk <- m_op2 OGe (snd lr) ; do ab <- m_op2 OAdd (fst dk) ; do a <- m_op2 OSub (fst ab) ; do b <- m_op2 OSub (snd ab) ;
  rassert (is_numb k (snd dk)) ;; ROk (xy, (a, b)).
(** pbblast_bvslt, 267-282, and pbblast_bvsle, 330-346 *)
Definition r_pb_signed_lt (o : op) (k : Z) : rule := fun c _ _ =>
  do p <- pb_signed_pattern o k c ; let '((x, y), ((sy, gy), (gx, sx))) := p in
  do n <- get_bit_width x ;
  pb_sign n gy y ;; pb_sign n gx x ;;
  pb_constraint y x (split_summation sy) (split_summation sx).
Definition r_pb_slt : rule := r_pb_signed_lt OBvSLt 1.
Definition r_pb_sle : rule := r_pb_signed_lt OBvSLe 0.
(** pbblast_bvsgt, 288-304, and pbblast_bvsge, 309-325 *)
Definition r_pb_signed_gt (o : op) (k : Z) : rule := fun c _ _ =>
  do p <- pb_signed_pattern o k c ; let '((x, y), ((sx, gx), (gy, sy))) := p in
  do n <- get_bit_width x ;
  pb_sign n gx x ;; pb_sign n gy y ;;
  pb_constraint x y (split_summation sx) (split_summation sy).
Definition r_pb_sgt : rule := r_pb_signed_gt OBvSGt 1.
Definition r_pb_sge : rule := r_pb_signed_gt OBvSGe 0.
(** pbblast_pbbvar, 349-370 *)
Definition r_pb_var : rule := fun c _ _ =>
  do t <- idx c 0 ; do lr <- m_op2 OEquals t ; do pbs <- m_ops OBvPBbTerm (snd lr) ;
  for_i (fun i pb => do ib <- ok_or (as_intof pb) ; do k <- as_integer_err (fst ib) ;
                     rassert (Z.eqb k (Z.of_nat i)) ;; teq (snd ib) (fst lr)) 0 pbs.
(** [Integer::to_i32_wrapping] *)
Definition i32_wrap (z : Z) : Z := let m := Z.modulo z (2 ^ 32) in if Z.ltb m (2 ^ 31) then m else (m - 2 ^ 32)%Z.
(** pbblast_pbbconst, 373-423 *)
Fixpoint pb_const_bits (l : list term) : outcome (list bool) :=
  match l with
  | [] => ROk []
  | a :: r => do z <- as_integer_err a ;
              do b <- (if Z.eqb (i32_wrap z) 0 then ROk false else if Z.eqb (i32_wrap z) 1 then ROk true else RErr) ;
              do bs <- pb_const_bits r ; ROk (b :: bs)
  end.
Definition r_pb_const : rule := fun c _ _ =>
  do t <- idx c 0 ; do lr <- m_op2 OEquals t ; do pbs <- m_ops OBvPBbTerm (snd lr) ;
  match fst lr with
  | TConst (CBV m w) =>
      rassert (Nat.eqb (List.length pbs) w) ;; do bs <- pb_const_bits pbs ; rassert (Z.eqb (bits_val bs) m)
  | _ => RErr
  end.
(** get_bitvector_terms, 431-446; [get_bit_width(..).unwrap()] panics *)
Definition pb_bits (bv : term) : outcome (list term) :=
  match as_op OBvPBbTerm bv with
  | Some xs => ROk xs
  | None => match sort_of bv with SBV n => ROk (map (fun i => int_of i bv) (seq 0 n)) | _ => RPanic end
  end.
(** [for ((bc, xi), yi) in bcs.zip(xs).zip(ys)] *)
Fixpoint for3 (f : term -> term -> term -> outcome unit) (bcs xs ys : list term) : outcome unit :=
  match bcs, xs, ys with
  | b :: bcs', x :: xs', y :: ys' => f b x y ;; for3 f bcs' xs' ys'
  | _, _, _ => ROk tt
  end.
Definition tZ : term := TVar "z" SInt.
Definition isZ (t : term) : outcome unit := rassert (term_eqb t tZ).
(** the pattern [(choice ... (and ...))] and the checks on bindings\[0\], 458-469 *)
Definition pb_choice (bc : term) : outcome (list term) :=
  do vb <- m_bind BChoice bc ; do cs <- m_ops OAnd (snd vb) ;
  do b0 <- idx (fst vb) 0 ; rassert (svar_eqb b0 ("z"%string, SInt)) ;; ROk cs.
Definition m_len (cs : list term) (n : nat) : outcome unit := rassert (Nat.eqb (List.length cs) n).
(** the loop body of pbblast_bvxor, 457-506 *)
Definition pb_xor_bit (bc xi yi : term) : outcome unit :=
  do cs <- pb_choice bc ; m_len cs 4 ;;
  do c1 <- idx cs 0 ; do c2 <- idx cs 1 ; do c3 <- idx cs 2 ; do c4 <- idx cs 3 ;
  (do g <- m_op2 OGe c1 ; do s <- m_op2 OAdd (fst g) ; teq (fst s) xi ;; teq (snd s) yi ;; isZ (snd g)) ;;
  (do g <- m_op2 OGe c2 ; do s <- m_op2 OAdd (fst g) ; teq (snd s) xi ;; teq (snd g) yi ;; isZ (fst s)) ;;
  (do g <- m_op2 OGe c3 ; do s <- m_op2 OAdd (fst g) ; teq (snd g) xi ;; teq (snd s) yi ;; isZ (fst s)) ;;
  (do g <- m_op2 OGe c4 ; rassert (is_numb 2 (fst g)) ;; do s <- m_op3 OAdd (snd g) ;
   teq (snd (fst s)) xi ;; teq (snd s) yi ;; isZ (fst (fst s))).
(** the loop body of pbblast_bvand, 520-558 *)
Definition pb_and_bit (bc xi yi : term) : outcome unit :=
  do cs <- pb_choice bc ; m_len cs 3 ;;
  do c1 <- idx cs 0 ; do c2 <- idx cs 1 ; do c3 <- idx cs 2 ;
  (do g <- m_op2 OGe c1 ; teq (fst g) xi ;; isZ (snd g)) ;;
  (do g <- m_op2 OGe c2 ; teq (fst g) yi ;; isZ (snd g)) ;;
  (do g <- m_op2 OGe c3 ; do s <- m_op2 OAdd (fst g) ; rassert (is_numb 1 (snd s)) ;; do r <- m_op2 OAdd (snd g) ;
   isZ (fst s) ;; teq (fst r) xi ;; teq (snd r) yi).
Definition r_pb_bitwise (o : op) (f : term -> term -> term -> outcome unit) : rule := fun c _ _ =>
  do t <- idx c 0 ; do lr <- m_op2 OEquals t ; do xy <- m_op2 o (fst lr) ; do bcs <- m_ops OBvPBbTerm (snd lr) ;
  do xs <- pb_bits (fst xy) ; do ys <- pb_bits (snd xy) ;
  for3 f bcs xs ys.
Definition r_pb_xor : rule := r_pb_bitwise OBvXor pb_xor_bit.
Definition r_pb_and : rule := r_pb_bitwise OBvAnd pb_and_bit.
(** the_r of pbblast_bvxor_ith_bit, 575-580, and of pbblast_bvand_ith_bit, 621-625 *)
Definition tGe (a b : term) : term := TOp OGe [a; b].
Definition tInt (z : Z) : term := TConst (CInt z).
Definition xor_body (x y z : term) : list term :=
  [tGe (TOp OAdd [x; y]) z; tGe (TOp OAdd [z; x]) y; tGe (TOp OAdd [z; y]) x; tGe (tInt 2) (TOp OAdd [z; x; y])].
Definition and_body (x y z : term) : list term :=
  [tGe x z; tGe y z; tGe (TOp OAdd [z; tInt 1]) (TOp OAdd [x; y])].
Definition choice_of (body : list term) : term := TBind BChoice [("z"%string, SInt)] (TOp OAnd body).
(** pbblast_bvxor_ith_bit, 568-607.  The [2] of the conclusion may be any numeral equal to two. *)
Definition r_pb_xor_ith : rule := fun c _ args =>
  len_is args 2 ;;
  do x <- idx args 0 ; do y <- idx args 1 ;
  do t <- idx c 0 ; do cs <- m_ops OAnd t ; m_len cs 4 ;;
  let r := choice_of (xor_body x y tZ) in
  do c1 <- idx cs 0 ; do c2 <- idx cs 1 ; do c3 <- idx cs 2 ; do c4 <- idx cs 3 ;
  (do g <- m_op2 OGe c1 ; do s <- m_op2 OAdd (fst g) ; teq (fst s) x ;; teq (snd s) y ;; teq (snd g) r) ;;
  (do g <- m_op2 OGe c2 ; do s <- m_op2 OAdd (fst g) ; teq (snd s) x ;; teq (snd g) y ;; teq (fst s) r) ;;
  (do g <- m_op2 OGe c3 ; do s <- m_op2 OAdd (fst g) ; teq (snd g) x ;; teq (snd s) y ;; teq (fst s) r) ;;
  (do g <- m_op2 OGe c4 ; rassert (is_numb 2 (fst g)) ;; do s <- m_op3 OAdd (snd g) ;
   teq (snd (fst s)) x ;; teq (snd s) y ;; teq (fst (fst s)) r).
(** pbblast_bvand_ith_bit, 614-644 *)
Definition r_pb_and_ith : rule := fun c _ args =>
  len_is args 2 ;;
  do x <- idx args 0 ; do y <- idx args 1 ;
  do t <- idx c 0 ; do cs <- m_ops OAnd t ; m_len cs 3 ;;
  let r := choice_of (and_body x y tZ) in
  do c1 <- idx cs 0 ; do c2 <- idx cs 1 ; do c3 <- idx cs 2 ;
  (do g <- m_op2 OGe c1 ; teq (fst g) x ;; teq (snd g) r) ;;
  (do g <- m_op2 OGe c2 ; teq (fst g) y ;; teq (snd g) r) ;;
  (do g <- m_op2 OGe c3 ; do s <- m_op2 OAdd (fst g) ; rassert (is_numb 1 (snd s)) ;; do xy <- m_op2 OAdd (snd g) ;
   teq (fst xy) x ;; teq (snd xy) y ;; teq (fst s) r).

(** ** Specification: where the rules are right *)
(** Terms whose value is 0 or 1: bits of a bit-vector, the numerals 0 and 1, and the choice terms of pbblast_bvxor on such terms.
    The choice terms of pbblast_bvand are not among them: their constraints allow -1 when both bits are 0. *)
Definition no_z (t : term) : bool := negb (free_in "z" SInt t).
Fixpoint bit_term (t : term) : bool :=
  match t with
  | TConst (CInt z) => Z.eqb z 0 || Z.eqb z 1
  | TPOp PBvIntOf [_] [_] => true
  | TBind BChoice _ (TOp OAnd (TOp OGe [TOp OAdd [x; y]; _] :: _)) =>
      term_eqb t (choice_of (xor_body x y tZ)) && (bit_term x && bit_term y) && (no_z x && no_z y)
  | _ => false
  end.
(** integer terms whose value is at most 1 *)
Fixpoint low_term (t : term) : bool :=
  bit_term t ||
  match t with
  | TBind BChoice _ (TOp OAnd (TOp OGe [x; _] :: TOp OGe [y; _] :: _)) =>
      term_eqb t (choice_of (and_body x y tZ)) && (low_term x && low_term y) && (no_z x && no_z y)
  | _ => false
  end.
(** the sums have one summand for each of the first [n] bits, and the elements of a pbbterm are bits *)
Definition bits_given (t : term) : bool := match as_op OBvPBbTerm t with Some l => forallb bit_term l | None => true end.
Definition width (t : term) : nat := match sort_of t with SBV n => n | _ => 0 end.
Definition full_sum (n : nat) (s : term) : bool := Nat.eqb (List.length (split_summation s)) n.
(** bveq, bvult, bvugt, bvuge, bvule: all bits occur *)
Definition pb_unsigned_ok (c : clause) : bool :=
  match c with
  | TOp OEquals [TOp _ [x; y]; TOp _ [TOp OSub [s1; s2]; _]] :: _ =>
      full_sum (width x) s1 && full_sum (width x) s2 && bits_given x && bits_given y
  | _ => false
  end.
(** bvslt, bvsle, bvsgt, bvsge: all bits but the sign occur in the sums *)
Definition pb_signed_ok (c : clause) : bool :=
  match c with
  | TOp OEquals [TOp _ [x; y]; TOp _ [TOp OAdd [TOp OSub [s1; _]; TOp OSub [_; s2]]; _]] :: _ =>
      full_sum (width x - 1) s1 && full_sum (width x - 1) s2 && bits_given x && bits_given y
  | _ => false
  end.
(** bvxor, bvand: the bound variable is not captured *)
Definition low_given (t : term) : bool := match as_op OBvPBbTerm t with Some l => forallb low_term l | None => true end.
Definition pb_bitwise_ok (given : term -> bool) (c : clause) : bool :=
  match c with
  | TOp OEquals [TOp _ [x; y]; _] :: _ => given x && given y && (no_z x && no_z y)
  | _ => false
  end.
Definition pb_xor_ok := pb_bitwise_ok bits_given.
Definition pb_and_ok := pb_bitwise_ok low_given.
Definition pb_const_ok (c : clause) : bool :=
  match c with TOp OEquals [_; TOp OBvPBbTerm l] :: _ => forallb bit_term l | _ => false end.
Definition pb_ith_ok (p : term -> bool) (args : list term) : bool :=
  match args with
  | [x; y] => p x && p y && (no_z x && no_z y)
  | _ => false
  end.

Definition pb_rules : list (string * rule) :=
  [("pbblast_bveq", r_pb_eq); ("pbblast_bvult", r_pb_ult); ("pbblast_bvugt", r_pb_ugt); ("pbblast_bvuge", r_pb_uge); ("pbblast_bvule", r_pb_ule);
   ("pbblast_bvslt", r_pb_slt); ("pbblast_bvsgt", r_pb_sgt); ("pbblast_bvsge", r_pb_sge); ("pbblast_bvsle", r_pb_sle);
   ("pbblast_pbbvar", r_pb_var); ("pbblast_pbbconst", r_pb_const); ("pbblast_bvxor", r_pb_xor); ("pbblast_bvand", r_pb_and);
   ("pbblast_bvxor_ith_bit", r_pb_xor_ith); ("pbblast_bvand_ith_bit", r_pb_and_ith)]%string.

(** ** Examples *)
Local Open Scope string_scope.
Definition pbx : term := TVar "x" (SBV 2).
Definition pby : term := TVar "y" (SBV 2).
Definition pbsum (t : term) : term := TOp OAdd [int_of 0 t; TOp OMult [tInt 2; int_of 1 t]].
Definition tSub (a b : term) : term := TOp OSub [a; b].
Definition ex_eq : term := tEq (tEq pbx pby) (tEq (tSub (pbsum pbx) (pbsum pby)) (tInt 0)).
Example pb_eq_ok : r_pb_eq [ex_eq] [] [] = ROk tt /\ pb_unsigned_ok [ex_eq] = true /\ bool_term ex_eq = true. Proof. vm_compute. auto. Qed.
Definition ex_slt : term := tEq (TOp OBvSLt [pbx; pby])
  (tGe (TOp OAdd [tSub (int_of 0 pby) (TOp OMult [tInt 2; int_of 1 pby]); tSub (TOp OMult [tInt 2; int_of 1 pbx]) (int_of 0 pbx)]) (tInt 1)).
Example pb_slt_ok : r_pb_slt [ex_slt] [] [] = ROk tt /\ pb_signed_ok [ex_slt] = true /\ bool_term ex_slt = true. Proof. vm_compute. auto. Qed.
Definition xor_bit (i : nat) : term := choice_of (xor_body (int_of i pbx) (int_of i pby) tZ).
Definition ex_xor : term := tEq (TOp OBvXor [pbx; pby]) (TOp OBvPBbTerm [xor_bit 0; xor_bit 1]).
Example pb_ex_xor : r_pb_xor [ex_xor] [] [] = ROk tt /\ pb_xor_ok [ex_xor] = true /\ bool_term ex_xor = true. Proof. vm_compute. auto. Qed.
Example xor_bit_term : bit_term (xor_bit 1) = true /\ low_term (choice_of (and_body (xor_bit 0) (xor_bit 1) tZ)) = true. Proof. vm_compute. auto. Qed.
Definition ex_and : term := tEq (TOp OBvAnd [TOp OBvPBbTerm [xor_bit 0]; TVar "u" (SBV 1)])
  (TOp OBvPBbTerm [choice_of (and_body (xor_bit 0) (int_of 0 (TVar "u" (SBV 1))) tZ)]).
Example pb_ex_and : r_pb_and [ex_and] [] [] = ROk tt /\ pb_and_ok [ex_and] = true /\ bool_term ex_and = true. Proof. vm_compute. auto. Qed.
Definition ex_ith : term := TOp OAnd (xor_body (int_of 0 pbx) (int_of 0 pby) (xor_bit 0)).
Example pb_ith_ok1 : r_pb_xor_ith [ex_ith] [] [int_of 0 pbx; int_of 0 pby] = ROk tt /\ pb_ith_ok bit_term [int_of 0 pbx; int_of 0 pby] = true /\ bool_term ex_ith = true.
Proof. vm_compute. auto. Qed.
Definition ex_ith2 : term := TOp OAnd (and_body (int_of 0 pbx) (tInt 1) (choice_of (and_body (int_of 0 pbx) (tInt 1) tZ))).
Example pb_ith_ok2 : r_pb_and_ith [ex_ith2] [] [int_of 0 pbx; tInt 1] = ROk tt /\ pb_ith_ok low_term [int_of 0 pbx; tInt 1] = true /\ bool_term ex_ith2 = true.
Proof. vm_compute. auto. Qed.
Definition ex_pbvar : term := tEq pbx (TOp OBvPBbTerm [int_of 0 pbx; int_of 1 pbx]).
Example pb_var_ok : r_pb_var [ex_pbvar] [] [] = ROk tt /\ bool_term ex_pbvar = true. Proof. vm_compute. auto. Qed.
Definition ex_pbconst : term := tEq (TConst (CBV 2 2)) (TOp OBvPBbTerm [tInt 0; tInt 1]).
Example pb_constok : r_pb_const [ex_pbconst] [] [] = ROk tt /\ pb_const_ok [ex_pbconst] = true /\ bool_term ex_pbconst = true. Proof. vm_compute. auto. Qed.
(** [conclusion\[0\]] panics on an empty clause *)
Example pb_empty_panics : r_pb_eq [] [] [] = RPanic. Proof. reflexivity. Qed.
