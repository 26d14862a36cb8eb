(** Model of the string rules, /repo/carcara/src/checker/rules/strings.rs.
    Terms are built by the same calls; the pool's hash-consing is structural equality (Pool.v).  The time spent in polyeq and the
    two [println!] lines of re_concat_unfold_pos (1326-1327) are dropped.  Lengths are unbounded (usize in the code). *)
From Coq Require Import List String ZArith NArith QArith Bool Arith Lia DecimalString.
From Verif Require Import Term Field Sem Sorting Base Rules Num Polyeq R_CP.
Import ListNotations.
Open Scope string_scope.
Local Open Scope nat_scope.

Definition tStr (s : list N) : term := TConst (CStr s).
Definition tEmpty : term := tStr [].
Definition tLen (t : term) : term := TOp OStrLen [t].
Definition tCat (a b : term) : term := TOp OStrConcat [a; b].
Definition tInRe (s r : term) : term := TOp OStrInRe [s; r].
Definition tMinus (a b : term) : term := TOp OSub [a; b].
(** Term::is_empty_string, ast/term.rs:810-815 *)
Definition is_empty_string (t : term) : bool := match t with TConst (CStr []) => true | _ => false end.
(** Term::as_bool, ast/term.rs:842-848 *)
Definition as_bool (t : term) : option bool :=
  match t with TOp o _ => if op_eqb o OTrue then Some true else if op_eqb o OFalse then Some false else None | _ => None end.

(** string_concat_flatten, strings.rs:24-39 *)
Fixpoint flat (t : term) : list term :=
  match t with
  | TConst (CStr s) => map (fun c => tStr [c]) s
  | TOp o args => if op_eqb o OStrConcat then flat_map flat args else [t]
  | _ => [t]
  end.
(** concat_extract, strings.rs:45-59 *)
Fixpoint extract (t : term) : list term :=
  match t with
  | TConst (CStr s) => match s with [] => [] | _ => [t] end
  | TOp o args => if op_eqb o OStrConcat then flat_map extract args else [t]
  | _ => [t]
  end.
(** is_compatible, strings.rs:61-73 *)
Fixpoint is_compatible (s t : list term) : bool :=
  match s, t with
  | _, [] => true
  | [], _ => true
  | a :: s', b :: t' => if term_eqb a b then is_compatible s' t' else false
  end.
(** overlap, strings.rs:75-86 *)
Fixpoint overlap (s t : list term) : nat :=
  match s with
  | [] => 0
  | _ :: s' => match s' with
               | [] => 0
               | _ => if is_compatible s t then 0 else 1 + overlap s' t
               end
  end.
(** concat, strings.rs:165-171 *)
Definition cat (l : list term) : term :=
  match l with [] => tEmpty | [a] => a | _ => TOp OStrConcat l end.
(** expand_string_constants, strings.rs:96-154 *)
Fixpoint expand (t : term) : term :=
  match t with
  | TConst (CStr s) => cat (map (fun c => tStr [c]) s)
  | TOp o args => if op_eqb o OStrConcat then TOp o (flat_map flat args) else TOp o (map expand args)
  | TApp f args => TApp f (map expand args)
  | TLet bs body => TLet bs (expand body)
  | TBind b vs body => TBind b vs (expand body)
  | TPOp o oargs args => TPOp o oargs (map expand args)
  | TVar _ _ | TConst _ | TSort _ => t
  end.

(** the loop of is_prefix_or_suffix, strings.rs:201-203, after the length check of 194-200 *)
Fixpoint prefix_loop (p t : list term) : outcome unit :=
  match p, t with
  | [], _ => ROk tt
  | a :: p', b :: t' => assert_polyeq a b ;; prefix_loop p' t'
  | _ :: _, [] => RPanic
  end.
Definition rev_if (rv : bool) (l : list term) : list term := if rv then rev l else l.
(** is_prefix_or_suffix, strings.rs:181-208 *)
Definition is_prefix_or_suffix (t p : term) (rv : bool) : outcome (list term) :=
  let tf := rev_if rv (flat t) in
  let pf := rev_if rv (flat p) in
  if Nat.ltb (List.length tf) (List.length pf) then RErr
  else prefix_loop pf tf ;; ROk (rev_if rv pf).
(** the loop of strip_prefix_or_suffix, strings.rs:266-271: drops the longest common prefix *)
Fixpoint strip_loop (s t : list term) : outcome (list term * list term) :=
  match s, t with
  | a :: s', b :: t' => do e <- polyeq a b ; if e then strip_loop s' t' else ROk (s, t)
  | _, _ => ROk (s, t)
  end.
(** strip_prefix_or_suffix, strings.rs:247-279 *)
Definition strip (s t : term) (rv : bool) : outcome (list term * list term) :=
  let sf := rev_if rv (flat s) in
  let tf := rev_if rv (flat t) in
  match sf, tf with
  | [], _ => RErr
  | _, [] => RErr
  | _, _ => do r <- strip_loop sf tf ; ROk (rev_if rv (fst r), rev_if rv (snd r))
  end.
(** length of a string in bytes (UTF-8): str::len *)
Definition utf8_len1 (c : N) : nat := if N.ltb c 128 then 1 else if N.ltb c 2048 then 2 else if N.ltb c 65536 then 3 else 4.
Definition utf8_len (s : list N) : nat := list_sum (map utf8_len1 s).
(** string_check_length_one, strings.rs:286-293 *)
Definition len_one (t : term) : outcome unit :=
  match t with TConst (CStr s) => rassert (Nat.eqb (utf8_len s) 1) | _ => RErr end.

(** build_skolem_prefix, build_skolem_suffix_rem, build_skolem_suffix, strings.rs:295-305 (build_str_suffix_len, 325-327, is the same function) *)
Definition sk_prefix (u n : term) : term := TOp OSubstring [u; tInt 0; n].
Definition sk_suffix_rem (u n : term) : term := TOp OSubstring [u; n; tMinus (tLen u) n].
Definition sk_suffix (u n : term) : term := TOp OSubstring [u; tMinus (tLen u) n; n].
(** build_skolem_unify_split_prefix, strings.rs:307-313 *)
Definition sk_split_prefix (t s : term) : term :=
  TOp OIte [TOp OGe [tLen t; tLen s]; sk_suffix_rem t (tLen s); sk_suffix_rem s (tLen t)].
(** build_skolem_unify_split_suffix, strings.rs:315-323 *)
Definition sk_split_suffix (t s : term) : term :=
  TOp OIte [TOp OGe [tLen t; tLen s]; sk_prefix t (tMinus (tLen t) (tLen s)); sk_prefix s (tMinus (tLen s) (tLen t))].
(** extract_arguments, strings.rs:330-349 *)
Definition extract_arguments (t : term) : outcome (term * term * term) := m_op3 OStrConcat t.
(** singleton_elim, strings.rs:355-360 *)
Definition singleton_elim (l : list term) : term := match l with [a] => a | _ => TOp OReConcat l end.

(** match_term! patterns *)
Definition m_not_len0 (t : term) : outcome term :=        (* (not (= (strlen x) 0)) *)
  do e <- rm_neg t ; do lz <- m_op2 OEquals e ; do x <- m_op1 OStrLen (fst lz) ; rassert (is_numb 0 (snd lz)) ;; ROk x.
Definition m_len_pair (o : op) (t : term) : outcome (term * term) :=   (* (o (strlen x) (strlen y)) *)
  do xy <- m_op2 o t ; do x <- m_op1 OStrLen (fst xy) ; do y <- m_op1 OStrLen (snd xy) ; ROk (x, y).
Definition m_not_empty (t : term) : outcome term :=       (* (not (= x "")) *)
  do e <- rm_neg t ; do xe <- m_op2 OEquals e ; rassert (is_empty_string (snd xe)) ;; ROk (fst xe).
Definition m_len_pos (t : term) : outcome term :=         (* (> (strlen x) 0) *)
  do lz <- m_op2 OGt t ; do x <- m_op1 OStrLen (fst lz) ; rassert (is_numb 0 (snd lz)) ;; ROk x.
Definition nonempty (l : list term) : outcome unit := match l with [] => RErr | _ => ROk tt end.

(** concat_eq, strings.rs:569-600 *)
Definition r_concat_eq : rule := fun c ps args =>
  len_is ps 1 ;; len_is args 1 ;; len_is c 1 ;;
  do g <- idx c 0 ; m_op2 OEquals g ;;
  do p <- idx ps 0 ; do h <- premise_term p ; do a <- idx args 0 ; do rv <- ok_or (as_bool a) ;
  do st <- m_op2 OEquals h ;
  do r <- strip (fst st) (snd st) rv ;
  teq (tEq (cat (fst r)) (cat (snd r))) (expand g).
(** concat_unify, strings.rs:602-636 *)
Definition r_concat_unify : rule := fun c ps args =>
  len_is ps 2 ;; len_is args 1 ;; len_is c 1 ;;
  do g <- idx c 0 ; m_op2 OEquals g ;;
  do p <- idx ps 0 ; do h <- premise_term p ; do p1 <- idx ps 1 ; do h1 <- premise_term p1 ;
  do a <- idx args 0 ; do rv <- ok_or (as_bool a) ;
  do st <- m_op2 OEquals h ; do xy <- m_len_pair OEquals h1 ;
  do s1 <- is_prefix_or_suffix (fst st) (fst xy) rv ;
  do t1 <- is_prefix_or_suffix (snd st) (snd xy) rv ;
  teq (tEq (cat s1) (cat t1)) (expand g).
(** concat_conflict, strings.rs:638-683 *)
Definition r_concat_conflict : rule := fun c ps args =>
  len_is ps 1 ;; len_is args 1 ;; len_is c 1 ;;
  do p <- idx ps 0 ; do h <- premise_term p ; do a <- idx args 0 ; do rv <- ok_or (as_bool a) ;
  do g <- idx c 0 ; do b <- ok_or (as_bool g) ; (if b then RErr else
  do st <- m_op2 OEquals h ;
  do r <- strip (fst st) (snd st) rv ;
  match rev_if rv (fst r), rev_if rv (snd r) with
  | a :: _, b :: _ => len_one a ;; len_one b
  | a :: _, [] => len_one a
  | [], b :: _ => len_one b
  | [], [] => RErr
  end).
(** concat_csplit_prefix, strings.rs:685-731 *)
Definition r_csplit_prefix : rule := fun c ps args =>
  len_is ps 2 ;; len_is c 1 ;;
  do g <- idx c 0 ; m_op2 OEquals g ;;
  do p <- idx ps 0 ; do h <- premise_term p ; do p1 <- idx ps 1 ; do h1 <- premise_term p1 ;
  do ts <- m_op2 OEquals h ; do t1 <- m_not_len0 h1 ;
  nonempty (flat (fst ts)) ;;
  match flat (snd ts) with
  | [] => RErr
  | ch :: _ =>
      is_prefix_or_suffix (fst ts) t1 false ;; len_one ch ;;
      teq (tEq (expand t1) (cat [ch; sk_suffix_rem t1 (tInt 1)])) (expand g)
  end.
(** concat_csplit_suffix, strings.rs:733-779 *)
Definition r_csplit_suffix : rule := fun c ps args =>
  len_is ps 2 ;; len_is c 1 ;;
  do g <- idx c 0 ; m_op2 OEquals g ;;
  do p <- idx ps 0 ; do h <- premise_term p ; do p1 <- idx ps 1 ; do h1 <- premise_term p1 ;
  do ts <- m_op2 OEquals h ; do t2 <- m_not_len0 h1 ;
  nonempty (flat (fst ts)) ;;
  match rev (flat (snd ts)) with
  | [] => RErr
  | ch :: _ =>
      is_prefix_or_suffix (fst ts) t2 true ;; len_one ch ;;
      teq (tEq (expand t2) (cat [sk_prefix t2 (tMinus (tLen t2) (tInt 1)); ch])) (expand g)
  end.
(** the conclusions of the split and lprop rules *)
Definition nonempty_part (r : term) : list term := [tNot (tEq r tEmpty); TOp OGt [tLen r; tInt 0]].
Definition split_shape (g : term) : outcome unit :=
  do x <- m_op3 OAnd g ; do o <- m_op2 OOr (fst (fst x)) ; m_op2 OEquals (fst o) ;; m_op2 OEquals (snd o) ;;
  m_not_empty (snd (fst x)) ;; m_len_pos (snd x) ;; ROk tt.
Definition lprop_shape (g : term) : outcome unit :=
  do x <- m_op3 OAnd g ; m_op2 OEquals (fst (fst x)) ;; m_not_empty (snd (fst x)) ;; m_len_pos (snd x) ;; ROk tt.
(** concat_split_prefix and concat_split_suffix, strings.rs:781-915; [rv] selects the suffix variant *)
Definition r_split (rv : bool) : rule := fun c ps args =>
  len_is ps 2 ;; len_is c 1 ;;
  do g <- idx c 0 ; split_shape g ;;
  do p <- idx ps 0 ; do h <- premise_term p ; do p1 <- idx ps 1 ; do h1 <- premise_term p1 ;
  do ts <- m_op2 OEquals h ; do e <- rm_neg h1 ; do xy <- m_len_pair OEquals e ;
  nonempty (flat (fst ts)) ;; nonempty (flat (snd ts)) ;;
  is_prefix_or_suffix (fst ts) (fst xy) rv ;; is_prefix_or_suffix (snd ts) (snd xy) rv ;;
  let t1 := expand (fst xy) in let s1 := expand (snd xy) in
  let r := if rv then sk_split_suffix t1 s1 else sk_split_prefix t1 s1 in
  let ct := if rv then tCat r s1 else tCat s1 r in
  let cs := if rv then tCat r t1 else tCat t1 r in
  teq (expand g) (expand (TOp OAnd (TOp OOr [tEq t1 ct; tEq s1 cs] :: nonempty_part r))).
(** concat_lprop_prefix and concat_lprop_suffix, strings.rs:917-1025 *)
Definition r_lprop (rv : bool) : rule := fun c ps args =>
  len_is ps 2 ;; len_is c 1 ;;
  do g <- idx c 0 ; lprop_shape g ;;
  do p <- idx ps 0 ; do h <- premise_term p ; do p1 <- idx ps 1 ; do h1 <- premise_term p1 ;
  do ts <- m_op2 OEquals h ; do xy <- m_len_pair OGt h1 ;
  nonempty (flat (fst ts)) ;; nonempty (flat (snd ts)) ;;
  is_prefix_or_suffix (fst ts) (fst xy) rv ;; is_prefix_or_suffix (snd ts) (snd xy) rv ;;
  let t1 := expand (fst xy) in let s1 := expand (snd xy) in
  let r := if rv then sk_split_suffix t1 s1 else sk_split_prefix t1 s1 in
  let ct := if rv then tCat r s1 else tCat s1 r in
  teq (expand g) (expand (TOp OAnd (tEq t1 ct :: nonempty_part r))).
(** the right-hand side of the cprop rules, strings.rs:1043-1052 and 1089-1098; a constant stands for a concatenation with "" *)
Definition cprop_args (s : term) (rv : bool) : outcome (list term) :=
  match s with
  | TConst (CStr []) => RErr
  | TConst (CStr _) => ROk (if rv then [tEmpty; s] else [s; tEmpty])
  | TOp o args => if op_eqb o OStrConcat then ROk args else RErr
  | _ => RErr
  end.
(** [sc[1..]]: panics on an empty slice *)
Definition tail_of (l : list term) : outcome (list term) := match l with [] => RPanic | _ :: r => ROk r end.
(** concat_cprop_prefix, strings.rs:1027-1071 *)
Definition r_cprop_prefix : rule := fun c ps args =>
  len_is ps 2 ;; len_is c 1 ;;
  do g <- idx c 0 ; do lr <- m_op2 OEquals g ; m_op2 OStrConcat (snd lr) ;;
  do p <- idx ps 0 ; do h <- premise_term p ; do p1 <- idx ps 1 ; do h1 <- premise_term p1 ;
  do ts <- m_op2 OEquals h ; do t1 <- m_not_len0 h1 ;
  do at_ <- extract_arguments (fst ts) ;
  teq (fst (fst at_)) t1 ;;
  do ss <- cprop_args (snd ts) false ;
  do s0 <- idx ss 0 ;
  do tl <- tail_of (flat s0) ;
  let v := tInt (Z.of_nat (1 + overlap tl (flat (snd (fst at_))))) in
  let oc := sk_prefix s0 v in
  teq (expand g) (expand (tEq t1 (tCat oc (sk_suffix_rem t1 (tLen oc))))).
(** concat_cprop_suffix, strings.rs:1073-1119 *)
Definition r_cprop_suffix : rule := fun c ps args =>
  len_is ps 2 ;; len_is c 1 ;;
  do g <- idx c 0 ; do lr <- m_op2 OEquals g ; m_op2 OStrConcat (snd lr) ;;
  do p <- idx ps 0 ; do h <- premise_term p ; do p1 <- idx ps 1 ; do h1 <- premise_term p1 ;
  do ts <- m_op2 OEquals h ; do t2 <- m_not_len0 h1 ;
  do at_ <- extract_arguments (fst ts) ;
  teq (snd at_) t2 ;;
  do ss <- cprop_args (snd ts) true ;
  do s1 <- idx ss 1 ;
  do tl <- tail_of (rev (flat s1)) ;
  let v := tInt (Z.of_nat (1 + overlap tl (rev (flat (snd (fst at_)))))) in
  let oc := sk_suffix s1 v in
  teq (expand g) (expand (tEq t2 (tCat (sk_prefix t2 (tMinus (tLen t2) (tLen oc))) oc))).
(** string_decompose, strings.rs:1121-1159 *)
Definition decomposed (t n : term) (rv : bool) : term :=
  let w1 := sk_prefix t n in let w2 := sk_suffix_rem t n in
  TOp OAnd [tEq t (tCat w1 w2); tEq (tLen (if rv then w2 else w1)) n].
Definition r_decompose : rule := fun c ps args =>
  len_is ps 1 ;; len_is args 1 ;; len_is c 1 ;;
  do p <- idx ps 0 ; do h <- premise_term p ; do a <- idx args 0 ; do rv <- ok_or (as_bool a) ;
  do ln <- m_op2 OGe h ; do t <- m_op1 OStrLen (fst ln) ;
  do g <- idx c 0 ; do x <- m_op2 OAnd g ; m_op2 OEquals (fst x) ;; (do e <- m_op2 OEquals (snd x) ; m_op1 OStrLen (fst e)) ;;
  assert_polyeq g (decomposed t (snd ln) rv).
(** string_length_pos, strings.rs:1161-1181 *)
Definition r_length_pos : rule := fun c ps args =>
  len_is args 1 ;; len_is c 1 ;;
  do t <- idx args 0 ; do g <- idx c 0 ;
  do o <- m_op2 OOr g ; do an <- m_op2 OAnd (fst o) ;
  do e1 <- m_op2 OEquals (fst an) ; do t1 <- m_op1 OStrLen (fst e1) ; rassert (is_numb 0 (snd e1)) ;;
  do e2 <- m_op2 OEquals (snd an) ; rassert (is_empty_string (snd e2)) ;;
  do t3 <- m_len_pos (snd o) ;
  assert_polyeq t1 t ;; assert_polyeq (fst e2) t ;; assert_polyeq t3 t.
(** string_length_non_empty, strings.rs:1183-1203 *)
Definition r_length_non_empty : rule := fun c ps args =>
  len_is ps 1 ;; len_is c 1 ;;
  do p <- idx ps 0 ; do h <- premise_term p ; do t <- m_not_empty h ;
  do g <- idx c 0 ; do tc <- m_not_len0 g ;
  assert_polyeq tc t.
(** re_inter, strings.rs:1205-1227 *)
Definition r_re_inter : rule := fun c ps args =>
  len_is ps 2 ;; len_is c 1 ;;
  do g <- idx c 0 ; do xr <- m_op2 OStrInRe g ; do st <- m_op2 OReInter (snd xr) ;
  do p <- idx ps 0 ; do h <- premise_term p ; do p1 <- idx ps 1 ; do h1 <- premise_term p1 ;
  do a <- m_op2 OStrInRe h ; do b <- m_op2 OStrInRe h1 ;
  assert_polyeq (fst xr) (fst a) ;; assert_polyeq (fst xr) (fst b) ;;
  teq (fst st) (snd a) ;; teq (snd st) (snd b).

(** format!("k_{j}"), format!("R_{j}") *)
Definition num_name (pre : string) (j : nat) : string := String.append pre (NilEmpty.string_of_uint (Nat.to_uint j)).
Definition kvar (j : nat) : term := TVar (num_name "k_" j) SString.
Definition rvar (j : nat) : term := TVar (num_name "R_" j) SRegLan.
(** re_unfold_pos_component, strings.rs:387-445, without the update of previous_ks and previous_rs *)
Definition unfold_comp (t : term) (i : nat) (ks rs : list term) : term :=
  let before := seq 0 i in
  let x := TVar "x" SString in
  let mems := (map (fun j => tInRe (kvar j) (rvar j)) before ++ [tInRe x (rvar i)]
              ++ map (fun p => tInRe (fst p) (snd p)) (combine ks rs))%list in
  let binds := (flat_map (fun j => [(num_name "k_" j, SString); (num_name "R_" j, SRegLan)]) before ++ [(num_name "R_" i, SRegLan)]
               ++ map (fun j => (num_name "R_" (i + j + 1), SRegLan)) (seq 0 (List.length rs)))%list in
  TBind BChoice [("x", SString)]
    (TBind BExists binds (TOp OAnd (tEq t (TOp OStrConcat (map kvar before ++ [x] ++ ks)%list) :: mems))).
(** re_unfold_pos_concat_recursive, strings.rs:447-502, on the arguments of the concatenation: the string, the memberships and the
    updated lists.  [str_to_re_args.first().unwrap()] panics without arguments. *)
Fixpoint unfold_pos (t : term) (rs : list term) (n : nat) : outcome (term * term * (list term * list term)) :=
  match rs with
  | [] => ROk (tEmpty, tTrue, ([], []))
  | r1 :: r2 =>
      do x <- unfold_pos t r2 (n + 1) ;
      let '(c, m, (pk, pr)) := x in
      match as_op OStrToRe r1 with
      | Some [] => RPanic
      | Some (s :: _) => ROk (tCat s c, m, (pk, pr))
      | None =>
          let k := unfold_comp t n pk pr in
          let r := match r2 with [] => r1 | _ => TOp OReConcat rs end in
          ROk (tCat k c, TOp OAnd [tInRe k r; m], (k :: pk, rvar n :: pr))
      end
  end.
Definition is_true_op (t : term) : bool := match t with TOp o _ => op_eqb o OTrue | _ => false end.
(** re_kleene_star_unfold_pos, strings.rs:1229-1292 *)
Definition kleene_shape (g : term) : outcome unit :=
  do x <- m_op3 OOr g ;
  (do e <- m_op2 OEquals (fst (fst x)) ; rassert (is_empty_string (snd e))) ;;
  m_op2 OStrInRe (snd (fst x)) ;;
  do y <- m_op3 OAnd (snd x) ; m_not_empty (snd (fst y)) ;; m_not_empty (snd y) ;; ROk tt.
Definition r_kleene_pos : rule := fun c ps args =>
  len_is ps 1 ;; len_is c 1 ;;
  do p <- idx ps 0 ; do h <- premise_term p ; do tr <- m_op2 OStrInRe h ;
  do g <- idx c 0 ; kleene_shape g ;;
  let t := fst tr in let r := snd tr in
  do ra <- m_ops OReStar r ;
  match ra with
  | [] => RPanic
  | r1 :: _ =>
      do x <- unfold_pos t [r1; r; r1] 0 ;
      let '(k, m, _) := x in
      match extract k with
      | [k0; k1; k2] =>
          let eq := tEq t (TOp OStrConcat [k0; k1; k2]) in
          do s <- (if is_true_op m then ROk (TOp OAnd [eq])
                   else match as_op OAnd m with Some l => ROk (TOp OAnd (eq :: l)) | None => RPanic end) ;
          teq g (TOp OOr [tEq t tEmpty; tInRe t r1; TOp OAnd [s; tNot (tEq k0 tEmpty); tNot (tEq k2 tEmpty)]])
      | _ => RErr
      end
  end.
(** re_concat_unfold_pos, strings.rs:1294-1330 *)
Definition concat_pos_shape (g : term) : bool :=
  let eq1 t := match op2 OEquals t with Some (_, b) => match as_op OStrConcat b with Some _ => true | None => false end | None => false end in
  eq1 g || match op2 OAnd g with Some (a, b) => eq1 a && match as_op OAnd b with Some _ => true | None => false end | None => false end.
Definition r_re_concat_pos : rule := fun c ps args =>
  len_is ps 1 ;; len_is c 1 ;;
  do p <- idx ps 0 ; do h <- premise_term p ; do tr <- m_op2 OStrInRe h ;
  do g <- idx c 0 ; rassert (concat_pos_shape g) ;;
  do rs <- m_ops OReConcat (snd tr) ;
  do x <- unfold_pos (fst tr) rs 0 ;
  let '(k, m, _) := x in
  let e := tEq (fst tr) (TOp OStrConcat (extract k)) in
  teq g (if is_true_op m then e else TOp OAnd [e; m]).
(** re_unfold_neg, strings.rs:1332-1423.  The conclusion's shape is checked before; a conclusion equal to the built term has it. *)
Definition neg_L : term := TVar "L" SInt.
Definition neg_body (o : op) (t r1 r2 : term) : term :=
  TBind BForall [("L", SInt)]
    (TOp OOr [TOp o [neg_L; tInt 0]; TOp OLt [tLen t; neg_L]; tNot (tInRe (sk_prefix t neg_L) r1); tNot (tInRe (sk_suffix_rem t neg_L) r2)]).
Definition r_unfold_neg : rule := fun c ps args =>
  len_is ps 1 ;; len_is c 1 ;;
  do p <- idx ps 0 ; do h <- premise_term p ; do e <- rm_neg h ; do tr <- m_op2 OStrInRe e ;
  let t := fst tr in let r := snd tr in
  do g <- idx c 0 ;
  match as_op OReStar r with
  | Some [] => RPanic
  | Some (r1 :: _) => teq g (TOp OAnd [tNot (tEq t tEmpty); neg_body OLe t r1 r])
  | None =>
      do rs <- m_ops OReConcat r ;
      match rs with
      | [] => RPanic
      | r1 :: r2 => teq g (neg_body OLt t r1 (singleton_elim r2))
      end
  end.
(** str_fixed_len_re, strings.rs:520-567 *)
Definition same_len (l : list (outcome nat)) : outcome nat :=
  match l with
  | [] => RErr
  | a :: r => do n <- a ; fold_left (fun acc x => do m <- acc ; do k <- x ; if Nat.eqb k n then ROk m else RErr) r (ROk n)
  end.
Definition op_is (o : op) (t : term) : bool := match t with TOp o' _ => op_eqb o o' | _ => false end.
Fixpoint fixed_len (r : term) : outcome nat :=
  match r with
  | TOp o args =>
      if op_eqb o OReConcat then fold_left (fun acc x => do n <- acc ; do k <- x ; ROk (n + k)) (map fixed_len args) (ROk 0)
      else if op_eqb o OReAllChar then ROk 1
      else if op_eqb o OReRange then ROk 1
      else if op_eqb o OStrToRe then
        match args with [] => RPanic | TConst (CStr s) :: _ => ROk (utf8_len s) | _ => RErr end
      else if op_eqb o OReUnion then same_len (flat_map (fun a => if op_is OReNone a then [] else [fixed_len a]) args)
      else if op_eqb o OReInter then same_len (flat_map (fun a => if op_is OReAll a then [] else [fixed_len a]) args)
      else RErr
  | _ => RErr
  end.
(** re_unfold_neg_concat_fixed_prefix, strings.rs:1425-1461 *)
Definition r_neg_fixed_prefix : rule := fun c ps args =>
  len_is ps 1 ;; len_is c 1 ;;
  do g <- idx c 0 ;
  (do o <- m_op2 OOr g ; (do a <- rm_neg (fst o) ; m_op2 OStrInRe a) ;; (do b <- rm_neg (snd o) ; m_op2 OStrInRe b)) ;;
  do p <- idx ps 0 ; do h <- premise_term p ; do e <- rm_neg h ; do sr <- m_op2 OStrInRe e ;
  do rs <- m_ops OReConcat (snd sr) ;
  match rs with
  | [] => RPanic
  | r1 :: r2 =>
      do n <- fixed_len r1 ;
      let n := tInt (Z.of_nat n) in
      teq g (TOp OOr [tNot (tInRe (sk_prefix (fst sr) n) r1); tNot (tInRe (sk_suffix_rem (fst sr) n) (singleton_elim r2))])
  end.
(** re_unfold_neg_concat_fixed_suffix, strings.rs:1463-1505 *)
Definition r_neg_fixed_suffix : rule := fun c ps args =>
  len_is ps 1 ;; len_is c 1 ;;
  do g <- idx c 0 ;
  (do o <- m_op2 OOr g ; (do a <- rm_neg (fst o) ; m_op2 OStrInRe a) ;; (do b <- rm_neg (snd o) ; m_op2 OStrInRe b)) ;;
  do p <- idx ps 0 ; do h <- premise_term p ; do e <- rm_neg h ; do sr <- m_op2 OStrInRe e ;
  do rs <- m_ops OReConcat (snd sr) ;
  match rev rs with
  | [] => RPanic
  | r1 :: r2 =>
      do n <- fixed_len r1 ;
      let n := tInt (Z.of_nat n) in
      teq g (TOp OOr [tNot (tInRe (sk_suffix (fst sr) n) r1);
                      tNot (tInRe (sk_prefix (fst sr) (tMinus (tLen (fst sr)) n)) (singleton_elim (rev r2)))])
  end.
