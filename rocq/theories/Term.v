(** Terms, sorts and operators of Carcara.
    Models /repo/carcara/src/ast/term.rs. *)
From Coq Require Import List String ZArith QArith Bool Arith NArith Lia.
Import ListNotations.

(** Sorts: ast/term.rs:50-97 (enum Sort).
    Simplifications: sorts are a separate type instead of terms ([Term::Sort] injects them, see
    [TSort]); [ParamSort] (only used by polymorphic RARE rules) is not modelled. *)
Inductive sort : Type :=
| SFun (ss : list sort)                 (* last element is the result sort *)
| SAtom (n : string) (args : list sort)
| SVar (n : string)
| SBool | SInt | SReal | SString | SRegLan
| SArray (a b : sort)
| SBV (w : nat)
| SRareList | SType.

(** Constants: ast/term.rs:104-119. [rug::Integer] is [Z]; [rug::Rational] is [Q] (not necessarily
    reduced: non-reduced literals are extra terms that Rust never builds); Unicode strings are lists
    of code points. *)
Inductive const : Type :=
| CInt (z : Z)
| CReal (q : Q)
| CStr (s : list N)
| CBV (v : Z) (w : nat).

(** ast/term.rs:122-134 *)
Inductive binder : Type := BForall | BExists | BChoice | BLambda.

(** ast/term.rs:146-398 (enum Operator) *)
Inductive op : Type :=
| OTrue | OFalse | ONot | OImplies | OAnd | OOr | OXor | OEquals | ODistinct | OIte
| OAdd | OSub | OMult | OIntDiv | ORealDiv | OMod | OAbs | OLt | OGt | OLe | OGe
| OToReal | OToInt | OIsInt
| OSelect | OStore
| OStrConcat | OStrLen | OStrLt | OStrLe | OCharAt | OSubstring | OPrefixOf | OSuffixOf | OContains
| OIndexOf | OReplace | OReplaceAll | OReplaceRe | OReplaceReAll | OStrIsDigit | OStrToCode
| OStrFromCode | OStrToInt | OStrFromInt
| OStrToRe | OStrInRe | OReNone | OReAll | OReAllChar | OReConcat | OReUnion | OReInter
| OReStar | OReComp | OReDiff | ORePlus | OReOpt | OReRange
| OBvNot | OBvNeg | OBvAnd | OBvOr | OBvAdd | OBvMul | OBvUDiv | OBvURem | OBvShl | OBvLShr | OBvULt
| OBvConcat | OBvNAnd | OBvNOr | OBvXor | OBvXNor | OBvComp | OBvSub | OBvSDiv | OBvSRem | OBvSMod
| OBvAShr | OBvULe | OBvUGt | OBvUGe | OBvSLt | OBvSLe | OBvSGt | OBvSGe
| OUBvToInt | OSBvToInt | OBvPBbTerm | OBvBbTerm | OBvConst | OBvSize
| OPow2 | OIsPow2 | OLog2 | ORareList | OCl | ODelete.

(** ast/term.rs:503-524 (enum ParamOperator) *)
Inductive pop : Type :=
| PBvExtract | PBvBitOf | PBvIntOf | PZeroExtend | PSignExtend | PRotateLeft | PRotateRight | PRepeat
| PBvConst | PIntToBv | PRePower | PReLoop | PArrayConst.

(** ast/term.rs:11-47 (enum Term) *)
Inductive term : Type :=
| TConst (c : const)
| TVar (x : string) (s : sort)
| TApp (f : term) (args : list term)
| TOp (o : op) (args : list term)
| TSort (s : sort)
| TBind (b : binder) (vs : list (string * sort)) (body : term)
| TLet (bs : list (string * term)) (body : term)
| TPOp (o : pop) (oargs args : list term).

Definition sorted_var : Type := string * sort.
Definition clause : Type := list term.

(** ** Induction principles for the nested types *)
Section SortInd.
  Variable P : sort -> Prop.
  Hypothesis HFun : forall ss, Forall P ss -> P (SFun ss).
  Hypothesis HAtom : forall n ss, Forall P ss -> P (SAtom n ss).
  Hypothesis HArr : forall a b, P a -> P b -> P (SArray a b).
  Hypothesis HVar : forall n, P (SVar n).
  Hypothesis HBV : forall n, P (SBV n).
  Hypothesis HB : P SBool. Hypothesis HI : P SInt. Hypothesis HR : P SReal.
  Hypothesis HS : P SString. Hypothesis HRe : P SRegLan. Hypothesis HRL : P SRareList.
  Hypothesis HT : P SType.
  Fixpoint sort_ind' (s : sort) : P s :=
    match s with
    | SFun ss => HFun ss ((fix go (l : list sort) : Forall P l :=
        match l with [] => Forall_nil _ | a :: r => Forall_cons a (sort_ind' a) (go r) end) ss)
    | SAtom n ss => HAtom n ss ((fix go (l : list sort) : Forall P l :=
        match l with [] => Forall_nil _ | a :: r => Forall_cons a (sort_ind' a) (go r) end) ss)
    | SArray a b => HArr a b (sort_ind' a) (sort_ind' b)
    | SVar n => HVar n | SBV n => HBV n
    | SBool => HB | SInt => HI | SReal => HR | SString => HS | SRegLan => HRe
    | SRareList => HRL | SType => HT
    end.
End SortInd.

Section TermInd.
  Variable P : term -> Prop.
  Hypothesis HConst : forall c, P (TConst c).
  Hypothesis HVar : forall x s, P (TVar x s).
  Hypothesis HApp : forall f args, P f -> Forall P args -> P (TApp f args).
  Hypothesis HOp : forall o args, Forall P args -> P (TOp o args).
  Hypothesis HSort : forall s, P (TSort s).
  Hypothesis HBind : forall b vs body, P body -> P (TBind b vs body).
  Hypothesis HLet : forall bs body, Forall (fun p => P (snd p)) bs -> P body -> P (TLet bs body).
  Hypothesis HPOp : forall o oargs args, Forall P oargs -> Forall P args -> P (TPOp o oargs args).
  Fixpoint term_ind' (t : term) : P t :=
    let go := fix go (l : list term) : Forall P l :=
      match l with [] => Forall_nil _ | a :: r => Forall_cons a (term_ind' a) (go r) end in
    match t with
    | TConst c => HConst c
    | TVar x s => HVar x s
    | TApp f args => HApp f args (term_ind' f) (go args)
    | TOp o args => HOp o args (go args)
    | TSort s => HSort s
    | TBind b vs body => HBind b vs body (term_ind' body)
    | TLet bs body => HLet bs body
        ((fix gol (l : list (string * term)) : Forall (fun p => P (snd p)) l :=
          match l with [] => Forall_nil _
          | a :: r => Forall_cons a (term_ind' (snd a)) (gol r) end) bs) (term_ind' body)
    | TPOp o oargs args => HPOp o oargs args (go oargs) (go args)
    end.
End TermInd.

(** ** Boolean structural equality (derive(PartialEq) in term.rs; Rc equality in rc.rs is pointer
    equality, which coincides with structural equality by hash-consing, see Pool.v) *)
Definition op_code (o : op) : N :=
  match o with
  | OTrue => 0 | OFalse => 1 | ONot => 2 | OImplies => 3 | OAnd => 4 | OOr => 5 | OXor => 6
  | OEquals => 7 | ODistinct => 8 | OIte => 9 | OAdd => 10 | OSub => 11 | OMult => 12 | OIntDiv => 13
  | ORealDiv => 14 | OMod => 15 | OAbs => 16 | OLt => 17 | OGt => 18 | OLe => 19 | OGe => 20
  | OToReal => 21 | OToInt => 22 | OIsInt => 23 | OSelect => 24 | OStore => 25
  | OStrConcat => 26 | OStrLen => 27 | OStrLt => 28 | OStrLe => 29 | OCharAt => 30 | OSubstring => 31
  | OPrefixOf => 32 | OSuffixOf => 33 | OContains => 34 | OIndexOf => 35 | OReplace => 36
  | OReplaceAll => 37 | OReplaceRe => 38 | OReplaceReAll => 39 | OStrIsDigit => 40 | OStrToCode => 41
  | OStrFromCode => 42 | OStrToInt => 43 | OStrFromInt => 44 | OStrToRe => 45 | OStrInRe => 46
  | OReNone => 47 | OReAll => 48 | OReAllChar => 49 | OReConcat => 50 | OReUnion => 51 | OReInter => 52
  | OReStar => 53 | OReComp => 54 | OReDiff => 55 | ORePlus => 56 | OReOpt => 57 | OReRange => 58
  | OBvNot => 59 | OBvNeg => 60 | OBvAnd => 61 | OBvOr => 62 | OBvAdd => 63 | OBvMul => 64
  | OBvUDiv => 65 | OBvURem => 66 | OBvShl => 67 | OBvLShr => 68 | OBvULt => 69 | OBvConcat => 70
  | OBvNAnd => 71 | OBvNOr => 72 | OBvXor => 73 | OBvXNor => 74 | OBvComp => 75 | OBvSub => 76
  | OBvSDiv => 77 | OBvSRem => 78 | OBvSMod => 79 | OBvAShr => 80 | OBvULe => 81 | OBvUGt => 82
  | OBvUGe => 83 | OBvSLt => 84 | OBvSLe => 85 | OBvSGt => 86 | OBvSGe => 87 | OUBvToInt => 88
  | OSBvToInt => 89 | OBvPBbTerm => 90 | OBvBbTerm => 91 | OBvConst => 92 | OBvSize => 93
  | OPow2 => 94 | OIsPow2 => 95 | OLog2 => 96 | ORareList => 97 | OCl => 98 | ODelete => 99
  end%N.

Definition op_list : list op :=
  [OTrue; OFalse; ONot; OImplies; OAnd; OOr; OXor; OEquals; ODistinct; OIte
  ; OAdd; OSub; OMult; OIntDiv; ORealDiv; OMod; OAbs; OLt; OGt; OLe; OGe
  ; OToReal; OToInt; OIsInt; OSelect; OStore
  ; OStrConcat; OStrLen; OStrLt; OStrLe; OCharAt; OSubstring; OPrefixOf; OSuffixOf; OContains
  ; OIndexOf; OReplace; OReplaceAll; OReplaceRe; OReplaceReAll; OStrIsDigit; OStrToCode
  ; OStrFromCode; OStrToInt; OStrFromInt
  ; OStrToRe; OStrInRe; OReNone; OReAll; OReAllChar; OReConcat; OReUnion; OReInter
  ; OReStar; OReComp; OReDiff; ORePlus; OReOpt; OReRange
  ; OBvNot; OBvNeg; OBvAnd; OBvOr; OBvAdd; OBvMul; OBvUDiv; OBvURem; OBvShl; OBvLShr; OBvULt
  ; OBvConcat; OBvNAnd; OBvNOr; OBvXor; OBvXNor; OBvComp; OBvSub; OBvSDiv; OBvSRem; OBvSMod
  ; OBvAShr; OBvULe; OBvUGt; OBvUGe; OBvSLt; OBvSLe; OBvSGt; OBvSGe
  ; OUBvToInt; OSBvToInt; OBvPBbTerm; OBvBbTerm; OBvConst; OBvSize
  ; OPow2; OIsPow2; OLog2; ORareList; OCl; ODelete].

Definition op_eqb (a b : op) : bool := N.eqb (op_code a) (op_code b).
Lemma op_decode a : nth (N.to_nat (op_code a)) op_list OTrue = a.
Proof. destruct a; reflexivity. Qed.
Lemma op_eqb_eq a b : op_eqb a b = true <-> a = b.
Proof.
  unfold op_eqb. rewrite N.eqb_eq. split; [|congruence].
  intros H. rewrite <- (op_decode a), <- (op_decode b), H. reflexivity.
Qed.

Scheme Equality for pop.
Scheme Equality for binder.
Lemma pop_eqb_eq a b : pop_beq a b = true <-> a = b.
Proof. split; [apply internal_pop_dec_bl | apply internal_pop_dec_lb]. Qed.
Lemma binder_eqb_eq a b : binder_beq a b = true <-> a = b.
Proof. split; [apply internal_binder_dec_bl | apply internal_binder_dec_lb]. Qed.

Section ListEqb.
  Context {A : Type} (eqb : A -> A -> bool).
  Fixpoint list_eqb (l1 l2 : list A) : bool :=
    match l1, l2 with
    | [], [] => true
    | a :: r1, b :: r2 => eqb a b && list_eqb r1 r2
    | _, _ => false
    end.
  Lemma list_eqb_Forall l1 l2 :
    Forall (fun a => forall b, eqb a b = true <-> a = b) l1 ->
    (list_eqb l1 l2 = true <-> l1 = l2).
  Proof.
    intros H. revert l2. induction H as [|a r1 Ha Hr IH]; intros [|b r2]; simpl;
      try (split; [discriminate || reflexivity | discriminate || reflexivity]).
    rewrite andb_true_iff, Ha, IH. split; [intros [-> ->]; reflexivity | intros E; injection E; auto].
  Qed.
  Lemma list_eqb_eq l1 l2 :
    (forall a b, eqb a b = true <-> a = b) -> (list_eqb l1 l2 = true <-> l1 = l2).
  Proof. intros H. apply list_eqb_Forall. apply Forall_forall. intros; apply H. Qed.
End ListEqb.

Fixpoint sort_eqb (a b : sort) {struct a} : bool :=
  match a, b with
  | SFun l1, SFun l2 => list_eqb sort_eqb l1 l2
  | SAtom n l1, SAtom m l2 => String.eqb n m && list_eqb sort_eqb l1 l2
  | SVar n, SVar m => String.eqb n m
  | SBool, SBool | SInt, SInt | SReal, SReal | SString, SString | SRegLan, SRegLan
  | SRareList, SRareList | SType, SType => true
  | SArray a1 b1, SArray a2 b2 => sort_eqb a1 a2 && sort_eqb b1 b2
  | SBV n, SBV m => Nat.eqb n m
  | _, _ => false
  end.

Lemma sort_eqb_eq a b : sort_eqb a b = true <-> a = b.
Proof.
  revert b. induction a using sort_ind'; intros [];
    try (split; [discriminate || reflexivity | discriminate || reflexivity]); simpl.
  - rewrite (list_eqb_Forall sort_eqb) by assumption. split; congruence.
  - rewrite andb_true_iff, String.eqb_eq, (list_eqb_Forall sort_eqb) by assumption.
    split; [intros [-> ->]; reflexivity | intros E; injection E; auto].
  - rewrite andb_true_iff, IHa1, IHa2. split; [intros [-> ->]; reflexivity | intros E; injection E; auto].
  - rewrite String.eqb_eq. split; congruence.
  - rewrite Nat.eqb_eq. split; congruence.
Qed.

Definition q_eqb (a b : Q) : bool := Z.eqb (Qnum a) (Qnum b) && Pos.eqb (Qden a) (Qden b).
Lemma q_eqb_eq a b : q_eqb a b = true <-> a = b.
Proof.
  destruct a, b. unfold q_eqb; simpl. rewrite andb_true_iff, Z.eqb_eq, Pos.eqb_eq.
  split; [intros [-> ->]; reflexivity | intros E; injection E; auto].
Qed.

Definition const_eqb (a b : const) : bool :=
  match a, b with
  | CInt x, CInt y => Z.eqb x y
  | CReal x, CReal y => q_eqb x y
  | CStr x, CStr y => list_eqb N.eqb x y
  | CBV x w, CBV y w' => Z.eqb x y && Nat.eqb w w'
  | _, _ => false
  end.
Lemma const_eqb_eq a b : const_eqb a b = true <-> a = b.
Proof.
  destruct a, b; try (split; discriminate); simpl.
  - rewrite Z.eqb_eq; split; congruence.
  - rewrite q_eqb_eq; split; congruence.
  - rewrite list_eqb_eq by apply N.eqb_eq. split; congruence.
  - rewrite andb_true_iff, Z.eqb_eq, Nat.eqb_eq.
    split; [intros [-> ->]; reflexivity | intros E; injection E; auto].
Qed.

Definition svar_eqb (a b : string * sort) : bool :=
  String.eqb (fst a) (fst b) && sort_eqb (snd a) (snd b).
Lemma svar_eqb_eq a b : svar_eqb a b = true <-> a = b.
Proof.
  destruct a, b. unfold svar_eqb; simpl. rewrite andb_true_iff, String.eqb_eq, sort_eqb_eq.
  split; [intros [-> ->]; reflexivity | intros E; injection E; auto].
Qed.

Fixpoint term_eqb (a b : term) {struct a} : bool :=
  match a, b with
  | TConst c, TConst d => const_eqb c d
  | TVar x s, TVar y s' => String.eqb x y && sort_eqb s s'
  | TApp f l1, TApp g l2 => term_eqb f g && list_eqb term_eqb l1 l2
  | TOp o l1, TOp o' l2 => op_eqb o o' && list_eqb term_eqb l1 l2
  | TSort s, TSort s' => sort_eqb s s'
  | TBind b1 vs1 t1, TBind b2 vs2 t2 =>
      binder_beq b1 b2 && list_eqb svar_eqb vs1 vs2 && term_eqb t1 t2
  | TLet bs1 t1, TLet bs2 t2 =>
      list_eqb (fun p q => String.eqb (fst p) (fst q) && term_eqb (snd p) (snd q)) bs1 bs2
      && term_eqb t1 t2
  | TPOp o a1 l1, TPOp o' a2 l2 =>
      pop_beq o o' && list_eqb term_eqb a1 a2 && list_eqb term_eqb l1 l2
  | _, _ => false
  end.

Lemma term_eqb_eq a b : term_eqb a b = true <-> a = b.
Proof.
  revert b. induction a using term_ind'; intros [];
    try (split; discriminate); simpl.
  - rewrite const_eqb_eq; split; congruence.
  - rewrite andb_true_iff, String.eqb_eq, sort_eqb_eq.
    split; [intros [-> ->]; reflexivity | intros E; injection E; auto].
  - rewrite andb_true_iff, IHa, (list_eqb_Forall term_eqb) by assumption.
    split; [intros [-> ->]; reflexivity | intros E; injection E; auto].
  - rewrite andb_true_iff, op_eqb_eq, (list_eqb_Forall term_eqb) by assumption.
    split; [intros [-> ->]; reflexivity | intros E; injection E; auto].
  - rewrite sort_eqb_eq; split; congruence.
  - rewrite !andb_true_iff, binder_eqb_eq, (list_eqb_eq svar_eqb) by apply svar_eqb_eq.
    rewrite IHa. split; [intros [[-> ->] ->]; reflexivity | intros E; injection E; auto].
  - rewrite andb_true_iff, IHa, (list_eqb_Forall (fun p q => String.eqb (fst p) (fst q) && term_eqb (snd p) (snd q))).
    + split; [intros [-> ->]; reflexivity | intros E; injection E; auto].
    + eapply Forall_impl; [|exact H]. intros [x t] Ht [y u]. simpl in *.
      rewrite andb_true_iff, String.eqb_eq, Ht.
      split; [intros [-> ->]; reflexivity | intros E; injection E; auto].
  - rewrite !andb_true_iff, pop_eqb_eq, !(list_eqb_Forall term_eqb) by assumption.
    split; [intros [[-> ->] ->]; reflexivity | intros E; injection E; auto].
Qed.

Lemma term_eqb_refl a : term_eqb a a = true.
Proof. apply term_eqb_eq; reflexivity. Qed.
Lemma term_eqb_neq a b : term_eqb a b = false <-> a <> b.
Proof.
  rewrite <- term_eqb_eq. destruct (term_eqb a b); split; congruence.
Qed.
Definition term_dec (a b : term) : {a = b} + {a <> b}.
Proof.
  destruct (term_eqb a b) eqn:E; [left; apply term_eqb_eq; exact E|right; apply term_eqb_neq; exact E].
Defined.
Lemma sort_eqb_refl a : sort_eqb a a = true.
Proof. apply sort_eqb_eq; reflexivity. Qed.
Lemma svar_eqb_refl a : svar_eqb a a = true.
Proof. apply svar_eqb_eq; reflexivity. Qed.
Lemma op_eqb_refl a : op_eqb a a = true.
Proof. apply op_eqb_eq; reflexivity. Qed.

(** ** Abbreviations used by the rules (the [build_term!] patterns of ast/macros.rs) *)
Definition tTrue := TOp OTrue [].
Definition tFalse := TOp OFalse [].
Definition tNot a := TOp ONot [a].
Definition tBool (b : bool) := if b then tTrue else tFalse.
Definition tEq a b := TOp OEquals [a; b].
Definition tInt (z : Z) := TConst (CInt z).
Definition tReal (q : Q) := TConst (CReal q).

(** term.rs:1003 is_bool_true / is_bool_false (as used by [match_term!(true = t)]) *)
Definition is_true (t : term) : bool := term_eqb t tTrue.
Definition is_false (t : term) : bool := term_eqb t tFalse.
Definition is_bool_const (t : term) (b : bool) : bool := if b then is_true t else is_false t.
