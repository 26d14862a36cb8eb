(** Syntactic conditions on terms under which comparisons modulo reordering are meaning preserving
    (specification; every term that the parser builds from standard SMT-LIB satisfies them). *)
From Coq Require Import List String ZArith QArith Bool Arith Lia.
From Verif Require Import Term Sem Sorting.
Import ListNotations.

Section AllSub.
  Context (P : term -> bool).
  (** [P] holds of every subterm *)
  Fixpoint all_sub (t : term) : bool :=
    P t && match t with
           | TApp f args => all_sub f && forallb all_sub args
           | TOp _ args | TPOp _ _ args => forallb all_sub args
           | TBind _ _ body => all_sub body
           | TLet bs body => forallb (fun p => all_sub (snd p)) bs && all_sub body
           | _ => true
           end.
End AllSub.
Lemma all_sub_impl (P Q : term -> bool) : (forall t, P t = true -> Q t = true) ->
  forall t, all_sub P t = true -> all_sub Q t = true.
Proof.
  intros HPQ t. induction t using term_ind'; cbn [all_sub]; intros HH; apply andb_true_iff in HH; destruct HH as [H1 H2]; apply andb_true_iff; split; auto.
  - apply andb_true_iff in H2. destruct H2 as [H2 H3]. rewrite andb_true_iff. split; auto.
    rewrite forallb_forall in *. rewrite Forall_forall in H. auto.
  - rewrite forallb_forall in *. rewrite Forall_forall in H. auto.
  - rewrite andb_true_iff in *. destruct H2 as [H2 H3]. split; auto.
    rewrite forallb_forall in *. rewrite Forall_forall in H. auto.
  - rewrite forallb_forall in *. rewrite Forall_forall in H0. auto.
Qed.

(** Numerals are non-negative, as in SMT-LIB, and [/] has two arguments. *)
Definition std1 (t : term) : bool :=
  match t with
  | TConst (CInt z) => Z.leb 0 z
  | TConst (CReal q) => Z.leb 0 (Qnum q)
  | TOp ORealDiv args => Nat.eqb (List.length args) 2
  | _ => true
  end.
Definition std_lits (t : term) : bool := all_sub std1 t.

(** the sorts at which the name [x] occurs free *)
Fixpoint free_sorts (x : string) (t : term) : list sort :=
  match t with
  | TConst _ | TSort _ => []
  | TVar y s => if String.eqb x y then [s] else []
  | TApp f args => free_sorts x f ++ flat_map (free_sorts x) args
  | TOp _ args | TPOp _ _ args => flat_map (free_sorts x) args
  | TBind _ vs body => filter (fun s => negb (existsb (svar_eqb (x, s)) vs)) (free_sorts x body)
  | TLet bs body =>
      flat_map (fun p => free_sorts x (snd p)) bs ++
      filter (fun s => negb (existsb (fun p => svar_eqb (x, s) (fst p, sort_of (snd p))) bs)) (free_sorts x body)
  end.
(** inside [let], a let-bound name only occurs with the sort of its value (the scoping of the parser) *)
Definition scoped1 (t : term) : bool :=
  match t with
  | TLet bs body => forallb (fun p => forallb (sort_eqb (sort_of (snd p))) (free_sorts (fst p) body)) bs
  | _ => true
  end.
Definition scoped (t : term) : bool := all_sub scoped1 t.

(** no unary minus, and none of the operators that only occur in clause arguments *)
Definition nary1 (t : term) : bool :=
  match t with
  | TOp OSub [_] => false
  | TOp OCl _ | TOp ODelete _ => false
  | _ => true
  end.
Definition no_unary_minus (t : term) : bool := all_sub nary1 t.

Lemma existsb_flat_map {A} (f : A -> bool) (g : A -> list sort) (s : sort) l :
  (forall a, In a l -> (f a = true <-> In s (g a))) -> (existsb f l = true <-> In s (flat_map g l)).
Proof.
  intros H. rewrite existsb_exists, in_flat_map. split; intros [a [Ha H2]]; exists a; split; auto; apply (H a Ha); auto.
Qed.
Lemma free_sorts_spec x s t : free_in x s t = true <-> In s (free_sorts x t).
Proof.
  induction t using term_ind'; cbn [free_in free_sorts].
  - split; [discriminate|intros []].
  - rewrite andb_true_iff, sort_eqb_eq. destruct (String.eqb x x0); simpl; [|split; [intros [? _]; discriminate|intros []]].
    split; [intros [_ ->]; auto|intros [->|[]]; auto].
  - rewrite orb_true_iff, in_app_iff, IHt. rewrite (existsb_flat_map _ (free_sorts x) s); [reflexivity|].
    rewrite Forall_forall in H. auto.
  - apply existsb_flat_map. rewrite Forall_forall in H. auto.
  - split; [discriminate|intros []].
  - rewrite andb_true_iff, filter_In, IHt. tauto.
  - rewrite orb_true_iff, in_app_iff, andb_true_iff, filter_In, IHt.
    rewrite (existsb_flat_map _ (fun p => free_sorts x (snd p)) s); [tauto|]. rewrite Forall_forall in H. auto.
  - apply existsb_flat_map. rewrite Forall_forall in H0. auto.
Qed.
