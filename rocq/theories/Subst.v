(** Free variables and capture-avoiding substitution.
    Models ast/pool/mod.rs:386-450 (free_vars) and ast/substitution.rs.
    Simplification: the keys of a substitution are variables (sort variables, used by RARE rules only, are
    not modelled), so sorts are left alone. *)
From Coq Require Import List String Ascii ZArith QArith Bool Arith Lia.
From Verif Require Import Base Term Field Sem Sorting Utils R_Simp.
Import ListNotations.
Local Open Scope nat_scope.

(** ** Free variables, pool/mod.rs:386-450, as a list without repetitions. The values of a [let] are not visited. *)
Definition sv_add (l : list (string * sort)) (v : string * sort) : list (string * sort) :=
  if existsb (svar_eqb v) l then l else l ++ [v].
Definition sv_union (a b : list (string * sort)) : list (string * sort) := fold_left sv_add b a.
Definition sv_del (l vs : list (string * sort)) : list (string * sort) :=
  filter (fun v => negb (existsb (svar_eqb v) vs)) l.
Fixpoint fvars (t : term) : list (string * sort) :=
  match t with
  | TConst _ | TSort _ => []
  | TVar x s => [(x, s)]
  | TApp f args => fold_left (fun acc a => sv_union acc (fvars a)) args (fvars f)
  | TOp _ args => fold_left (fun acc a => sv_union acc (fvars a)) args []
  | TPOp _ _ args => fold_left (fun acc a => sv_union acc (fvars a)) args []
  | TBind _ vs body => sv_del (fvars body) vs
  | TLet bs body => sv_del (fvars body) (map (fun p => (fst p, sort_of (snd p))) bs)
  end.

Fixpoint no_let (t : term) : bool :=
  match t with
  | TConst _ | TSort _ | TVar _ _ => true
  | TApp f args => no_let f && forallb no_let args
  | TOp _ args | TPOp _ _ args => forallb no_let args
  | TBind _ _ body => no_let body
  | TLet _ _ => false
  end.

Lemma sv_add_In l v x : In x (sv_add l v) <-> In x l \/ x = v.
Proof.
  unfold sv_add. destruct (existsb (svar_eqb v) l) eqn:E.
  - destruct v as [y s]. apply svar_mem in E. split; [auto|intros [H| -> ]; auto].
  - rewrite in_app_iff. cbn. intuition.
Qed.
Lemma sv_union_In b : forall a x, In x (sv_union a b) <-> In x a \/ In x b.
Proof.
  unfold sv_union. induction b as [|v b IH]; intros a x; cbn [fold_left In]; [tauto|]. rewrite IH, sv_add_In. intuition.
Qed.
Lemma sv_del_In l vs x : In x (sv_del l vs) <-> In x l /\ ~ In x vs.
Proof.
  unfold sv_del. rewrite filter_In, negb_true_iff, <- not_true_iff_false. destruct x as [y s]. rewrite svar_mem. tauto.
Qed.
Lemma fvars_list_In args x : forall acc, In x (fold_left (fun acc a => sv_union acc (fvars a)) args acc) <->
  In x acc \/ exists a, In a args /\ In x (fvars a).
Proof.
  induction args as [|a args IH]; intros acc; cbn [fold_left].
  - split; [auto|intros [H|[a [[] _]]]; auto].
  - rewrite IH, sv_union_In. split.
    + intros [[H|H]|[b [Hb H]]]; [auto|right; exists a; cbn; auto|right; exists b; cbn; auto].
    + intros [H|[b [[<-|Hb] H]]]; auto. right. exists b. auto.
Qed.
(** C29: the computed set is the set of free variables, for terms without [let] *)
Theorem fvars_spec t : no_let t = true -> forall x s, In (x, s) (fvars t) <-> free_in x s t = true.
Proof.
  induction t using term_ind'; cbn [no_let fvars free_in]; intros Hn y s'.
  - split; [intros []|discriminate].
  - rewrite andb_true_iff, String.eqb_eq, sort_eqb_eq. cbn. split; [intros [H|[]]; split; congruence|intros [-> ->]; auto].
  - apply andb_true_iff in Hn. destruct Hn as [H1 H2]. rewrite fvars_list_In, orb_true_iff, existsb_exists, (IHt H1).
    rewrite Forall_forall in H. rewrite forallb_forall in H2. split; (intros [H3|[a [Ha H3]]]; [auto|right; exists a; split; auto]); apply (H a Ha); auto.
  - rewrite fvars_list_In, existsb_exists. rewrite Forall_forall in H. rewrite forallb_forall in Hn.
    split; [intros [[]|[a [Ha H3]]]; exists a; split; auto; apply (H a Ha); auto|intros [a [Ha H3]]; right; exists a; split; auto; apply (H a Ha); auto].
  - split; [intros []|discriminate].
  - rewrite sv_del_In, andb_true_iff, negb_true_iff, <- not_true_iff_false, svar_mem, (IHt Hn). tauto.
  - discriminate.
  - rewrite fvars_list_In, existsb_exists. rewrite Forall_forall in H0. rewrite forallb_forall in Hn.
    split; [intros [[]|[a [Ha H3]]]; exists a; split; auto; apply (H0 a Ha); auto|intros [a [Ha H3]]; right; exists a; split; auto; apply (H0 a Ha); auto].
Qed.
(** in general it may miss variables but never adds any *)
Theorem fvars_sub t : forall x s, In (x, s) (fvars t) -> free_in x s t = true.
Proof.
  induction t using term_ind'; cbn [fvars free_in]; intros y s'; intros HI; try (destruct HI; fail).
  - destruct HI as [HI|[]]. rewrite andb_true_iff, String.eqb_eq, sort_eqb_eq. split; congruence.
  - rewrite fvars_list_In in HI. rewrite orb_true_iff, existsb_exists. rewrite Forall_forall in H.
    destruct HI as [HI|[a [Ha HI]]]; [left; auto|right; exists a; split; auto].
  - rewrite fvars_list_In in HI. rewrite existsb_exists. rewrite Forall_forall in H. destruct HI as [[]|[a [Ha HI]]]; exists a; split; auto.
  - rewrite sv_del_In in HI. rewrite andb_true_iff, negb_true_iff, <- not_true_iff_false, svar_mem. destruct HI. split; auto.
  - rewrite sv_del_In in HI. destruct HI as [H1 H2]. rewrite orb_true_iff, andb_true_iff, negb_true_iff. right. split; [|auto].
    apply not_true_iff_false. intros Hx. apply H2. apply existsb_exists in Hx. destruct Hx as [p [Hp Hq]]. apply svar_eqb_eq in Hq.
    rewrite Hq. apply in_map_iff. exists p. auto.
  - rewrite fvars_list_In in HI. rewrite existsb_exists. rewrite Forall_forall in H0. destruct HI as [[]|[a [Ha HI]]]; exists a; split; auto.
Qed.

(** ** Substitutions, substitution.rs:36-61: an ordered map; the keys are variables *)
Definition smap : Type := list (term * term).
Definition sget (m : smap) (t : term) : option term := im_get term_eqb m t.
Definition sins (m : smap) (x t : term) : smap := im_insert term_eqb m x t.
Definition vname (t : term) : list string := match t with TVar x _ => [x] | _ => [] end.
(** 143-182 compute_should_be_renamed, and the extension in [insert], 113-125 *)
Definition sbr1 (x t : term) : list string :=
  if term_eqb x t then [] else map fst (fvars t) ++ vname x.
Definition sbr_of (m : smap) : list string := flat_map (fun p => sbr1 (fst p) (snd p)) m.
Definition smem (x : string) (l : list string) : bool := existsb (String.eqb x) l.

(** 75-95 [Substitution::new]: keys are variables, sorts agree (or the sort of the key is a sort variable) *)
Definition is_var (t : term) : bool := match t with TVar _ _ => true | _ => false end.
Definition poly_sort (s : sort) : bool := match s with SVar _ => true | _ => false end.
Definition subst_new (m : smap) : outcome smap :=
  ofor (fun p => rassert (is_var (fst p)) ;;
                 rassert (sort_eqb (sort_of (fst p)) (sort_of (snd p)) || poly_sort (sort_of (fst p)))) m ;;
  ROk m.

(** ** Renaming of binding lists, substitution.rs:337-405 *)
(** 361-370: primes are added until the name is neither one of the new names nor one to be avoided.
    Fuel: one more than the number of names to avoid is enough, see [fresh_name_some]. *)
Fixpoint fresh_name (fuel : nat) (avoid : list string) (x : string) : option string :=
  match fuel with
  | 0 => None
  | S n => if smem x avoid then fresh_name n avoid (x ++ "'")%string else Some x
  end.
Definition fresh (avoid : list string) (x : string) : string :=
  match fresh_name (S (List.length avoid)) avoid x with Some y => y | None => x end.
(** for a list of sorted variables: the new variables, the renaming and the new names *)
Fixpoint rename_vars (sb : list string) (newv : list string) (ren : smap) (vs : list (string * sort))
  : list (string * sort) * smap :=
  match vs with
  | [] => ([], ren)
  | (x, s) :: r =>
      let x' := fresh (newv ++ sb) x in
      let changed := negb (String.eqb x x') in
      let ren' := if changed then sins ren (TVar x s) (TVar x' s) else ren in
      let newv' := if changed then newv ++ [x'] else newv in
      let (r', ren'') := rename_vars sb newv' ren' r in
      ((x', s) :: r', ren'')
  end.

(** 269-296 can_skip_instead_of_renaming *)
Definition can_skip (m : smap) (sb : list string) (vs : list (string * sort)) : bool :=
  match m with
  | [(TVar x _, _)] =>
      match filter (fun v => smem (fst v) sb) vs with
      | [(y, _)] => String.eqb y x
      | _ => false
      end
  | _ => false
  end.

(** the checks on a renaming under which it is harmless; not part of the code, see [res] *)
Definition ren_var (ren : smap) (v : string * sort) : string * sort :=
  match sget ren (TVar (fst v) (snd v)) with Some (TVar y s) => (y, s) | _ => v end.
Definition ren_ok (vs vs' : list (string * sort)) (ren : smap) (inner : term) : bool :=
  list_eqb svar_eqb (map (ren_var ren) vs) vs' &&
  forallb (fun v => forallb (fun w => negb (svar_eqb (ren_var ren v) (ren_var ren w)) || svar_eqb v w) vs) vs &&
  forallb (fun p => match p with (TVar x s, TVar _ s') => sort_eqb s s' && existsb (svar_eqb (x, s)) vs | _ => false end) ren &&
  forallb (fun v => existsb (svar_eqb v) vs || negb (free_in (fst v) (snd v) inner)) vs'.
Definition skip_ok (m : smap) (vs : list (string * sort)) : bool :=
  match m with [(TVar x s, _)] => existsb (svar_eqb (x, s)) vs | _ => false end.

(** ** Substitutions with their state, substitution.rs:36-48: the map, the names to be renamed ([None]: not computed
    yet) and the cache *)
Record sub : Type := mkSub { sm : smap; sb : option (list string); sc : smap }.
Definition sub_empty : sub := mkSub [] None [].
Definition sub_of (m : smap) : sub := mkSub m None [].
(** 99-131 [insert] (the checks on sorts hold by construction of the callers): cache entries whose key has [x] free
    are dropped *)
Definition in_fvars (x : term) (t : term) : bool := match x with TVar y s => existsb (svar_eqb (y, s)) (fvars t) | _ => false end.
Definition sub_insert (S : sub) (x t : term) : sub :=
  mkSub (sins (sm S) x t)
        (match sb S with Some l => Some (l ++ sbr1 x t) | None => None end)
        (filter (fun p => negb (in_fvars x (fst p))) (sc S)).
(** 137-142 [remove]; [swap_remove] moves the last entry into the gap, which has no influence here *)
Definition srem (m : smap) (x : term) : smap := filter (fun p => negb (term_eqb x (fst p))) m.
Definition sub_remove (S : sub) (x : term) : sub :=
  match sget (sm S) x with Some _ => mkSub (srem (sm S) x) None (sc S) | None => S end.
(** 145-149 compute_should_be_renamed *)
Definition sub_names (S : sub) : list string := match sb S with Some l => l | None => sbr_of (sm S) end.
Definition with_names (S : sub) : sub := mkSub (sm S) (Some (sub_names S)) (sc S).
Definition cached (S : sub) (t r : term) : sub := mkSub (sm S) (sb S) (sins (sc S) t r).

(** ** Application, substitution.rs:185-267 and 298-335. The result is the new term, the substitution with its new state,
    and a flag that is not part of the code: it says that no renaming on the way captured anything, all skipped binders do
    bind the key, and there was no [let].
    [RErr]: out of fuel (excluded by [apply_fuel]); [RPanic]: a panic of the code. *)
Definition sres : Type := (term * sub * bool)%type.
Section Seq.
  Variable f : sub -> term -> outcome sres.
  Fixpoint apply_seq (S : sub) (l : list term) : outcome (list term * sub * bool) :=
    match l with
    | [] => ROk ([], S, true)
    | a :: r =>
        do x <- f S a ;
        let '(a', S1, ok1) := x in
        do y <- apply_seq S1 r ;
        let '(r', S2, ok2) := y in
        ROk (a' :: r', S2, ok1 && ok2)
    end.
End Seq.
Section Let.
  Variable app : sub -> term -> outcome sres.
  Variable names : list string.
  Fixpoint rename_lets (newv : list string) (R : sub) (bs : list (string * term))
    : outcome (list (string * term) * sub) :=
    match bs with
    | [] => ROk ([], R)
    | (x, v) :: r =>
        let s := sort_of v in
        let x' := fresh (newv ++ names) x in
        let changed := negb (String.eqb x x') in
        let R1 := if changed then sub_insert R (TVar x s) (TVar x' s) else R in
        let newv1 := if changed then newv ++ [x'] else newv in
        do y <- app R1 v ;
        let '(v', R2, _) := y in
        do z <- rename_lets newv1 R2 r ;
        let '(r', R3) := z in
        ROk ((x', v') :: r', R3)
    end.
End Let.

Section Body.
  (** one level of [apply], with the recursive call as a parameter *)
  Variable app : sub -> term -> outcome sres.
  Definition apply_body (S : sub) (t : term) : outcome sres :=
    match t with
    | TConst _ | TVar _ _ | TSort _ => ROk (t, S, true)
    | TApp f args =>
        do x <- apply_seq app S args ;
        let '(args', S1, ok1) := x in
        do y <- app S1 f ;
        let '(f', S2, ok2) := y in
        ROk (TApp f' args', S2, ok1 && ok2)
    | TOp o args =>
        do x <- apply_seq app S args ;
        let '(args', S1, ok) := x in ROk (TOp o args', S1, ok)
    | TPOp o oa args =>
        do x <- apply_seq app S args ;
        let '(args', S1, ok) := x in ROk (TPOp o oa args', S1, ok)
    | TBind b vs inner =>
        let names := sub_names S in
        let S0 := with_names S in
        if can_skip (sm S) names vs then ROk (t, S0, skip_ok (sm S) vs)
        else
          let (vs', ren) := rename_vars names [] [] vs in
          match ren with
          | [] =>
              do x <- app S0 inner ;
              let '(inner', S1, ok) := x in ROk (TBind b vs' inner', S1, ok)
          | _ =>
              do x <- app (sub_of ren) inner ;
              let '(inner1, _, ok1) := x in
              do y <- app S0 inner1 ;
              let '(inner2, S1, ok2) := y in
              ROk (TBind b vs' inner2, S1, ren_ok vs vs' ren inner && ok1 && ok2)
          end
    | TLet bs inner =>
        do names <- (match bs, sb S with _ :: _, None => RPanic | _, Some l => ROk l | [], None => ROk [] end) ;
        do x <- rename_lets app names [] sub_empty bs ;
        let '(bs', R) := x in
        do y <- (match sm R with [] => ROk inner | _ => do y <- app R inner ; let '(i1, _, _) := y in ROk i1 end) ;
        do z <- app S y ;
        let '(inner2, S1, _) := z in ROk (TLet bs' inner2, S1, false)
    end.
End Body.
Fixpoint apply (fuel : nat) (S : sub) (t : term) : outcome sres :=
  match fuel with
  | 0 => RErr
  | Datatypes.S n =>
      match sget (sc S) t with
      | Some r => ROk (r, S, true)
      | None =>
          match sget (sm S) t with
          | Some r => ROk (r, S, true)
          | None =>
              do x <- apply_body (apply n) S t ;
              let '(r, S1, ok) := x in ROk (r, cached S1 t r, ok)
          end
      end
  end.
(** [apply] with the fuel that suffices *)
Definition sub_apply (S : sub) (t : term) : outcome sres := apply (tsize t) S t.
(** the use in the rules: a fresh substitution applied to one term *)
Definition subst (m : smap) (t : term) : outcome term := do r <- sub_apply (sub_of m) t ; ROk (fst (fst r)).
