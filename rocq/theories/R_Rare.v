(** RARE rewrite rules: checking a [rare_rewrite] step.
    Models checker/rules/rare.rs, rare/mod.rs:10-227 and the part of ast/rare_rules.rs that describes rules.
    Simplification: a rule is given as parsed (see RareIO.v for the parser); parameters of a sort of the form
    [ParamSort] do not exist in the model. *)
From Coq Require Import List String Ascii NArith ZArith QArith Bool Arith Lia.
From Verif Require Import Base Term Field Sem Sorting Rules Utils Polyeq R_Simp Subst.
Import ListNotations.
Local Open Scope nat_scope.

(** ** Patterns, ast/rare_rules.rs RewriteTerm and the macros [pseudo_term!], [build_equation!] (112-138) *)
Inductive pat : Type :=
| PMany (o : op) (x : string)
| POp (o : op) (ps : list pat)
| PVar (x : string)
| PConst (c : const).
Inductive trace : Type := TrTerm (t : term) | TrMany (l : list term).
Definition ptrue : pat := POp OTrue [].
Definition pfalse : pat := POp OFalse [].
(** rare/mod.rs:8-16 *)
Definition get_rules : list (pat * pat) :=
  [(PMany ORareList "x", PVar "x");
   (POp OOr [ptrue], ptrue);
   (POp OOr [], ptrue);
   (POp OAnd [], pfalse);
   (POp OAnd [pfalse], pfalse)].

(** 27-69 match_meta_terms; the traces are a map from names, where a later insertion wins *)
Definition traces := list (string * trace).
Fixpoint tr_get (m : traces) (x : string) : option trace :=
  match m with [] => None | (y, t) :: r => if String.eqb x y then Some t else tr_get r x end.
Fixpoint match_meta (t : term) (p : pat) (m : traces) {struct t} : option traces :=
  match p with
  | PMany o x => match t with TOp o' l => if op_eqb o o' then Some ((x, TrMany l) :: m) else None | _ => None end
  | POp o ps =>
      match t with
      | TOp o' l =>
          if op_eqb o o' && Nat.eqb (List.length l) (List.length ps) then
            (fix go (ts : list term) (ps : list pat) (m : traces) {struct ts} : option traces :=
               match ts, ps with
               | t :: ts, p :: ps => match match_meta t p m with Some m' => go ts ps m' | None => None end
               | _, _ => Some m
               end) l ps m
          else None
      | _ => None
      end
  | PVar x => Some ((x, TrTerm t) :: m)
  | PConst c => match t with TConst c' => if const_eqb c c' then Some m else None | _ => None end
  end.
(** 71-97 reconstruct_meta_terms: [unreachable!] and [unwrap] are panics *)
Fixpoint reconstruct (p : pat) (m : traces) : outcome trace :=
  match p with
  | PMany _ _ => RPanic
  | POp o ps =>
      do l <- (fix go (ps : list pat) : outcome (list term) :=
                 match ps with
                 | [] => ROk []
                 | p :: ps => do k <- reconstruct p m ; do r <- go ps ; ROk (match k with TrTerm t => t :: r | TrMany _ => r end)
                 end) ps ;
      ROk (TrTerm (TOp o l))
  | PVar x => unwrap (tr_get m x)
  | PConst c => ROk (TrTerm (TConst c))
  end.
(** 99-112 check_rewrites: the first rule whose left-hand side matches *)
Fixpoint check_rewrites (rules : list (pat * pat)) (t : term) : outcome (option trace) :=
  match rules with
  | [] => ROk None
  | (l, r) :: rest =>
      match match_meta t l [] with
      | Some m => do k <- reconstruct r m ; ROk (Some k)
      | None => check_rewrites rest t
      end
  end.

(** ** 114-227 rewrite_meta_terms. [RErr] means that the fuel ran out, see [rewrite_total]. *)
Section Rewrite.
  Variable rules : list (pat * pat).
  Section Args.
    Variable rw : term -> outcome term.
    (** the [flat_map] over the arguments of an application or operation *)
    Fixpoint rewrite_args (l : list term) : outcome (list term) :=
      match l with
      | [] => ROk []
      | a :: r =>
          do k <- check_rewrites rules a ;
          do x <- (match k with
                   | Some (TrTerm t) => ROk [t]
                   | Some (TrMany ts) => ROk ts
                   | None => do a' <- rw a ; ROk [a']
                   end) ;
          do y <- rewrite_args r ; ROk (x ++ y)
      end.
  End Args.
  Fixpoint rewrite (fuel : nat) (t : term) : outcome term :=
    match fuel with
    | 0 => RErr
    | S n =>
        match t with
        | TVar _ _ | TConst _ | TSort _ => ROk t
        | TApp f args =>
            do f' <- rewrite n f ;
            do l <- rewrite_args (rewrite n) args ;
            let t' := TApp f' l in
            if term_eqb t' t then ROk t' else rewrite n t'
        | TOp o args =>
            do k <- check_rewrites rules t ;
            match k with
            | Some (TrTerm u) => ROk u
            | Some (TrMany _) =>
                do l <- rewrite_args (rewrite n) args ;
                let t' := TOp o l in
                if term_eqb t' t then ROk t' else rewrite n t'
            | None =>
                do l <- rewrite_args (rewrite n) args ;
                let t' := TOp o l in
                do k' <- check_rewrites rules t' ;
                match k' with Some _ => rewrite n t' | None => ROk t' end
            end
        | TBind b vs body => do body' <- rewrite n body ; ROk (TBind b vs body')
        | TLet bs body => do body' <- rewrite n body ; ROk (TLet bs body')
        | TPOp o oa args =>
            do oa' <- omap (rewrite n) oa ; do l <- omap (rewrite n) args ; ROk (TPOp o oa' l)
        end
    end.
End Rewrite.

(** ** Termination: a weight that goes down with each rewriting step *)
Fixpoint weight (t : term) : nat :=
  match t with
  | TConst _ | TVar _ _ | TSort _ => 1
  | TApp f args => S (weight f + list_sum (map weight args))
  | TOp o args =>
      match o with
      | ORareList => 3
      | OAnd | OOr => match args with [] => 2 | _ => 1 end
      | _ => 1
      end + list_sum (map weight args)
  | TBind _ _ body | TLet _ body => S (weight body)
  | TPOp _ oa args => S (list_sum (map weight oa) + list_sum (map weight args))
  end.
Definition rewrite_meta (t : term) : outcome term := rewrite get_rules (S (weight t)) t.

(** [check_rewrites] for the given rules, spelt out *)
Definition crw (t : term) : option trace :=
  match t with
  | TOp ORareList l => Some (TrMany l)
  | TOp OOr [TOp OTrue []] | TOp OOr [] => Some (TrTerm (TOp OTrue []))
  | TOp OAnd [TOp OFalse []] | TOp OAnd [] => Some (TrTerm (TOp OFalse []))
  | _ => None
  end.
Lemma check_rewrites_crw t : check_rewrites get_rules t = ROk (crw t).
Proof.
  destruct t as [c|x s|f args|o args|s|b vs body|bs body|o oa args]; try reflexivity.
  destruct o; try reflexivity; destruct args as [|[c|x s|f args1|o1 args1|s|b vs body|bs body|o1 oa args1] [|a2 r]]; try reflexivity;
    destruct o1; try reflexivity; destruct args1; reflexivity.
Qed.

Lemma weight_pos t : 1 <= weight t.
Proof. destruct t; cbn [weight]; try lia. destruct o; try lia; destruct args; lia. Qed.
Definition wsum (l : list term) : nat := list_sum (map weight l).
Lemma wsum_cons a l : wsum (a :: l) = weight a + wsum l.
Proof. reflexivity. Qed.
Lemma wsum_app a b : wsum (a ++ b) = wsum a + wsum b.
Proof. unfold wsum. rewrite map_app, list_sum_app. reflexivity. Qed.
Lemma crw_term_weight t u : crw t = Some (TrTerm u) -> weight u < weight t.
Proof.
  destruct t as [c|x s|f args|o args|s|b vs body|bs body|o oa args]; try discriminate.
  destruct o; try discriminate; destruct args as [|[c|x s|f args1|o1 args1|s|b vs body|bs body|o1 oa args1] [|a2 r]]; try discriminate;
    try (intros H; injection H as <-; cbn; lia); destruct o1; try discriminate; destruct args1; try discriminate; intros H; injection H as <-; cbn; lia.
Qed.
Lemma crw_many t l : crw t = Some (TrMany l) -> t = TOp ORareList l.
Proof.
  destruct t as [c|x s|f args|o args|s|b vs body|bs body|o oa args]; try discriminate.
  destruct o; try discriminate; try (intros H; injection H as <-; reflexivity);
   destruct args as [|[c|x s|f args1|o1 args1|s|b vs body|bs body|o1 oa args1] [|a2 r]]; try discriminate;
    destruct o1; try discriminate; destruct args1; discriminate.
Qed.
(** what a call may return: a lighter term, or the same one *)
Definition lighter (t t' : term) : Prop := t' = t \/ weight t' < weight t.
Lemma lighter_le t t' : lighter t t' -> weight t' <= weight t.
Proof. intros [-> |H]; lia. Qed.
Lemma rewrite_args_total rw l : (forall a, In a l -> exists a', rw a = ROk a' /\ lighter a a') ->
  exists l', rewrite_args get_rules rw l = ROk l' /\ (l' = l \/ wsum l' < wsum l) /\ (l' = [] -> l = [] \/ 3 <= wsum l).
Proof.
  induction l as [|a l IH]; intros H; cbn [rewrite_args].
  - exists []. auto.
  - destruct IH as [l' [-> [H1 H2]]]; [intros b Hb; apply H; right; auto|]. rewrite check_rewrites_crw. cbn [obind].
    destruct (crw a) as [[t|ts]|] eqn:E; cbn [obind].
    + exists ([t] ++ l'). split; [reflexivity|]. apply crw_term_weight in E. split; [|discriminate]. right.
      cbn [app]. rewrite !wsum_cons. destruct H1 as [-> |H1]; lia.
    + exists (ts ++ l'). split; [reflexivity|]. apply crw_many in E. subst a. split.
      * right. rewrite wsum_app, wsum_cons. cbn [weight]. fold (wsum ts). destruct H1 as [-> |H1]; lia.
      * intros _. right. rewrite wsum_cons. cbn [weight]. lia.
    + destruct (H a (or_introl eq_refl)) as [a' [-> Ha]]. cbn [obind]. exists ([a'] ++ l'). split; [reflexivity|]. split; [|discriminate].
      cbn [app]. rewrite !wsum_cons. destruct Ha as [-> |Ha]; destruct H1 as [-> |H1]; try (right; lia). left; reflexivity.
Qed.
Lemma omap_total (rw : term -> outcome term) l : (forall a, In a l -> exists a', rw a = ROk a' /\ lighter a a') ->
  exists l', omap rw l = ROk l' /\ (l' = l \/ wsum l' < wsum l).
Proof.
  induction l as [|a l IH]; intros H; cbn [omap]; [eauto|].
  destruct (H a (or_introl eq_refl)) as [a' [-> Ha]]. destruct IH as [l' [-> H1]]; [intros b Hb; apply H; right; auto|]. cbn [obind].
  exists (a' :: l'). split; [reflexivity|]. rewrite !wsum_cons. destruct Ha as [-> |Ha]; destruct H1 as [-> |H1]; try (right; lia). left; reflexivity.
Qed.
Lemma wsum_in a l : In a l -> weight a <= wsum l.
Proof. induction l as [|b l IH]; [intros []|]. intros [<-|H]; rewrite wsum_cons; [lia|apply IH in H; lia]. Qed.
Lemma op_weight o l l' : (l' = l \/ wsum l' < wsum l) -> (l' = [] -> l = [] \/ 3 <= wsum l) ->
  lighter (TOp o l) (TOp o l').
Proof.
  intros [-> |H] H2; [left; reflexivity|]. right. cbn [weight]. fold (wsum l). fold (wsum l').
  assert (H0 : wsum [] = 0) by reflexivity. destruct l' as [|x l'].
  - destruct (H2 eq_refl) as [-> |H3]; [lia|]. rewrite H0. destruct o; try lia; destruct l; lia.
  - destruct l as [|y l]; [lia|]. destruct o; lia.
Qed.
(** Rewriting returns a term, and fuel above the weight is enough. *)
Theorem rewrite_total n : forall t, weight t < n -> exists t', rewrite get_rules n t = ROk t' /\ lighter t t'.
Proof.
  induction n as [|n IH]; intros t Hn; [lia|]. destruct t as [c|x s|f args|o args|s|b vs body|bs body|o oa args]; cbn [rewrite];
    try (eexists; split; [reflexivity|left; reflexivity]).
  - cbn [weight] in Hn. fold (wsum args) in Hn. destruct (IH f) as [f' [-> Hf]]; [lia|]. cbn [obind].
    destruct (rewrite_args_total (rewrite get_rules n) args) as [l [-> [H1 H2]]].
    { intros a Ha. apply IH. apply wsum_in in Ha. lia. }
    cbn [obind]. destruct (term_eqb (TApp f' l) (TApp f args)) eqn:E.
    + apply term_eqb_eq in E. rewrite E. eexists. split; [reflexivity|left; reflexivity].
    + assert (Hw : weight (TApp f' l) < weight (TApp f args)).
      { cbn [weight]. fold (wsum l). fold (wsum args). destruct Hf as [-> |Hf]; destruct H1 as [-> |H1]; try lia.
        exfalso. rewrite (proj2 (term_eqb_eq _ _)) in E; [discriminate|reflexivity]. }
      destruct (IH (TApp f' l)) as [t' [H3 H4]]; [cbn [weight] in *; fold (wsum args) in Hw; lia|]. exists t'. split; [exact H3|]. right. apply lighter_le in H4. lia.
  - rewrite check_rewrites_crw. cbn [obind].
    assert (Hs : forall a, In a args -> weight a < n).
    { intros a Ha. apply wsum_in in Ha. cbn [weight] in Hn. fold (wsum args) in Hn. destruct o; try lia; destruct args; lia. }
    destruct (rewrite_args_total (rewrite get_rules n) args) as [l [El [H1 H2]]].
    { intros a Ha. apply IH; auto. }
    pose proof (op_weight o args l H1 H2) as Hw. destruct (crw (TOp o args)) as [[u|us]|] eqn:E.
    + exists u. split; [reflexivity|]. right. apply crw_term_weight; auto.
    + rewrite El. cbn [obind]. destruct (term_eqb (TOp o l) (TOp o args)) eqn:E2.
      * apply term_eqb_eq in E2. rewrite E2. eexists. split; [reflexivity|left; reflexivity].
      * destruct Hw as [Hw|Hw]; [rewrite (proj2 (term_eqb_eq _ _) Hw) in E2; discriminate|].
        destruct (IH (TOp o l)) as [t' [H3 H4]]; [lia|]. exists t'. split; [exact H3|]. right. apply lighter_le in H4. lia.
    + rewrite El. cbn [obind]. rewrite check_rewrites_crw. cbn [obind]. destruct (crw (TOp o l)) eqn:E2.
      * destruct Hw as [Hw|Hw]; [rewrite Hw in E2; congruence|].
        destruct (IH (TOp o l)) as [t' [H3 H4]]; [lia|]. exists t'. split; [exact H3|]. right. apply lighter_le in H4. lia.
      * eexists. split; [reflexivity|exact Hw].
  - cbn [weight] in Hn. destruct (IH body) as [b' [-> Hb]]; [lia|]. cbn [obind]. eexists. split; [reflexivity|].
    destruct Hb as [-> |Hb]; [left; reflexivity|right; cbn; lia].
  - cbn [weight] in Hn. destruct (IH body) as [b' [-> Hb]]; [lia|]. cbn [obind]. eexists. split; [reflexivity|].
    destruct Hb as [-> |Hb]; [left; reflexivity|right; cbn; lia].
  - cbn [weight] in Hn. fold (wsum oa) in Hn. fold (wsum args) in Hn.
    destruct (omap_total (rewrite get_rules n) oa) as [oa' [-> H1]]; [intros a Ha; apply IH; apply wsum_in in Ha; lia|].
    destruct (omap_total (rewrite get_rules n) args) as [l [-> H2]]; [intros a Ha; apply IH; apply wsum_in in Ha; lia|].
    cbn [obind]. eexists. split; [reflexivity|]. destruct H1 as [-> |H1]; destruct H2 as [-> |H2]; [left; reflexivity|right..];
      cbn [weight]; unfold wsum in *; lia.
Qed.
Corollary rewrite_meta_total t : exists t', rewrite_meta t = ROk t'.
Proof. destruct (rewrite_total (S (weight t)) t) as [t' [H _]]; [lia|]. eauto. Qed.

(** ** Rules, ast/rare_rules.rs:17-31. A parameter has a sort and may be a list. *)
Record rare_rule : Type := mkRare
  { rr_params : list (string * (sort * bool)); rr_args : list string; rr_prems : list term; rr_concl : term }.
Definition rare_rules := list (list N * rare_rule).
Fixpoint rare_find (rs : rare_rules) (name : list N) : option rare_rule :=
  match rs with [] => None | (n, r) :: rest => if list_eqb N.eqb name n then Some r else rare_find rest name end.
Fixpoint param_find (ps : list (string * (sort * bool))) (x : string) : option (sort * bool) :=
  match ps with [] => None | (y, p) :: rest => if String.eqb x y then Some p else param_find rest x end.

(** rare.rs:38-48: the names of the rule are paired with the arguments of the step from the right; an undeclared name
    makes the code panic *)
Fixpoint rare_map (ps : list (string * (sort * bool))) (l : list (string * term)) (m : smap) : outcome smap :=
  match l with
  | [] => ROk m
  | (x, t) :: r => do p <- unwrap (param_find ps x) ; rare_map ps r (sins m (TVar x (fst p)) t)
  end.
(** rare.rs:58-71 the premises, with one substitution for all of them *)
Fixpoint rare_prems (S : sub) (rps : list term) (ps : list clause) : outcome sub :=
  match ps with
  | [] => ROk S
  | p :: ps =>
      do t <- premise_term p ;
      match rps with
      | [] => RPanic
      | rp :: rps =>
          do x <- sub_apply S rp ;
          let '(u, S1, _) := x in
          do v <- rewrite_meta u ;
          teq t v ;; rare_prems S1 rps ps
      end
  end.
(** rare.rs:11-97 check_rare *)
Definition r_rare (rules : rare_rules) : rule := fun c ps args =>
  match args with
  | [] => RErr
  | TConst (CStr name) :: ts =>
      do r <- ok_or (rare_find rules name) ;
      rassert (Nat.eqb (List.length (rr_args r)) (List.length ts)) ;;
      rassert (Nat.eqb (List.length c) 1) ;;
      do m <- rare_map (rr_params r) (rev (combine (rr_args r) ts)) [] ;
      rassert (Nat.eqb (List.length (rr_prems r)) (List.length ps)) ;;
      do m <- subst_new m ;
      do S1 <- rare_prems (sub_of m) (rr_prems r) ps ;
      do x <- sub_apply S1 (rr_concl r) ;
      let '(got, _, _) := x in
      ofor (fun p => do t <- premise_term p ; do v <- rewrite_meta t ; teq t v) ps ;;
      do v <- rewrite_meta got ;
      do t <- idx c 0 ; teq v t
  | _ => RErr
  end.
