(** The term pool: hash consing (ast/pool/storage.rs, ast/pool/mod.rs, ast/rc.rs) and the layered pools of the
    parallel checker (ast/pool/advanced.rs). *)
From Coq Require Import List String ZArith Bool Arith Lia.
From Verif Require Import Base Term Parser.
Import ListNotations.
Local Open Scope list_scope.

(** An allocation (the address of an [Arc], ast/rc.rs:29). *)
Definition addr : Type := N.
(** A [Term] as stored in an allocation (ast/term.rs): its sub-terms are allocations. A node is given by its
    constructor with all data that is not a pointer (the label) and the pointers it contains, in order. The
    derived equality of [Term] compares labels and, since [Rc] compares by address (ast/rc.rs:42-46), the
    pointers. Sorts are terms in the pool. *)
Inductive slabel : Type :=
| LFun | LAtom (n : string) | LSVar (n : string) | LBool | LInt | LReal | LString | LRegLan | LArray | LBV (w : nat)
| LRareList | LType.
Inductive label : Type :=
| LConst (c : const) | LVar (x : string) | LApp | LOp (o : op) | LSort (s : slabel)
| LBind (b : binder) (xs : list string) | LLet (xs : list string) | LPOp (o : pop) (n_oargs : nat).
Definition node : Type := (label * list addr)%type.

Definition slabel_eqb (a b : slabel) : bool :=
  match a, b with
  | LFun, LFun | LBool, LBool | LInt, LInt | LReal, LReal | LString, LString | LRegLan, LRegLan | LArray, LArray
  | LRareList, LRareList | LType, LType => true
  | LAtom n, LAtom m | LSVar n, LSVar m => String.eqb n m
  | LBV w, LBV v => Nat.eqb w v
  | _, _ => false
  end.
Definition label_eqb (a b : label) : bool :=
  match a, b with
  | LConst c, LConst d => const_eqb c d
  | LVar x, LVar y => String.eqb x y
  | LApp, LApp => true
  | LOp o, LOp o' => op_eqb o o'
  | LSort s, LSort s' => slabel_eqb s s'
  | LBind b xs, LBind b' ys => binder_beq b b' && list_eqb String.eqb xs ys
  | LLet xs, LLet ys => list_eqb String.eqb xs ys
  | LPOp o n, LPOp o' m => pop_beq o o' && Nat.eqb n m
  | _, _ => false
  end.
Definition node_eqb (a b : node) : bool := label_eqb (fst a) (fst b) && list_eqb N.eqb (snd a) (snd b).

(** [Storage(IndexSet<ByValue>)], storage.rs:36-37: allocations with their contents; the newest first *)
Definition storage : Type := list (addr * node).
(** storage.rs:56-58 *)
Fixpoint st_get (p : storage) (n : node) : option addr :=
  match p with [] => None | (a, m) :: r => if node_eqb m n then Some a else st_get r n end.
Section Alloc.
  (** the memory allocator: an address that is not in use; entries of a pool are never freed *)
  Variable alloc : storage -> addr.
  (** storage.rs:40-54 *)
  Definition st_add (p : storage) (n : node) : storage * addr :=
    match st_get p n with Some a => (p, a) | None => let a := alloc p in ((a, n) :: p, a) end.
  (** a pool after some additions of nodes whose sub-terms are already in the pool; also covers the sorts
      added by [compute_sort] (mod.rs:354) and the variables added by [free_vars] (mod.rs:418) *)
  Inductive reach : storage -> Prop :=
  | reach_nil : reach []
  | reach_add p n : reach p -> Forall (fun c => In c (map fst p)) (snd n) -> reach (fst (st_add p n)).
  (** later pools *)
  Inductive later : storage -> storage -> Prop :=
  | later_refl p : later p p
  | later_add p q n : later p q -> Forall (fun c => In c (map fst q)) (snd n) -> later p (fst (st_add q n)).
End Alloc.

(** ** Specification: the structure an allocation represents *)
Inductive tree : Type := Node (l : label) (ts : list tree).
Section TreeInd.
  Variable P : tree -> Prop.
  Hypothesis H : forall l ts, Forall P ts -> P (Node l ts).
  Fixpoint tree_ind' (t : tree) : P t :=
    match t with Node l ts => H l ts ((fix go ts : Forall P ts :=
      match ts with [] => Forall_nil P | x :: r => Forall_cons x (tree_ind' x) (go r) end) ts) end.
End TreeInd.
Fixpoint unfold (p : storage) (a : addr) : option tree :=
  match p with
  | [] => None
  | (b, (l, cs)) :: r => if N.eqb a b then match mapo (unfold r) cs with Some ts => Some (Node l ts) | None => None end else unfold r a
  end.
(** the terms of Term.v as trees *)
Fixpoint sort_tree (s : sort) : tree :=
  match s with
  | SFun ss => Node (LSort LFun) (map sort_tree ss)
  | SAtom n ss => Node (LSort (LAtom n)) (map sort_tree ss)
  | SVar n => Node (LSort (LSVar n)) []
  | SBool => Node (LSort LBool) [] | SInt => Node (LSort LInt) [] | SReal => Node (LSort LReal) []
  | SString => Node (LSort LString) [] | SRegLan => Node (LSort LRegLan) []
  | SArray a b => Node (LSort LArray) [sort_tree a; sort_tree b]
  | SBV w => Node (LSort (LBV w)) []
  | SRareList => Node (LSort LRareList) [] | SType => Node (LSort LType) []
  end.
Fixpoint term_tree (t : term) : tree :=
  match t with
  | TConst c => Node (LConst c) []
  | TVar x s => Node (LVar x) [sort_tree s]
  | TApp f args => Node LApp (term_tree f :: map term_tree args)
  | TOp o args => Node (LOp o) (map term_tree args)
  | TSort s => sort_tree s
  | TBind b vs t => Node (LBind b (map fst vs)) (map (fun v => sort_tree (snd v)) vs ++ [term_tree t])
  | TLet bs t => Node (LLet (map fst bs)) (map (fun v => term_tree (snd v)) bs ++ [term_tree t])
  | TPOp o oargs args => Node (LPOp o (List.length oargs)) (map term_tree oargs ++ map term_tree args)
  end.
(** adding a whole term, sub-terms first *)
Section Build.
  Variable alloc : storage -> addr.
  Fixpoint build (p : storage) (t : tree) {struct t} : storage * addr :=
    match t with
    | Node l ts =>
        let pas := (fix go (p : storage) (ts : list tree) {struct ts} : storage * list addr :=
          match ts with
          | [] => (p, [])
          | t :: r => let pa := build p t in let pas := go (fst pa) r in (fst pas, snd pa :: snd pas)
          end) p ts in
        st_add alloc (fst pas) (l, snd pas)
    end.
  Fixpoint build_list (p : storage) (ts : list tree) : storage * list addr :=
    match ts with
    | [] => (p, [])
    | t :: r => let pa := build p t in let pas := build_list (fst pa) r in (fst pas, snd pa :: snd pas)
    end.
  Lemma build_node p l ts : build p (Node l ts) = st_add alloc (fst (build_list p ts)) (l, snd (build_list p ts)).
  Proof.
    cbn [build]. assert (H : forall ts p, (fix go (p : storage) (ts : list tree) {struct ts} : storage * list addr :=
          match ts with
          | [] => (p, [])
          | t :: r => let pa := build p t in let pas := go (fst pa) r in (fst pas, snd pa :: snd pas)
          end) p ts = build_list p ts).
    { induction ts0 as [|t r IH]; intros p0; [reflexivity|]. cbn [build_list]. cbv zeta. rewrite IH. reflexivity. }
    rewrite H. reflexivity.
  Qed.
End Build.

(** The structure as a relation, independent of the order of the entries. *)
Inductive denotes (p : storage) : addr -> tree -> Prop :=
| denotes_node a l cs ts : In (a, (l, cs)) p -> denotes_list p cs ts -> denotes p a (Node l ts)
with denotes_list (p : storage) : list addr -> list tree -> Prop :=
| denotes_nil : denotes_list p [] []
| denotes_cons c cs t ts : denotes p c t -> denotes_list p cs ts -> denotes_list p (c :: cs) (t :: ts).
Scheme denotes_mut := Induction for denotes Sort Prop with denotes_list_mut := Induction for denotes_list Sort Prop.

(** ** The pools of a worker thread, ast/pool/advanced.rs *)
(** [LocalPool]: the frozen global pool, the pool shared through the context, the thread's own pool *)
Record pools : Type := mkPools { p_global : storage; p_ctx : storage; p_local : storage }.
Definition p_all (ps : pools) : storage := p_local ps ++ p_ctx ps ++ p_global ps.
Section Layered.
  (** the allocator respects all layers *)
  Variable alloc : storage -> addr.
  (** [Storage::add] of one layer *)
  Definition ctx_put (ps : pools) (n : node) : pools * addr :=
    match st_get (p_ctx ps) n with
    | Some a => (ps, a)
    | None => let a := alloc (p_all ps) in (mkPools (p_global ps) ((a, n) :: p_ctx ps) (p_local ps), a)
    end.
  Definition local_put (ps : pools) (n : node) : pools * addr :=
    match st_get (p_local ps) n with
    | Some a => (ps, a)
    | None => let a := alloc (p_all ps) in (mkPools (p_global ps) (p_ctx ps) ((a, n) :: p_local ps), a)
    end.
  (** advanced.rs:41-50 [ContextPool::add], without [compute_sort] *)
  Definition ctx_add (ps : pools) (n : node) : pools * addr :=
    match st_get (p_global ps) n with Some a => (ps, a) | None => ctx_put ps n end.
  (** advanced.rs:99-111 [LocalPool::add], without [compute_sort] *)
  Definition local_add (ps : pools) (n : node) : pools * addr :=
    match st_get (p_global ps) n with
    | Some a => (ps, a)
    | None => match st_get (p_ctx ps) n with Some a => (ps, a) | None => local_put ps n end
    end.
  (** mod.rs:353: [compute_sort] of the thread's own pool adds the sort to the thread's own storage, without
      asking the other two: this is [local_put]. *)
  (** A thread's additions while the shared pool does not change; [known] are the allocations the thread has
      obtained from additions. The steps are: an addition of a node over known allocations, and the addition
      of a sort by [compute_sort]. *)
  Inductive thread (ps : pools) (known : list addr) : pools -> list addr -> Prop :=
  | thread_start : thread ps known ps known
  | thread_add qs kn n : thread ps known qs kn -> Forall (fun c => In c kn) (snd n) ->
      thread ps known (fst (local_add qs n)) (snd (local_add qs n) :: kn)
  | thread_sort qs kn n : thread ps known qs kn -> Forall (fun c => In c (map fst (p_all qs))) (snd n) ->
      thread ps known (fst (local_put qs n)) kn.
End Layered.
(** advanced.rs:115-125 [LocalPool::sort]: [global_sorts] and [local_sorts] are the sort caches *)
Definition contents (p : storage) (a : addr) : option node :=
  match find (fun e => N.eqb (fst e) a) p with Some e => Some (snd e) | None => None end.
Definition local_sort (global_sorts local_sorts : list (addr * addr)) (ps : pools) (a : addr) : outcome addr :=
  match find (fun e => N.eqb (fst e) a) global_sorts with
  | Some e => ROk (snd e)
  | None =>
      match (match contents (p_all ps) a with Some n => st_get (p_ctx ps) n | None => None end) with
      | Some b => ROk b
      | None => match find (fun e => N.eqb (fst e) a) local_sorts with Some e => ROk (snd e) | None => RPanic end
      end
  end.

(** ** Proofs *)
Lemma slabel_eqb_eq a b : slabel_eqb a b = true <-> a = b.
Proof.
  split; [|intros <-; destruct a; cbn; auto using String.eqb_refl, Nat.eqb_refl].
  destruct a, b; cbn; try congruence; intros H; try (apply String.eqb_eq in H; congruence). apply Nat.eqb_eq in H. congruence.
Qed.
Lemma label_eqb_eq a b : label_eqb a b = true <-> a = b.
Proof.
  destruct a, b; cbn [label_eqb]; try (split; congruence).
  - rewrite const_eqb_eq. split; congruence.
  - rewrite String.eqb_eq. split; congruence.
  - rewrite op_eqb_eq. split; congruence.
  - rewrite slabel_eqb_eq. split; congruence.
  - rewrite andb_true_iff, binder_eqb_eq, (list_eqb_eq String.eqb) by apply String.eqb_eq. split; [intros [-> ->]; auto|intros H; injection H; auto].
  - rewrite (list_eqb_eq String.eqb) by apply String.eqb_eq. split; congruence.
  - rewrite andb_true_iff, pop_eqb_eq, Nat.eqb_eq. split; [intros [-> ->]; auto|intros H; injection H; auto].
Qed.
Lemma node_eqb_eq a b : node_eqb a b = true <-> a = b.
Proof.
  destruct a as [l cs], b as [m ds]. unfold node_eqb. cbn [fst snd].
  rewrite andb_true_iff, label_eqb_eq, (list_eqb_eq N.eqb) by apply N.eqb_eq. split; [intros [-> ->]; auto|intros H; injection H; auto].
Qed.
Lemma st_get_In p n a : st_get p n = Some a -> In (a, n) p.
Proof.
  induction p as [|[b m] r IH]; cbn [st_get]; [discriminate|]. destruct (node_eqb m n) eqn:E; intros H.
  - apply node_eqb_eq in E. injection H as ->. subst. left. reflexivity.
  - right. auto.
Qed.
Lemma st_get_None p n : st_get p n = None -> ~ In n (map snd p).
Proof.
  induction p as [|[b m] r IH]; cbn [st_get map snd]; [intros _ []|]. destruct (node_eqb m n) eqn:E; [discriminate|].
  intros H [H1|H1]; [|exact (IH H H1)]. apply node_eqb_eq in H1. congruence.
Qed.

(** the invariant: different allocations, different contents, sub-terms allocated before *)
Inductive wf : storage -> Prop :=
| wf_nil : wf []
| wf_cons a n p : wf p -> ~ In a (map fst p) -> ~ In n (map snd p) -> Forall (fun c => In c (map fst p)) (snd n) -> wf ((a, n) :: p).

Lemma unfold_In p a : wf p -> In a (map fst p) -> exists t, unfold p a = Some t.
Proof.
  intros H. revert a. induction H as [|b [l cs] p Hp IH Hb Hn Hc]; intros a Ha; [destruct Ha|]. cbn [unfold].
  destruct (N.eqb_spec a b) as [->|Hne].
  - cbn [snd] in Hc. assert (exists ts, mapo (unfold p) cs = Some ts) as [ts Hts]; [|rewrite Hts; eauto].
    clear Hn Ha. induction Hc as [|c cs Hc Hcs IHc]; [exists []; reflexivity|]. cbn [mapo]. destruct (IH c Hc) as [t Ht]. rewrite Ht.
    destruct IHc as [ts Hts]. rewrite Hts. eauto.
  - apply IH. destruct Ha as [Ha|Ha]; [cbn in Ha; congruence|exact Ha].
Qed.
Lemma unfold_In' p a t : unfold p a = Some t -> In a (map fst p).
Proof.
  induction p as [|[b [l cs]] r IH]; cbn [unfold map fst]; [discriminate|]. destruct (N.eqb_spec a b) as [->|Hne]; [left; reflexivity|].
  intros H. right. auto.
Qed.
(** an allocation's structure: its label and the structures of its pointers *)
Lemma mapo_ext_In {A B} (f g : A -> option B) l : (forall x, In x l -> f x = g x) -> mapo f l = mapo g l.
Proof.
  induction l as [|x r IH]; intros H; [reflexivity|]. cbn [mapo]. rewrite (H x (or_introl eq_refl)), IH; auto.
  intros y Hy. apply H. right. exact Hy.
Qed.
Lemma unfold_cons a n p c : wf ((a, n) :: p) -> In c (map fst p) -> unfold ((a, n) :: p) c = unfold p c.
Proof.
  intros H Hc. inversion H; subst. cbn [unfold]. destruct n as [l cs]. destruct (N.eqb_spec c a); [subst; contradiction|reflexivity].
Qed.
Lemma unfold_entry p : wf p -> forall a l cs, In (a, (l, cs)) p ->
  unfold p a = match mapo (unfold p) cs with Some ts => Some (Node l ts) | None => None end /\ Forall (fun c => In c (map fst p)) cs.
Proof.
  intros H. induction H as [|b m p Hp IH Hb Hn Hc]; intros a l cs Hin; [destruct Hin|].
  assert (Hw : wf ((b, m) :: p)) by (constructor; auto). destruct Hin as [Hin|Hin].
  - injection Hin as -> ->. cbn [snd] in Hc. split.
    + match goal with |- context [mapo ?f cs] => rewrite (mapo_ext_In f (unfold p) cs) end;
        [cbn [unfold]; rewrite N.eqb_refl; reflexivity|].
      intros c Hin. apply unfold_cons; auto. rewrite Forall_forall in Hc. auto.
    + rewrite Forall_forall in *. intros c Hin. right. auto.
  - destruct (IH _ _ _ Hin) as [H1 H2]. rewrite unfold_cons; auto; [|apply in_map_iff; exists (a, (l, cs)); auto]. split.
    + rewrite H1. rewrite (mapo_ext_In (unfold ((b, m) :: p)) (unfold p) cs); [reflexivity|].
      intros c Hc'. apply unfold_cons; auto. rewrite Forall_forall in H2. auto.
    + rewrite Forall_forall in *. intros c Hc'. right. auto.
Qed.
Lemma mapo_inj {A B} (f : A -> option B) l : forall m ys, (forall x y b, In x l -> f x = Some b -> f y = Some b -> x = y) ->
  mapo f l = Some ys -> mapo f m = Some ys -> l = m.
Proof.
  induction l as [|x r IH]; intros [|y m] ys Hi H1 H2; cbn [mapo] in *; auto.
  - injection H1 as <-. destruct (f y); [|discriminate]. destruct (mapo f m); discriminate.
  - injection H2 as <-. destruct (f x); [|discriminate]. destruct (mapo f r); discriminate.
  - destruct (f x) as [a|] eqn:Ex; [|discriminate]. destruct (mapo f r) as [as_|] eqn:Er; [|discriminate]. injection H1 as <-.
    destruct (f y) as [b|] eqn:Ey; [|discriminate]. destruct (mapo f m) as [bs|] eqn:Em; [|discriminate]. injection H2 as -> ->.
    rewrite (Hi x y a); auto; [|left; reflexivity]. f_equal. apply (IH m as_); auto. intros u v c Hu. apply Hi. right. exact Hu.
Qed.
(** hash consing: equal structures, equal allocations *)
Theorem unfold_inj p : wf p -> forall a b t, unfold p a = Some t -> unfold p b = Some t -> a = b.
Proof.
  intros H. induction H as [|x [l cs] p Hp IH Hx Hn Hc]; intros a b t Ha Hb; [discriminate|].
  assert (Hw : wf ((x, (l, cs)) :: p)) by (constructor; auto).
  (* the new entry against an old one *)
  assert (Key : forall c t, unfold ((x, (l, cs)) :: p) x = Some t -> unfold p c = Some t -> False).
  { intros c t' H1 H2. cbn [unfold] in H1. rewrite N.eqb_refl in H1. destruct (mapo (unfold p) cs) as [ts|] eqn:Ets; [|discriminate].
    injection H1 as <-. pose proof (unfold_In' _ _ _ H2) as Hin. apply in_map_iff in Hin. destruct Hin as [[c' [m ds]] [Hc' Hin]].
    cbn in Hc'. subst c'. destruct (unfold_entry p Hp c m ds Hin) as [Hu _]. rewrite Hu in H2.
    destruct (mapo (unfold p) ds) as [us|] eqn:Eus; [|discriminate]. injection H2 as -> ->.
    apply Hn. apply in_map_iff. exists (c, (l, cs)). split; [reflexivity|].
    rewrite (mapo_inj (unfold p) cs ds ts); auto. intros u v w _. apply IH. }
  destruct (N.eq_dec a x) as [->|Hax], (N.eq_dec b x) as [->|Hbx]; auto.
  - exfalso. apply (Key b t); auto. cbn [unfold] in Hb. destruct (N.eqb_spec b x); [congruence|exact Hb].
  - exfalso. apply (Key a t); auto. cbn [unfold] in Ha. destruct (N.eqb_spec a x); [congruence|exact Ha].
  - cbn [unfold] in Ha, Hb. destruct (N.eqb_spec a x); [congruence|]. destruct (N.eqb_spec b x); [congruence|]. eapply IH; eauto.
Qed.

Lemma denotes_unfold p : wf p -> forall a t, denotes p a t <-> unfold p a = Some t.
Proof.
  intros Hw a t. split.
  - intros H. apply (denotes_mut p (fun a t _ => unfold p a = Some t) (fun cs ts _ => mapo (unfold p) cs = Some ts)); try exact H.
    + intros b l cs ts Hin _ IH. destruct (unfold_entry p Hw _ _ _ Hin) as [Hu _]. rewrite Hu, IH. reflexivity.
    + reflexivity.
    + intros c cs u us _ IH1 _ IH2. cbn [mapo]. rewrite IH1, IH2. reflexivity.
  - revert a. induction t as [l ts IH] using tree_ind'. intros a Ha. pose proof (unfold_In' _ _ _ Ha) as Hin.
    apply in_map_iff in Hin. destruct Hin as [[a' [m cs]] [E Hin]]. cbn in E. subst a'.
    destruct (unfold_entry p Hw _ _ _ Hin) as [Hu _]. rewrite Hu in Ha. destruct (mapo (unfold p) cs) as [us|] eqn:Ec; [|discriminate].
    injection Ha as -> ->. apply (denotes_node p a l cs ts Hin). clear Hu Hin. revert cs Ec.
    induction IH as [|t ts Ht Hts IHts]; intros [|c cs] Ec; cbn [mapo] in Ec; try discriminate.
    + constructor.
    + destruct (unfold p c); [|discriminate]. destruct (mapo (unfold p) cs); discriminate.
    + destruct (unfold p c) eqn:E1; [|discriminate]. destruct (mapo (unfold p) cs) eqn:E2; [|discriminate]. injection Ec as -> ->.
      constructor; auto.
Qed.

Section Pool.
  Variable alloc : storage -> addr.
  Hypothesis alloc_fresh : forall p, ~ In (alloc p) (map fst p).
  Lemma st_add_wf p n : wf p -> Forall (fun c => In c (map fst p)) (snd n) -> wf (fst (st_add alloc p n)).
  Proof.
    intros Hp Hn. unfold st_add. destruct (st_get p n) eqn:E; [exact Hp|]. cbn [fst]. constructor; auto. apply st_get_None. exact E.
  Qed.
  Lemma reach_wf p : reach alloc p -> wf p.
  Proof. induction 1; [constructor|apply st_add_wf; auto]. Qed.
  (** adding returns an allocation with the contents; earlier allocations keep theirs *)
  Lemma st_add_spec p n : In (snd (st_add alloc p n), n) (fst (st_add alloc p n)).
  Proof. unfold st_add. destruct (st_get p n) eqn:E; cbn [fst snd]; [apply st_get_In; exact E|left; reflexivity]. Qed.
  Lemma st_add_keeps p n a t : wf p -> Forall (fun c => In c (map fst p)) (snd n) -> unfold p a = Some t ->
    unfold (fst (st_add alloc p n)) a = Some t.
  Proof.
    intros Hp Hn Ha. unfold st_add. destruct (st_get p n) eqn:E; cbn [fst]; [exact Ha|].
    rewrite unfold_cons; auto; [|eapply unfold_In'; eauto]. constructor; auto. apply st_get_None. exact E.
  Qed.
  Lemma later_wf p q : later alloc p q -> wf p -> wf q /\ forall a t, unfold p a = Some t -> unfold q a = Some t.
  Proof.
    induction 1 as [p|p q n H IH Hn]; intros Hp; [auto|]. destruct (IH Hp) as [Hq Hk]. split; [apply st_add_wf; auto|].
    intros a t Ha. apply st_add_keeps; auto.
  Qed.
  Lemma later_trans p q r : later alloc p q -> later alloc q r -> later alloc p r.
  Proof. intros H1 H2. induction H2; auto. constructor; auto. Qed.
  Lemma reach_later p q : reach alloc p -> later alloc p q -> reach alloc q.
  Proof. intros Hp H. induction H; auto. apply reach_add; auto. Qed.
  Lemma build_spec t : forall p, wf p -> later alloc p (fst (build alloc p t)) /\
    unfold (fst (build alloc p t)) (snd (build alloc p t)) = Some t.
  Proof.
    induction t as [l ts IH] using tree_ind'. intros p Hp. rewrite build_node.
    assert (H : forall p, wf p -> later alloc p (fst (build_list alloc p ts)) /\
      mapo (unfold (fst (build_list alloc p ts))) (snd (build_list alloc p ts)) = Some ts).
    { clear p Hp. induction IH as [|t ts Ht Hts IHts]; intros p Hp; [split; [constructor|reflexivity]|]. cbn [build_list]. cbv zeta.
      destruct (Ht p Hp) as [H1 H2]. pose proof (later_wf _ _ H1 Hp) as [Hw _]. destruct (IHts _ Hw) as [H3 H4]. cbn [fst snd].
      split; [eapply later_trans; eauto|]. cbn [mapo]. destruct (later_wf _ _ H3 Hw) as [_ Hk]. rewrite (Hk _ _ H2), H4. reflexivity. }
    destruct (H p Hp) as [H1 H2]. destruct (later_wf _ _ H1 Hp) as [Hw _].
    set (q := fst (build_list alloc p ts)) in *. set (cs := snd (build_list alloc p ts)) in *.
    assert (Hcs : Forall (fun c => In c (map fst q)) cs).
    { clearbody q cs. clear - H2. revert ts H2. induction cs as [|c cs IH]; intros ts H; [constructor|]. cbn [mapo] in H.
      destruct (unfold q c) eqn:E; [|discriminate]. destruct (mapo (unfold q) cs) eqn:Ec; [|discriminate].
      constructor; [eapply unfold_In'; eauto|eapply IH; eauto]. }
    split; [constructor; auto|].
    destruct (unfold_entry _ (st_add_wf q (l, cs) Hw Hcs) _ _ _ (st_add_spec q (l, cs))) as [Hu _]. rewrite Hu.
    assert (E : mapo (unfold (fst (st_add alloc q (l, cs)))) cs = Some ts); [|rewrite E; reflexivity].
    rewrite <- H2. apply mapo_ext_In. intros c Hc. rewrite Forall_forall in Hcs. destruct (unfold_In q c Hw (Hcs c Hc)) as [t Ht].
    rewrite Ht. apply st_add_keeps; auto. rewrite Forall_forall. exact Hcs.
  Qed.
  (** adding [t], doing anything else, adding [u]: the same allocation iff [t] and [u] have the same structure *)
  Theorem build_iff p t u q : reach alloc p -> later alloc (fst (build alloc p t)) q ->
    (snd (build alloc p t) = snd (build alloc q u) <-> t = u).
  Proof.
    intros Hp Hl. pose proof (reach_wf _ Hp) as Hw. destruct (build_spec t p Hw) as [H1 H2].
    destruct (later_wf _ _ H1 Hw) as [Hw1 _]. destruct (later_wf _ _ Hl Hw1) as [Hw2 Hk2].
    destruct (build_spec u q Hw2) as [H3 H4]. destruct (later_wf _ _ H3 Hw2) as [Hw3 Hk3].
    pose proof (Hk3 _ _ (Hk2 _ _ H2)) as H5. split; intros He.
    - rewrite He in H5. congruence.
    - subst u. eapply unfold_inj; [exact Hw3| |]; eauto.
  Qed.

  (** ** Layers *)
  Lemma st_get_app p q n : st_get (p ++ q) n = match st_get p n with Some a => Some a | None => st_get q n end.
  Proof. induction p as [|[a m] r IH]; cbn [st_get app]; [reflexivity|]. destruct (node_eqb m n); auto. Qed.
  (** the order in which [LocalPool::add] looks a node up *)
  Definition lookup (ps : pools) : node -> option addr := st_get (p_global ps ++ p_ctx ps ++ p_local ps).
  (** [q]: the canonical allocations *)
  Definition canon (ps : pools) (q : storage) : Prop :=
    NoDup (map fst (p_all ps)) /\ wf q /\ (forall a n, In (a, n) q -> lookup ps n = Some a).
  Lemma in_all ps e : In e (p_all ps) <-> In e (p_local ps) \/ In e (p_ctx ps) \/ In e (p_global ps).
  Proof. unfold p_all. rewrite !in_app_iff. tauto. Qed.
  Lemma lookup_In ps n a : lookup ps n = Some a -> In (a, n) (p_all ps).
  Proof. unfold lookup. intros H. apply st_get_In in H. rewrite in_all. rewrite !in_app_iff in H. tauto. Qed.
  Lemma lookup_put ps n m a : lookup ps m = Some a -> lookup (fst (local_put alloc ps n)) m = Some a.
  Proof.
    unfold local_put. destruct (st_get (p_local ps) n) eqn:E; [auto|]. unfold lookup. cbn [fst p_global p_ctx p_local].
    rewrite !st_get_app. destruct (st_get (p_global ps) m); auto. destruct (st_get (p_ctx ps) m); auto. cbn [st_get].
    destruct (node_eqb n m) eqn:En; auto. apply node_eqb_eq in En. subst. congruence.
  Qed.
  Lemma local_add_put ps n : (lookup ps n = Some (snd (local_add alloc ps n)) /\ fst (local_add alloc ps n) = ps) \/
    local_add alloc ps n = local_put alloc ps n.
  Proof.
    unfold local_add, lookup. rewrite !st_get_app. destruct (st_get (p_global ps) n); [left; auto|].
    destruct (st_get (p_ctx ps) n); [left; auto|]. right. reflexivity.
  Qed.
  Lemma lookup_add ps n : lookup (fst (local_add alloc ps n)) n = Some (snd (local_add alloc ps n)).
  Proof.
    unfold local_add, lookup, local_put. destruct (st_get (p_global ps) n) eqn:Eg; [cbn [fst snd]; rewrite !st_get_app, Eg; reflexivity|].
    destruct (st_get (p_ctx ps) n) eqn:Ec; [cbn [fst snd]; rewrite !st_get_app, Eg, Ec; reflexivity|].
    destruct (st_get (p_local ps) n) eqn:El; cbn [fst snd p_global p_ctx p_local]; rewrite !st_get_app, Eg, Ec; [exact El|].
    cbn [st_get]. rewrite (proj2 (node_eqb_eq n n) eq_refl). reflexivity.
  Qed.
  Lemma put_nodup ps n : NoDup (map fst (p_all ps)) -> NoDup (map fst (p_all (fst (local_put alloc ps n)))).
  Proof.
    intros H. unfold local_put. destruct (st_get (p_local ps) n); [exact H|]. unfold p_all at 1. cbn [fst p_global p_ctx p_local app map].
    constructor; [apply alloc_fresh|exact H].
  Qed.
  Lemma put_canon ps q n : canon ps q -> canon (fst (local_put alloc ps n)) q.
  Proof. intros [H1 [H2 H3]]. split; [apply put_nodup; auto|]. split; auto. intros a m Hin. apply lookup_put. auto. Qed.
  Lemma nodup_fst {A B} (l : list (A * B)) : NoDup (map fst l) -> forall a x y, In (a, x) l -> In (a, y) l -> x = y.
  Proof.
    induction l as [|[b z] r IH]; intros H a x y Hx Hy; [destruct Hx|]. cbn in H. apply NoDup_cons_iff in H. destruct H as [Hb H].
    assert (K : forall w, ~ In (b, w) r) by (intros w Hin; apply Hb; apply in_map_iff; exists (b, w); auto).
    destruct Hx as [Hx|Hx], Hy as [Hy|Hy].
    - congruence.
    - injection Hx as -> ->. exfalso. exact (K _ Hy).
    - injection Hy as -> ->. exfalso. exact (K _ Hx).
    - eauto.
  Qed.
  Lemma canon_extend ps q n a : canon ps q -> lookup ps n = Some a -> Forall (fun c => In c (map fst q)) (snd n) ->
    exists q', canon ps q' /\ In a (map fst q') /\ incl (map fst q) (map fst q').
  Proof.
    intros [H1 [H2 H3]] Hl Hn. destruct (in_dec N.eq_dec a (map fst q)) as [Ha|Ha].
    - exists q. split; [split; auto|]. split; auto. apply incl_refl.
    - exists ((a, n) :: q). split.
      + split; auto. split.
        * constructor; auto. intros Hin. apply in_map_iff in Hin. destruct Hin as [[b m] [Hm Hin]]. cbn in Hm. subst m.
          pose proof (H3 _ _ Hin) as Hb. apply Ha. apply in_map_iff. exists (b, n). split; [cbn; congruence|exact Hin].
        * intros b m [Hin|Hin]; [injection Hin as <- <-; exact Hl|auto].
      + split; [left; reflexivity|]. intros x Hx. right. exact Hx.
  Qed.
  Lemma thread_canon ps kn qs kn' : thread alloc ps kn qs kn' ->
    (exists q, canon ps q /\ incl kn (map fst q)) -> exists q, canon qs q /\ incl kn' (map fst q).
  Proof.
    induction 1 as [|qs kn' n H IH Hn|qs kn' n H IH Hn]; intros H0; auto; destruct (IH H0) as [q [Hq Hk]].
    - assert (Hq' : canon (fst (local_add alloc qs n)) q).
      { destruct (local_add_put qs n) as [[_ ->]| ->]; [exact Hq|apply put_canon; exact Hq]. }
      destruct (canon_extend _ q n _ Hq' (lookup_add qs n)) as [q' [H1 [H2 H3]]].
      { rewrite Forall_forall in *. intros c Hc. apply Hk. auto. }
      exists q'. split; auto. intros x [<-|Hx]; auto.
    - exists q. split; auto. apply put_canon. exact Hq.
  Qed.
  Lemma canon_denotes ps q a t : canon ps q -> In a (map fst q) -> denotes (p_all ps) a t -> unfold q a = Some t.
  Proof.
    intros [H1 [H2 H3]]. intros Ha Hd. revert Ha.
    apply (denotes_mut (p_all ps) (fun a t _ => In a (map fst q) -> unfold q a = Some t)
      (fun cs ts _ => Forall (fun c => In c (map fst q)) cs -> mapo (unfold q) cs = Some ts)); try assumption.
    - intros b l cs ts Hin _ IH Hb. apply in_map_iff in Hb. destruct Hb as [[b' [l' cs']] [Eb Hb]]. cbn in Eb. subst b'.
      pose proof (lookup_In _ _ _ (H3 _ _ Hb)) as Hin'. pose proof (nodup_fst _ H1 _ _ _ Hin Hin') as E. injection E as <- <-.
      destruct (unfold_entry q H2 _ _ _ Hb) as [Hu Hc]. rewrite Hu, (IH Hc). reflexivity.
    - reflexivity.
    - intros c cs t0 ts _ IH1 _ IH2 Hf. inversion Hf; subst. cbn [mapo]. rewrite IH1, IH2; auto.
  Qed.
  (** the allocations a thread obtains are equal when they have the same structure *)
  Theorem thread_inj ps kn qs kn' a b t : thread alloc ps kn qs kn' -> (exists q, canon ps q /\ incl kn (map fst q)) ->
    In a kn' -> In b kn' -> denotes (p_all qs) a t -> denotes (p_all qs) b t -> a = b.
  Proof.
    intros H H0 Ha Hb Da Db. destruct (thread_canon _ _ _ _ H H0) as [q [Hq Hk]].
    eapply unfold_inj; [exact (proj1 (proj2 Hq))| |]; eapply canon_denotes; eauto.
  Qed.
  Lemma wf_nodup p : wf p -> NoDup (map fst p).
  Proof. induction 1; cbn [map fst]; constructor; auto. Qed.
  Lemma wf_get p : wf p -> forall a n, In (a, n) p -> st_get p n = Some a.
  Proof.
    induction 1 as [|x m p Hp IH Hx Hm Hc]; intros a n Hin; [destruct Hin|]. cbn [st_get]. destruct Hin as [Hin|Hin].
    - injection Hin as -> ->. rewrite (proj2 (node_eqb_eq n n) eq_refl). reflexivity.
    - destruct (node_eqb m n) eqn:E; [|auto]. apply node_eqb_eq in E. subst. exfalso. apply Hm. apply in_map_iff. exists (a, n). auto.
  Qed.
  (** a thread starts with its own pool empty *)
  Lemma start_canon g : reach alloc g -> canon (mkPools g [] []) g.
  Proof.
    intros H. pose proof (reach_wf _ H) as Hw. split; [unfold p_all; cbn; apply wf_nodup; auto|]. split; auto.
    intros a n Hin. unfold lookup. cbn [p_global p_ctx p_local app]. rewrite app_nil_r. apply wf_get; auto.
  Qed.
End Pool.

(** ** Trees identify terms *)
Lemma map_inj_Forall {A B} (f : A -> B) l : Forall (fun x => forall y, f x = f y -> x = y) l -> forall m, map f l = map f m -> l = m.
Proof.
  induction 1 as [|x r Hx Hr IH]; intros [|y m] H; try discriminate; auto. cbn in H. injection H as H1 H2. f_equal; auto.
Qed.
Lemma sort_tree_inj s : forall s', sort_tree s = sort_tree s' -> s = s'.
Proof.
  induction s using sort_ind'; intros s' He; destruct s'; cbn in He; try discriminate; auto; injection He; intros; subst; auto.
  - f_equal. apply (map_inj_Forall sort_tree); auto.
  - f_equal. apply (map_inj_Forall sort_tree); auto.
  - f_equal; auto.
Qed.
Lemma sort_tree_label s : exists l ts, sort_tree s = Node (LSort l) ts.
Proof. destruct s; cbn; eauto. Qed.
Lemma app_inj_len {A} (a b c d : list A) : List.length a = List.length c -> a ++ b = c ++ d -> a = c /\ b = d.
Proof.
  revert c. induction a as [|x a IH]; intros [|y c] Hl H; try discriminate; auto. cbn in Hl, H. injection H as -> H.
  destruct (IH c) as [-> ->]; auto.
Qed.
Lemma term_tree_inj t : forall u, term_tree t = term_tree u -> t = u.
Proof.
  induction t as [c|x s|f args IHf IHargs|o args IHargs|s|b vs t IHt|bs t IHbs IHt|o oargs args IHo IHargs] using term_ind'; intros u He;
    destruct u as [c'|x' s'|f' args'|o' args'|s'|b' vs' t'|bs' t'|o' oargs' args']; cbn [term_tree] in He;
    try discriminate He;
    try (destruct (sort_tree_label s) as [? [? Hs]]; rewrite Hs in He; discriminate He);
    try (destruct (sort_tree_label s') as [? [? Hs]]; rewrite Hs in He; discriminate He).
  - congruence.
  - injection He as -> He. apply sort_tree_inj in He. congruence.
  - injection He as H1 H2. f_equal; [apply IHf; auto|]. apply (map_inj_Forall term_tree); auto.
  - injection He as -> H2. f_equal. apply (map_inj_Forall term_tree); auto.
  - f_equal. apply sort_tree_inj; auto.
  - injection He as -> H1 H2. apply app_inj_tail in H2. destruct H2 as [H2 H3]. rewrite (IHt _ H3). f_equal.
    revert vs' H1 H2. induction vs as [|[x s] r IH]; intros [|[x' s'] r'] H1 H2; try discriminate; auto.
    cbn in H1, H2. injection H1 as -> H1. injection H2 as H2 H2'. apply sort_tree_inj in H2. subst. f_equal. auto.
  - injection He as H1 H2. apply app_inj_tail in H2. destruct H2 as [H2 H3]. rewrite (IHt _ H3). f_equal. clear IHt H3.
    revert bs' H1 H2. induction IHbs as [|[x s] r Hx Hr IH]; intros [|[x' s'] r'] H1 H2; try discriminate; auto.
    cbn in H1, H2. injection H1 as -> H1. injection H2 as H2 H2'. cbn in Hx. rewrite (Hx _ H2). f_equal. auto.
  - injection He as -> H1 H2. assert (H3 : map term_tree oargs = map term_tree oargs' /\ map term_tree args = map term_tree args').
    { apply app_inj_len; auto. rewrite !map_length. exact H1. }
    destruct H3 as [H3 H4]. f_equal; apply (map_inj_Forall term_tree); auto.
Qed.
