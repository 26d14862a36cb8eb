(** Elaboration of subproof steps, elaborator/subproof.rs, on node graphs with ids; ids of the derivations of polyequal terms (elaborator/polyeq.rs). *)
From Coq Require Import List String ZArith Bool Arith Lia.
From Verif Require Import Base Term Rules R_Taut R_Eq R_Resolution R_ResExact Utils Polyeq Checker Table Elab ElabPolyeq ElabPolyeqSound ElabUncrowdSound Nodes ElabIds ElabSolver ElabSolverSound.
Import ListNotations.
Local Open Scope string_scope.
Local Open Scope nat_scope.
Local Open Scope list_scope.

(** The nodes of a derivation, with their ids and depths: a step takes the next id after its premises (polyeq.rs:66-76, 242-250, 286-318, 416-431); the steps
    of a new subproof are numbered after [ids.push()], its last step is numbered after [ids.pop()] (polyeq.rs:332-346, 91-119, 175-204).  [k] is the first
    unused address.  Simplification: a derivation used twice is copied, see [seen] in ElabPolyeq.v. *)
Fixpoint label (e : enode) (h : idhelper) (d k : nat) : outcome (pnode * (idhelper * nat)) :=
  let labels := fix go (l : list enode) (h : idhelper) (k : nat) : outcome (list pnode * (idhelper * nat)) :=
    match l with
    | [] => ROk ([], (h, k))
    | e :: r => do x <- label e h d k ; do y <- go r (fst (snd x)) (snd (snd x)) ; ROk (fst x :: fst y, snd y)
    end in
  match e with
  | EPrem _ => RErr
  | EStep c r ps args =>
      do x <- labels ps h k ; do y <- ih_next (fst (snd x)) ;
      ROk (PStep (snd (snd x)) (fst y) d c r (fst x) args [] None, (snd y, S (snd (snd x))))
  | ESub a c r ps args prev =>
      do x <- labels ps h k ;
      do z <- label prev (ih_push (fst (snd x))) (S d) (snd (snd x)) ;
      do h' <- ih_pop (fst (snd z)) ; do y <- ih_next h' ;
      let k' := snd (snd z) in
      ROk (PSub (S k') (PStep k' (fst y) (S d) c r (fst x) args [] (Some (fst z))) a (fst x) [], (snd y, S (S k')))
  end.
Fixpoint labels (l : list enode) (h : idhelper) (d k : nat) : outcome (list pnode * (idhelper * nat)) :=
  match l with
  | [] => ROk ([], (h, k))
  | e :: r => do x <- label e h d k ; do y <- labels r (fst (snd x)) d (snd (snd x)) ; ROk (fst x :: fst y, snd y)
  end.
Lemma label_step c r ps args h d k : label (EStep c r ps args) h d k =
  do x <- labels ps h d k ; do y <- ih_next (fst (snd x)) ;
  ROk (PStep (snd (snd x)) (fst y) d c r (fst x) args [] None, (snd y, S (snd (snd x)))).
Proof.
  cbn [label]. f_equal. revert h k. induction ps as [|e r' IH]; intros h k; cbn [labels]; [reflexivity|].
  destruct (label e h d k) as [x| |]; cbn [obind]; try reflexivity. rewrite IH. reflexivity.
Qed.
Lemma label_sub a c r ps args prev h d k : label (ESub a c r ps args prev) h d k =
  do x <- labels ps h d k ;
  do z <- label prev (ih_push (fst (snd x))) (S d) (snd (snd x)) ;
  do h' <- ih_pop (fst (snd z)) ; do y <- ih_next h' ;
  let k' := snd (snd z) in
  ROk (PSub (S k') (PStep k' (fst y) (S d) c r (fst x) args [] (Some (fst z))) a (fst x) [], (snd y, S (S k'))).
Proof.
  cbn [label]. f_equal. revert h k. induction ps as [|e r' IH]; intros h k; cbn [labels]; [reflexivity|].
  destruct (label e h d k) as [x| |]; cbn [obind]; try reflexivity. rewrite IH. reflexivity.
Qed.

Section Subproof.
  (** see ElabPolyeq.v *)
  Variable seen : nat -> term -> term -> bool.
  (** subproof.rs:4-50; [k] is the first unused address *)
  Definition elab_subproof (k : nat) (n : pnode) : outcome pnode :=
    match n with
    | PStep a id d cl r ps args ds prev =>
        do p <- unwrap prev ;
        match p with
        | PStep _ _ _ [previous] _ _ _ _ _ =>
            do last_term <- unwrap (nth_error cl (List.length cl - 1)) ;
            if term_eqb last_term previous then ROk n
            else
              do e <- pelab seen d previous last_term ;
              do x <- label e (ih_new id) d k ;
              let k' := snd (snd x) in
              do y <- ih_next (fst (snd x)) ;
              do z <- ih_next (snd y) ;
              let equiv1_step := PStep k' (fst y) d [tNot previous; last_term] "equiv1" [fst x] [] [] None in
              let resolution_step := PStep (S k') (fst z) d [last_term] "resolution" [equiv1_step; p] [previous; tFalse] [] None in
              ROk (PStep (S (S k')) id d cl r ps args ds (Some resolution_step))
        | PStep _ _ _ _ _ _ _ _ _ => ROk n
        | _ => RPanic
        end
    | _ => ROk n
    end.
  (** the elaborated subproof *)
  Definition elab_subproof_node (k : nat) (n : pnode) : outcome pnode :=
    match n with
    | PSub a l args out extra => do l' <- elab_subproof k l ; ROk (PSub a l' args out extra)
    | _ => ROk n
    end.
End Subproof.

(** ** The labelled derivation is accepted *)
Section Enode_ind.
  Variable P : enode -> Prop.
  Hypothesis H1 : forall c, P (EPrem c).
  Hypothesis H2 : forall c r ps args, Forall P ps -> P (EStep c r ps args).
  Hypothesis H3 : forall a c r ps args prev, Forall P ps -> P prev -> P (ESub a c r ps args prev).
  Fixpoint enode_ind2 (e : enode) : P e :=
    let go := fix go (l : list enode) : Forall P l := match l with [] => Forall_nil _ | y :: r => Forall_cons _ (enode_ind2 y) (go r) end in
    match e with
    | EPrem c => H1 c
    | EStep c r ps args => H2 c r ps args (go ps)
    | ESub a c r ps args prev => H3 a c r ps args prev (go ps) (enode_ind2 prev)
    end.
End Enode_ind.
(** no assumption below the node *)
Definition no_assume (n : pnode) : Prop := forall x, In x (subnodes n) -> match x with PAssume _ _ _ _ => False | _ => True end.
Section Label.
  Variable other : bool -> string -> crule.
  Notation T := (rule_table other true).
  Definition labelled (e : enode) (root : string) (st : list nat) (i d k : nat) : Prop :=
    exists n j k', label e (mkIH root (st ++ [i])) d k = ROk (n, (mkIH root (st ++ [j]), k')) /\ i < j /\ k < k' /\ pdepth n = d /\ pclause n = eclause e /\ no_assume n /\
      (forall x, In x (subnodes n) -> k <= paddr x < k') /\ forall cx, List.length cx = d -> accepted other cx e -> gok T cx n.
  Definition labelled_list (l : list enode) (root : string) (st : list nat) (i d k : nat) : Prop :=
    exists ns j k', labels l (mkIH root (st ++ [i])) d k = ROk (ns, (mkIH root (st ++ [j]), k')) /\ i <= j /\ k <= k' /\ Forall (fun n => pdepth n = d) ns /\
      map pclause ns = map eclause l /\ Forall no_assume ns /\
      (forall x, In x (flat_map subnodes ns) -> k <= paddr x < k') /\ forall cx, List.length cx = d -> Forall (accepted other cx) l -> Forall (gok T cx) ns.
  Lemma labels_ok l : Forall (fun e => eprems e = [] -> forall root st i d k, labelled e root st i d k) l -> flat_map eprems l = [] ->
    forall root st i d k, labelled_list l root st i d k.
  Proof.
    induction 1 as [|e l He _ IH]; intros Hp root st i d k.
    - exists [], i, k. cbn. repeat split; auto; try lia; try contradiction.
    - cbn [flat_map] in Hp. apply app_eq_nil in Hp. destruct Hp as [Hp1 Hp2].
      destruct (He Hp1 root st i d k) as (n & j & k1 & E1 & L1 & L2 & D1 & C1 & A1 & R1 & G1).
      destruct (IH Hp2 root st j d k1) as (ns & j' & k2 & E2 & M1 & M2 & D2 & C2 & A2 & R2 & G2).
      exists (n :: ns), j', k2. cbn [labels]. rewrite E1. cbn [obind fst snd]. rewrite E2. cbn [obind fst snd]. split; [reflexivity|]. split; [lia|]. split; [lia|].
      split; [constructor; auto|]. split; [cbn [map]; rewrite C1, C2; reflexivity|]. split; [constructor; auto|]. split.
      + intros x Hx. cbn [flat_map] in Hx. apply in_app_or in Hx. destruct Hx as [Hx|Hx]; [apply R1 in Hx|apply R2 in Hx]; lia.
      + intros cx Hc Ha. apply Forall_cons_iff in Ha. destruct Ha as [Ha Hl]. constructor; auto.
  Qed.
  Lemma fold_and l : Forall (fun p : Prop => p) l -> fold_right and True l.
  Proof. induction 1; cbn; auto. Qed.
  Lemma gok_prems cx d (ns : list pnode) : Forall (fun n => pdepth n = d) ns -> Forall (gok T cx) ns -> fold_right and True (map (fun p => gok T (skipn (d - pdepth p) cx) p) ns).
  Proof.
    intros H1 H2. apply fold_and, Forall_forall. intros q Hq. apply in_map_iff in Hq. destruct Hq as (x & <- & Hx). rewrite Forall_forall in H1, H2. rewrite (H1 x Hx), Nat.sub_diag. apply H2, Hx.
  Qed.
  Lemma gok_prems_out cx a d (ns : list pnode) : Forall (fun n => pdepth n = d) ns -> Forall (gok T cx) ns -> fold_right and True (map (fun p => gok T (skipn (S d - pdepth p) (a :: cx)) p) ns).
  Proof.
    intros H1 H2. apply fold_and, Forall_forall. intros q Hq. apply in_map_iff in Hq. destruct Hq as (x & <- & Hx). rewrite Forall_forall in H1, H2. rewrite (H1 x Hx).
    replace (S d - d) with 1 by lia. apply H2, Hx.
  Qed.
  Lemma label_ok e : eprems e = [] -> forall root st i d k, labelled e root st i d k.
  Proof.
    induction e as [c|c r ps args IH|a c r ps args prev IH IHp] using enode_ind2; intros Hp root st i d k.
    - discriminate.
    - cbn [eprems] in Hp. destruct (labels_ok ps IH Hp root st i d k) as (ns & j & k' & E & M1 & M2 & D & C & A & R & G).
      unfold labelled. rewrite label_step, E. cbn [obind fst snd]. rewrite next_app. cbn [obind fst snd]. eexists. exists (S j), (S k'). split; [reflexivity|].
      split; [lia|]. split; [lia|]. split; [reflexivity|]. split; [reflexivity|]. split; [|split].
      + intros x Hx. cbn [subnodes flat_map] in Hx. rewrite !app_nil_r in Hx. destruct Hx as [<-|Hx]; [exact Logic.I|]. apply in_flat_map in Hx. destruct Hx as (n & Hn & Hx). rewrite Forall_forall in A. exact (A n Hn x Hx).
      + intros x Hx. cbn [subnodes flat_map] in Hx. rewrite !app_nil_r in Hx. destruct Hx as [<-|Hx]; [cbn; lia|]. apply R in Hx. lia.
      + intros cx Hc Ha. apply accepted_step in Ha. destruct Ha as [(f & F1 & F2) Ha]. cbn [gok map]. split; [exists f; rewrite C; auto|]. split; [left; reflexivity|]. split; [|exact Logic.I].
        apply gok_prems; auto.
    - cbn [eprems] in Hp. apply app_eq_nil in Hp. destruct Hp as [Hp1 Hp2]. destruct (labels_ok ps IH Hp1 root st i d k) as (ns & j & k1 & E & M1 & M2 & D & C & A & R & G).
      destruct (IHp Hp2 root (st ++ [j]) 0 (S d) k1) as (n & j' & k2 & E2 & N1 & N2 & D2 & C2 & A2 & R2 & G2).
      unfold labelled. rewrite label_sub, E. cbn [obind fst snd]. unfold ih_push. cbn [ih_root ih_stack]. rewrite E2. cbn [obind fst snd]. unfold ih_pop. cbn [ih_root ih_stack].
      rewrite app_length, app_length. cbn [List.length]. replace (Nat.leb 2 (List.length st + 1 + 1)) with true by (symmetry; apply Nat.leb_le; lia). cbn [obind]. rewrite removelast_last, next_app. cbn [obind fst snd].
      eexists. exists (S j), (S (S k2)). split; [reflexivity|]. split; [lia|]. split; [lia|]. split; [cbn; lia|]. split; [reflexivity|].
      set (L := PStep _ _ _ _ _ _ _ _ _).
      assert (HL : forall x, In x (subnodes L) -> x = L \/ In x (flat_map subnodes ns) \/ In x (subnodes n)).
      { intros x Hx. unfold L in Hx. cbn [subnodes flat_map] in Hx. destruct Hx as [<-|Hx]; [left; reflexivity|]. apply in_app_or in Hx. destruct Hx; auto. }
      assert (AL : no_assume L).
      { intros x Hx. destruct (HL x Hx) as [->|[Hy|Hy]]; [exact Logic.I| |exact (A2 x Hy)]. apply in_flat_map in Hy. destruct Hy as (m & Hm & Hy). rewrite Forall_forall in A. exact (A m Hm x Hy). }
      assert (RL : forall x, In x (subnodes L) -> k <= paddr x < S k2).
      { intros x Hx. destruct (HL x Hx) as [->|[Hy|Hy]]; [cbn; lia|apply R in Hy; lia|apply R2 in Hy; lia]. }
      split; [|split].
      + intros x Hx. cbn [subnodes] in Hx. destruct Hx as [<-|Hx]; [exact Logic.I|]. apply in_app_or in Hx. destruct Hx as [Hx|Hx]; [|exact (AL x Hx)]. apply in_flat_map in Hx. destruct Hx as (m & Hm & Hy). rewrite Forall_forall in A. exact (A m Hm x Hy).
      + intros x Hx. cbn [subnodes] in Hx. destruct Hx as [<-|Hx]; [cbn; lia|]. apply in_app_or in Hx. destruct Hx as [Hx|Hx]; [apply R in Hx|apply RL in Hx]; lia.
      + intros cx Hc Ha. apply accepted_sub in Ha. destruct Ha as [(f & F1 & F2) [Ha Hb]]. cbn [gok]. split; [|split; [exact Logic.I|]].
        * cbn [gok map]. split; [exists f; rewrite C, C2; auto|]. split; [left; reflexivity|]. rewrite D2, Nat.sub_diag. split; [apply gok_prems_out; auto|]. apply G2; [cbn; lia|exact Hb].
        * intros x Hx. cbn [flat_map Datatypes.app] in Hx. apply scope_sub, AL in Hx. destruct x; [destruct Hx|discriminate|discriminate].
  Qed.
End Label.

(** ** The resolution step *)
Lemma feq_size a : forall b, feq a b = true -> tsize a = tsize b.
Proof.
  assert (G : forall {A} (f : A -> A -> bool) (g : A -> nat) la, Forall (fun a => forall b, f a b = true -> g a = g b) la -> forall lb, List.length la = List.length lb -> all2 f la lb = true -> list_sum (map g la) = list_sum (map g lb)).
  { induction 1 as [|x la Hx _ IH]; intros [|y lb] HL H; try discriminate; [reflexivity|]. injection HL as HL. cbn [all2] in H. apply andb_true_iff in H. destruct H as [H1 H2].
    cbn [map list_sum fold_right]. change (fold_right Init.Nat.add 0 (map g la)) with (list_sum (map g la)). change (fold_right Init.Nat.add 0 (map g lb)) with (list_sum (map g lb)). rewrite (Hx y H1), (IH lb HL H2). reflexivity. }
  induction a using term_ind'; intros rhs Hab.
  all: match goal with H : feq ?a ?b = true |- _ => destruct (term_eqb a b) eqn:Et; [apply term_eqb_eq in Et; rewrite <- Et; reflexivity|] end.
  all: destruct rhs; cbn [feq] in Hab; rewrite Et in Hab; cbn [orb] in Hab; try discriminate.
  - rewrite !andb_true_iff in Hab. destruct Hab as [[H1 H2] H3]. apply Nat.eqb_eq in H2. cbn [tsize]. rewrite (IHa _ H1), (G _ feq tsize _ H _ H2 H3). reflexivity.
  - apply orb_true_iff in Hab. destruct Hab as [Hab|Hab].
    + rewrite !andb_true_iff in Hab. destruct Hab as [[H1 H2] H3]. apply Nat.eqb_eq in H2. cbn [tsize]. rewrite (G _ feq tsize _ H _ H2 H3). reflexivity.
    + destruct args as [|a1 [|a2 [|a3 la]]]; try discriminate. match goal with H : match ?l with _ => _ end = true |- _ => destruct l as [|b1 [|b2 [|b3 lb]]] end; try discriminate.
      rewrite !andb_true_iff in Hab. destruct Hab as [[[H1 H2] H3] H4]. apply Forall_cons_iff in H. destruct H as [F1 H]. apply Forall_cons_iff in H. destruct H as [F2 _].
      cbn [tsize map list_sum fold_right]. rewrite (F1 _ H3), (F2 _ H4). lia.
  - rewrite !andb_true_iff in Hab. destruct Hab as [_ H3]. cbn [tsize]. rewrite (IHa _ H3). reflexivity.
  - rewrite !andb_true_iff in Hab. destruct Hab as [[H1 H2] H3]. apply Nat.eqb_eq in H1. cbn [tsize]. rewrite (IHa _ H3). do 2 f_equal.
    apply (G _ (fun p q => String.eqb (fst p) (fst q) && feq (snd p) (snd q)) (fun p => tsize (snd p))); auto. apply Forall_forall. intros x Hx y Hxy. rewrite Forall_forall in H. apply andb_true_iff in Hxy. apply (H x Hx). apply Hxy.
  - rewrite !andb_true_iff in Hab. destruct Hab as [[[H1 H2] H3] H4]. apply Nat.eqb_eq in H3. cbn [tsize]. rewrite (G _ feq tsize _ H0 _ H3 H4). reflexivity.
Qed.
Lemma cut_false_ok p t : t <> tNot p -> r_resolution_with_args [t] [[tNot p; t]; [p]] [p; tFalse] = ROk tt.
Proof.
  intros Hne. apply resolution_with_args_exact. exists [tNot p; t], [p], [], [(remove_all_negations p, false)]. split; [reflexivity|]. split; [repeat constructor|]. split; [reflexivity|]. cbn [combine].
  apply (Chain_cons _ _ _ _ (lits [t])); [|constructor; intros x; tauto].
  assert (Hn : neg_lit (remove_all_negations p) = remove_all_negations (tNot p)).
  { change (remove_all_negations (tNot p)) with (let (n, u) := remove_all_negations p in (S n, u)). unfold neg_lit. destruct (remove_all_negations p); reflexivity. }
  unfold resolvent. rewrite Hn. split; [left; reflexivity|]. exists [], []. split; [reflexivity|]. split; [intros []|].
  intros x. cbn [In lits map]. split.
  - intros [<-|[]]. left. split; [auto|]. intros E. apply ran_inj in E. contradiction.
  - intros [[[H|[H|[]]] Hx]|[[]|[]]]; [congruence|left; exact H].
Qed.

(** ** The elaborated subproof step is accepted *)
Section Accepted.
  Variable other : bool -> string -> crule.
  Variable seen : nat -> term -> term -> bool.
  Notation T := (rule_table other true).
  (** the last step of a subproof: its previous step is a step of the same subproof; the terms are in the fragment *)
  Definition sub_fits (k : bool) (n : pnode) : Prop :=
    match n with
    | PStep _ _ d cl _ _ _ _ (Some (PStep _ _ d' cl' _ _ _ _ _)) =>
        d' = d /\ forall p l, cl' = [p] -> nth_error cl (List.length cl - 1) = Some l -> efrag k p = true /\ efrag k l = true
    | _ => False
    end.
  (** the last term of the closing step is the previous step's term, if it has one *)
  Definition literal_end (prev : option pnode) (cl : clause) : Prop :=
    match prev with Some p => forall t l, pclause p = [t] -> nth_error cl (List.length cl - 1) = Some l -> t = l | None => False end.
  Theorem elab_subproof_ok k0 k cx a id d cl ps args ds prev : let n := PStep a id d cl "subproof" ps args ds prev in
    sub_fits k0 n -> List.length cx = d -> gok T cx n ->
    exists prev' a', elab_subproof seen k n = ROk (PStep a' id d cl "subproof" ps args ds prev') /\ gok T cx (PStep a' id d cl "subproof" ps args ds prev') /\ literal_end prev' cl /\
      (forall j x, In x (match prev' with Some p => scope j p | None => [] end) -> is_assume_at j x = true -> In x (match prev with Some p => scope j p | None => [] end)).
  Proof.
    intros n Hf Hc Hg. subst n. cbn [sub_fits] in Hf. destruct prev as [prev|]; [|contradiction]. destruct prev as [|pa pid pd pcl pr pps pargs pds pprev|]; try contradiction. destruct Hf as [-> Hf].
    unfold elab_subproof. cbn [unwrap obind].
    assert (Hun : literal_end (Some (PStep pa pid d pcl pr pps pargs pds pprev)) cl -> exists prev' a', ROk (PStep a id d cl "subproof" ps args ds (Some (PStep pa pid d pcl pr pps pargs pds pprev))) = ROk (PStep a' id d cl "subproof" ps args ds prev') /\ gok T cx (PStep a' id d cl "subproof" ps args ds prev') /\ literal_end prev' cl /\
      (forall j x, In x (match prev' with Some p => scope j p | None => [] end) -> is_assume_at j x = true -> In x (scope j (PStep pa pid d pcl pr pps pargs pds pprev)))).
    { intros Hle. eexists. eexists. split; [reflexivity|]. split; [exact Hg|]. split; [exact Hle|]. intros j x Hx _. exact Hx. }
    destruct pcl as [|p [|p' pcl]]; [apply Hun; intros ? ? [=]| |apply Hun; intros ? ? [=]].
    pose proof Hg as ((f & Ft & Fok) & Gd & Gp & Gprev). change (T "subproof") with (Some subproof) in Ft. injection Ft as <-. cbn [pclause] in Fok.
    unfold subproof in Fok. cbn [ra_prev ok_or obind ra_concl ra_disch] in Fok.
    apply obind_ok in Fok. destruct Fok as ([] & _ & Fok). apply obind_ok in Fok. destruct Fok as ([] & _ & Fok). apply obind_ok in Fok. destruct Fok as (l & Hl & Fok). rewrite Hl. cbn [obind].
    apply unwrap_ok in Hl. destruct (Hf p l eq_refl Hl) as [Fp Fl]. destruct (term_eqb l p) eqn:Elp; [apply Hun; intros t l' [= <-] Hl'; apply term_eqb_eq in Elp; congruence|].
    unfold assert_polyeq in Fok. rewrite (polyeq_feq k0) in Fok by auto. cbn [obind] in Fok. apply rassert_ok in Fok. apply feq_sym in Fok.
    destruct (pelab_ok other seen k0 d p l Fp Fl) as (e & E1 & E2 & E3 & E4); [rewrite (polyeq_feq k0) by auto; congruence|]. rewrite E1. cbn [obind].
    destruct (label_ok other e E3 id [] 0 d k) as (m & j & k' & L1 & _ & _ & D & C & A & R & G). unfold ih_new. change [0] with ([] ++ [0] : list nat). rewrite L1. cbn [obind fst snd]. rewrite next_app. cbn [obind fst snd]. rewrite next_app. cbn [obind fst snd].
    eexists. eexists. split; [reflexivity|]. cbn [gok]. change (T "subproof") with (Some subproof). split.
    - split; [|split; [exact Gd|split; [exact Gp|]]].
      + exists subproof. split; [reflexivity|]. destruct Hg as ((f & Ft & Fok') & _). change (T "subproof") with (Some subproof) in Ft. injection Ft as <-. cbn [pclause] in *. revert Fok'. unfold subproof. cbn [ra_prev ok_or obind ra_concl ra_disch].
        destruct (rassert _) as [[]| |]; cbn [obind]; try discriminate. destruct (disch_ok _ _) as [[]| |]; cbn [obind]; try discriminate. rewrite Hl. cbn [unwrap obind]. intros _. unfold assert_polyeq.
        rewrite (polyeq_feq k0) by auto. rewrite feq_refl. reflexivity.
      + cbn [pdepth gok pclause map]. rewrite Nat.sub_diag. cbn [skipn]. split; [|split; [left; reflexivity|split; [|exact Logic.I]]].
        * exists (plain r_resolution_with_args). split; [reflexivity|]. unfold plain. cbn [ra_concl ra_prems ra_args]. apply cut_false_ok. intros ->. apply feq_size in Fok. cbn in Fok. lia.
        * cbn [map fold_right pdepth gok pclause]. split; [|split; [|exact Logic.I]].
          -- rewrite D, Nat.sub_diag. cbn [skipn]. split; [|split; [left; reflexivity|split; [|exact Logic.I]]].
             ++ pose proof (equiv1_ok other cx p l e E2 (E4 cx)) as He. apply accepted_step in He. destruct He as [He _]. cbn [map] in He. rewrite C. exact He.
             ++ split; [|exact Logic.I]. apply G; auto.
          -- cbn [pdepth] in Gprev. rewrite Nat.sub_diag in Gprev. exact Gprev.
    - split; [intros t l' [= <-] Hl'; congruence|]. intros i x Hx Ha. cbn [scope pdepth] in Hx. destruct (d <? i) eqn:Ed; [destruct Hx|]. destruct Hx as [<-|Hx]; [discriminate|]. cbn [flat_map scope pdepth] in Hx. rewrite Ed in Hx. rewrite !app_nil_r in Hx. apply in_app_or in Hx. destruct Hx as [[<-|Hx]|Hx]; [discriminate| |].
      + apply scope_sub, A in Hx. destruct x; [destruct Hx|discriminate|discriminate].
      + cbn [scope pdepth]. rewrite Ed. exact Hx.
  Qed.
End Accepted.
Section Node.
  Variable other : bool -> string -> crule.
  Variable seen : nat -> term -> term -> bool.
  Notation T := (rule_table other true).
  Theorem elab_subproof_node_ok k0 k cx a id cl ps args ds prev sargs out extra : let l := PStep a id (S (List.length cx)) cl "subproof" ps args ds prev in
    forall b, sub_fits k0 l -> gok T cx (PSub b l sargs out extra) ->
    exists a' prev', let n := PSub b (PStep a' id (S (List.length cx)) cl "subproof" ps args ds prev') sargs out extra in
      elab_subproof_node seen k (PSub b l sargs out extra) = ROk n /\ gok T cx n /\ literal_end prev' cl.
  Proof.
    intros l b Hf (Hl & He & Hd). destruct (elab_subproof_ok other seen k0 k (sargs :: cx) a id (S (List.length cx)) cl ps args ds prev Hf eq_refl Hl) as (prev' & a' & E & G & Hle & Hs). exists a', prev'.
    cbn [elab_subproof_node]. fold l in E. rewrite E. cbn [obind]. split; [reflexivity|]. split; [|exact Hle].
    cbn [gok pdepth]. split; [exact G|]. split; [exact He|]. intros x Hx Ha.
    assert (Hds : is_assume_at (S (List.length cx)) x = true -> In x (flat_map (scope (S (List.length cx))) extra ++ scope (S (List.length cx)) l) -> In (paddr x) (map paddr ds)).
    { intros Ha' Hx'. exact (Hd x Hx' Ha'). }
    apply Hds; [exact Ha|]. apply in_app_or in Hx. apply in_or_app. destruct Hx as [Hx|Hx]; [left; exact Hx|right]. unfold l. cbn [scope pdepth] in Hx |- *. rewrite Nat.ltb_irrefl in Hx |- *.
    destruct Hx as [<-|Hx]; [discriminate|]. right. rewrite !in_app_iff in Hx |- *. destruct Hx as [Hx|[Hx|Hx]]; [tauto|tauto|]. right. right. apply Hs; auto.
  Qed.
End Node.
