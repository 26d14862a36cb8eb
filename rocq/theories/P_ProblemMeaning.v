(** C55: the problem that is written for a slice means the same, also with negative and fractional constants. *)
From Coq Require Import List Bool NArith ZArith QArith Arith String.
From Verif Require Import Base Term Field Sem Sorting SubstSound Lexer TermIO TermIOSound P_TermIO ProblemIO ProblemIOSound P_ProblemPrint.
Import ListNotations.
Local Open Scope list_scope.

(** the indices of indexed operators are natural numbers (they are read as numerals: parser/mod.rs:1561-1693) *)
Fixpoint nat_indices (t : term) : bool :=
  match t with
  | TConst _ | TVar _ _ | TSort _ => true
  | TApp f args => nat_indices f && forallb nat_indices args
  | TOp OBvConst args => forallb natural args && forallb nat_indices args
  | TOp _ args => forallb nat_indices args
  | TBind _ _ b => nat_indices b
  | TLet bs b => forallb (fun v => nat_indices (snd v)) bs && nat_indices b
  | TPOp _ l args => forallb natural l && forallb nat_indices args
  end.
Lemma map_plain_natural l : forallb natural l = true -> map plain l = l.
Proof. induction l as [|a l IH]; cbn; [reflexivity|]. intros H. apply andb_true_iff in H. destruct H. rewrite plain_natural, IH by assumption. reflexivity. Qed.
Lemma plain_const_sort c : sort_of (plain_const c) = sort_of (TConst c).
Proof. destruct c; cbn; try reflexivity; unfold plain_nat; repeat match goal with |- context [if ?b then _ else _] => destruct b end; reflexivity. Qed.
Lemma map_ind {A} (f g : term -> A) l : Forall (fun t => nat_indices t = true -> f (plain t) = g t) l -> forallb nat_indices l = true -> map f (map plain l) = map g l.
Proof. induction 1 as [|a l Ha _ IH]; cbn; [reflexivity|]. intros H. apply andb_true_iff in H. destruct H. rewrite Ha, IH by assumption. reflexivity. Qed.
Lemma sort_of_op o args args' : o <> OBvConst -> map sort_of args' = map sort_of args -> sort_of (TOp o args') = sort_of (TOp o args).
Proof. intros Ho H. destruct o; try congruence; cbn [sort_of]; rewrite H; reflexivity. Qed.
Lemma nat_indices_op o args : nat_indices (TOp o args) = true -> forallb nat_indices args = true.
Proof. destruct o; cbn; try tauto. intros H. apply andb_true_iff in H. tauto. Qed.
Lemma plain_sort t : nat_indices t = true -> sort_of (plain t) = sort_of t.
Proof.
  induction t using term_ind'; intros HN; try reflexivity.
  - apply plain_const_sort.
  - cbn in HN. apply andb_true_iff in HN. destruct HN as [H1 _]. cbn [plain sort_of]. rewrite IHt by exact H1. reflexivity.
  - assert (Hd : o = OBvConst \/ o <> OBvConst) by (destruct o; try (right; discriminate); left; reflexivity).
    destruct Hd as [->|Ho].
    + cbn [nat_indices] in HN. apply andb_true_iff in HN. destruct HN as [HN _]. cbn [plain]. rewrite map_plain_natural by exact HN. reflexivity.
    + cbn [plain]. apply sort_of_op; [exact Ho|]. apply map_ind; [assumption|]. eapply nat_indices_op. exact HN.
  - cbn in *. destruct b; try reflexivity. rewrite IHt by exact HN. reflexivity.
  - cbn in *. apply andb_true_iff in HN. destruct HN. auto.
  - cbn [nat_indices plain sort_of] in *. apply andb_true_iff in HN. destruct HN as [H1 H2]. rewrite map_plain_natural by exact H1. f_equal. apply map_ind; assumption.
Qed.
Section Meaning.
  Context {I : interp}.
  Lemma plain_nat_eval (E : env I) q : eval (plain_nat q) E = eval_const (CReal q).
  Proof.
    unfold plain_nat. destruct (Pos.eqb (Qden q) 1) eqn:Eq; [reflexivity|]. cbn [eval map eval_const eval_op fold1 fold_left]. unfold rdiv. cbn [num].
    rewrite <- injQ_0, injQ_eqb. replace (Qeq_bool (inject_Z (Zpos (Qden q))) 0) with false by reflexivity. f_equal. rewrite !injQ_Z. reflexivity.
  Qed.
  Lemma plain_const_eval (E : env I) c : eval (plain_const c) E = eval_const c.
  Proof.
    destruct c; cbn [plain_const]; try reflexivity.
    - destruct (Z.ltb z 0); [|reflexivity]. cbn [eval map eval_const eval_op num]. unfold vint. cbn [num]. rewrite <- inj_opp, Z.opp_involutive. reflexivity.
    - destruct (Z.ltb (Qnum (Qred q)) 0) eqn:Es.
      + cbn [eval map eval_op]. rewrite plain_nat_eval. cbn [eval_const num]. rewrite <- injQ_opp. f_equal. apply injQ_eq. rewrite Qopp_opp. apply Qred_correct.
      + destruct (Pos.eqb (Qden (Qred q)) 1); [reflexivity|]. rewrite plain_nat_eval. cbn [eval_const]. f_equal. apply injQ_eq. apply Qred_correct.
  Qed.
  Lemma plain_eval t : nat_indices t = true -> forall E : env I, eval (plain t) E = eval t E.
  Proof.
    induction t using term_ind'; intros HN E; try reflexivity.
    - apply plain_const_eval.
    - cbn [nat_indices] in HN. apply andb_true_iff in HN. destruct HN as [H1 H2]. cbn [plain eval]. rewrite IHt by exact H1. f_equal. apply map_ind; [|exact H2].
      match goal with H : Forall _ _ |- _ => eapply Forall_impl; [|exact H] end. cbn. auto.
    - apply nat_indices_op in HN. cbn [plain eval]. f_equal. apply map_ind; [|exact HN]. match goal with H : Forall _ _ |- _ => eapply Forall_impl; [|exact H] end. cbn. auto.
    - cbn [nat_indices] in HN. cbn [plain eval]. rewrite plain_sort by exact HN. apply eval_bind_ext2; [reflexivity|]. intros vals _. apply IHt. exact HN.
    - cbn [nat_indices] in HN. apply andb_true_iff in HN. destruct HN as [H1 H2]. cbn [plain eval]. rewrite IHt by exact H2. f_equal. f_equal.
      + rewrite map_map. cbn [fst snd]. apply map_ext_in. intros v Hv. rewrite plain_sort; [reflexivity|]. rewrite forallb_forall in H1. auto.
      + rewrite map_map. cbn [fst snd]. apply map_ext_in. intros v Hv. match goal with H : Forall _ _ |- _ => rewrite Forall_forall in H; apply H; [exact Hv|] end. rewrite forallb_forall in H1. auto.
    - cbn [nat_indices] in HN. apply andb_true_iff in HN. destruct HN as [H1 H2]. cbn [plain eval]. rewrite map_plain_natural by exact H1. f_equal. apply map_ind; [|exact H2].
      match goal with H : Forall _ _ |- _ => eapply Forall_impl; [|exact H] end. cbn. auto.
  Qed.
End Meaning.

(** Every problem whose names, sorts and terms can be read is printed, and the problem that is read from the text has the same declarations, and its assertions hold in exactly the
    same interpretations. *)
Theorem C55_meaning_partial : forall cf ap p asserts, rproblem cf p asserts = true -> forallb nat_indices asserts = true ->
  exists txt s, print_problem p asserts = ROk txt /\ read_problem_text cf ap txt = ROk s /\ pb_pre s = mkPr (Some (logic_of p)) (pr_sorts p) (pr_funs p) /\
    forall (I : interp) (E : env I), (forall t, In t (pb_prems s) -> holds E t = true) <-> (forall t, In t asserts -> holds E t = true).
Proof.
  intros cf ap p asserts H Hn. destruct (C55_partial cf ap p asserts H) as (txt & s & H1 & H2 & H3 & _ & _ & H4). exists txt, s. split; [exact H1|]. split; [exact H2|]. split; [exact H3|].
  intros I E. rewrite forallb_forall in Hn. rewrite H4. split.
  - intros Ha t Ht. unfold holds. rewrite <- (plain_eval t (Hn t Ht)). apply (Ha (plain t)). apply add_In. right. apply in_map. exact Ht.
  - intros Ha t Ht. apply add_In in Ht. destruct Ht as [[]|Ht]. apply in_map_iff in Ht. destruct Ht as (u & <- & Hu). unfold holds. rewrite (plain_eval u (Hn u Hu)). apply Ha. exact Hu.
Qed.
Print Assumptions C55_meaning_partial.
(** The hypotheses hold for a problem with a negative integer, a fraction and a negative fraction. *)
Definition m_pre : prelude := mkPr (Some "QF_LIRA"%string) [] [("x"%string, SReal); ("n"%string, SInt)].
Definition m_asserts : list term :=
  [TOp OLt [TVar "x"%string SReal; TConst (CReal (1 # 2))]; TOp OLt [TConst (CReal (-3 # 4)); TVar "x"%string SReal]; TOp OEquals [TVar "n"%string SInt; TConst (CInt (-7))]].
Definition m_text : text := chars "(set-logic QF_LIRA)
(declare-fun x () Real)
(declare-fun n () Int)
(assert (< x (/ 1.0 2.0)))
(assert (< (- (/ 3.0 4.0)) x))
(assert (= n (- 7)))
(check-sat)
(exit)
".
Example C55_meaning_ex : rproblem cf0 m_pre m_asserts = true /\ forallb nat_indices m_asserts = true /\ print_problem m_pre m_asserts = ROk m_text.
Proof. split; [vm_compute; reflexivity|]. split; vm_compute; reflexivity. Qed.

(** ** C56 and C43, particular texts *)
(** Numerals are read as reals exactly if the logic is only about reals. *)
Definition num_sort_in (logic : string) : outcome (list sort) :=
  do s <- read_problem_text cf0 true (chars (append "(set-logic " (append logic ") (assert (< 1 2))"))) ; ROk (flat_map (fun t => match t with TOp _ args => map sort_of args | _ => [] end) (pb_prems s)).
Example C56_logic_ex : map num_sort_in ["QF_LRA"; "NRA"; "QF_RDL"; "QF_LIRA"; "AUFLIRA"; "QF_LIA"; "ALL"; "UFNIRA"; "UFLRA_IDL"]%string =
  map (fun s => ROk [s; s]) [SReal; SReal; SReal; SInt; SInt; SInt; SInt; SInt; SInt].
Proof. vm_compute. reflexivity. Qed.
(** A parameter of a sort definition hides a sort with arguments that was declared with this name. *)
Example C43_sort_hidden_ex : exists s, read_problem_text cf0 true (chars "(declare-sort A 1) (define-sort B (A) (Array A A)) (declare-const x (B Real))") = ROk s /\
  assoc "x" (pb_vars s) = Some (SArray SReal SReal).
Proof. match goal with |- exists _, ?r = _ /\ _ => destruct r as [p| |] eqn:E; vm_compute in E; try discriminate end. injection E as <-. eexists. split; reflexivity. Qed.
