(** Reading a file of RARE rules. Models parser/rare/mod.rs and the part of parser/mod.rs:79-101 that reads the rules after the proof.
    Simplification: a parameter with a sort in parentheses that is not indexed (a [ParamSort]) is not read. *)
From Coq Require Import List Bool NArith ZArith Arith String Ascii Lia.
From Verif Require Import Base Term Sem Sorting Utils Checker Lexer TermIO Parser ProofIO ProblemIO R_Rare WellSorted ProblemWt.
Import ListNotations.
Local Open Scope string_scope.
Local Open Scope list_scope.

(** [IndexMap::insert]: a new value takes the place of the old one *)
Fixpoint im_insert {K A : Type} (eqb : K -> K -> bool) (k : K) (v : A) (l : list (K * A)) : list (K * A) :=
  match l with
  | [] => [(k, v)]
  | (k', v') :: r => if eqb k k' then (k', v) :: r else (k', v') :: im_insert eqb k v r
  end.
Definition im_collect {K A : Type} (eqb : K -> K -> bool) (l : list (K * A)) : list (K * A) :=
  fold_left (fun m p => im_insert eqb (fst p) (snd p) m) l [].

(** the part of the state of the parser that matters here: sorts, symbols and definitions. None of it is reset between files and rules. *)
Record rst : Type := mkRst { r_sorts : sdecls; r_vars : venv; r_defs : defs }.
(** 7-12 *)
Inductive rbody : Type := BConcl (t : term) | BPrems (l : list term) | BArgs (l : list string).
Definition at_sign (x : string) : bool := match x with String "@" _ => true | _ => false end.

Section ReadRare.
  Variable cf : pcfg.
  Variable F : nat. (* fuel for terms *)
  Definition r_term (s : rst) (ts : list token) : outcome (term * rst * list token) :=
    do x <- parse cf (r_sorts s) F MTerm (r_vars s) (r_defs s) ts ;
    let '(t, D, r) := x in ROk (t, mkRst (r_sorts s) (r_vars s) D, r).
  (** parser/mod.rs:1914-1954 with [polymorphic] *)
  Definition r_sort (s : rst) (ts : list token) : outcome (term * defs * list token) :=
    match ts with
    | KSym w :: r =>
        let x := string_of w in
        if at_sign x && match sort_def x (r_sorts s) with Some _ => true | None => false end then ROk (TSort (SVar x), r_defs s, r)
        else parse cf (r_sorts s) F MSort (r_vars s) (r_defs s) ts
    | KOpen :: KRes _ :: _ => parse cf (r_sorts s) F MSort (r_vars s) (r_defs s) ts
    | _ => RErr
    end.
  (** 21-69 parse_parameters *)
  Definition r_param (s : rst) (ts : list token) : outcome ((string * (sort * bool)) * rst * list token) :=
    do r0 <- expect is_open ts ; do x <- expect_symbol r0 ;
    do y <- r_sort s (snd x) ;
    let '(t, D, r1) := y in
    match t with
    | TSort so =>
        let s1 := mkRst ((fst x, SDef [] so) :: r_sorts s) ((fst x, so) :: r_vars s) D in
        match r1 with
        | KClose :: r2 => ROk ((fst x, (so, false)), s1, r2)
        | KKey k :: r2 => do r3 <- expect is_close r2 ;
                          if text_eqb k (chars "list") then ROk ((fst x, (so, true)), s1, r3) else RErr
        | _ => RErr
        end
    | _ => RErr
    end.
  (** 71-103 parse_body *)
  Definition r_name (u : unit) (ts : list token) : outcome (string * unit * list token) :=
    do x <- expect_symbol ts ; ROk (fst x, u, snd x).
  Definition r_body (n : nat) (s : rst) (ts : list token) : outcome (rbody * rst * list token) :=
    match ts with
    | KKey k :: r =>
        if text_eqb k (chars "conclusion") then do x <- r_term s r ; let '(t, s1, r1) := x in ROk (BConcl t, s1, r1)
        else if text_eqb k (chars "args") then
          do r0 <- expect is_open r ; do x <- seq r_name n tt r0 ; let '(l, _, r1) := x in ROk (BArgs l, s, r1)
        else if text_eqb k (chars "premises") then
          do r0 <- expect is_open r ; do x <- seq r_term n s r0 ; let '(l, s1, r1) := x in ROk (BPrems l, s1, r1)
        else RErr
    | _ => RErr
    end.
  (** 119-127: of a repeated attribute the last one counts *)
  Definition body_args (l : list rbody) : list string := fold_left (fun a b => match b with BArgs x => x | _ => a end) l [].
  Definition body_prems (l : list rbody) : list term := fold_left (fun a b => match b with BPrems x => x | _ => a end) l [].
  Definition body_concl (l : list rbody) : option term := fold_left (fun a b => match b with BConcl x => Some x | _ => a end) l None.
  (** 105-144 parse_rule *)
  Definition r_rule (n : nat) (s : rst) (ts : list token) : outcome ((text * rare_rule) * rst * list token) :=
    do r0 <- expect is_open ts ;
    match r0 with
    | KRes w :: KSym name :: r1 =>
        if text_eqb w (chars "declare-rare-rule") then
          do r2 <- expect is_open r1 ;
          do x <- seq r_param n s r2 ;
          let '(ps, s1, r3) := x in
          do y <- seq (r_body n) n s1 r3 ;
          let '(b, s2, r4) := y in
          match body_concl b with
          | Some t => ROk ((name, mkRare (im_collect String.eqb ps) (body_args b) (body_prems b) t), s2, r4)
          | None => RErr
          end
        else RErr
    | _ => RErr
    end.
  (** 146-159 parse_rare *)
  Fixpoint r_rules (n : nat) (s : rst) (ts : list token) : outcome (list (text * rare_rule)) :=
    match ts with
    | [] => ROk []
    | _ => match n with
           | O => RPanic
           | S n => do x <- r_rule F s ts ; let '(r, s1, ts1) := x in do l <- r_rules n s1 ts1 ; ROk (r :: l)
           end
    end.
End ReadRare.
Definition read_rules_text (cf : pcfg) (s : rst) (txt : text) : outcome rare_rules :=
  do ts <- lex_all txt ; do l <- r_rules cf (fuel_for ts) (S (List.length ts)) s ts ; ROk (im_collect text_eqb l).

(** [read_proof_text] together with the definitions at the end of the proof *)
Definition read_proof_defs (cf : pcfg) (holes : bool) (sdecl : sdecls) (E : venv) (D : defs) (txt : text) : outcome (list command * defs) :=
  do ts <- lex_all txt ;
  let ts := match ts with KSym w :: r => if text_eqb w (chars "unsat") then r else ts | _ => ts end in
  do s <- read_cmds cf holes sdecl (fuel_for ts) (S (List.length ts)) true false (mkRS ps0 [E] D) ts ;
  match ps_frames (rs_st s) with [f] => ROk (f_cmds f, rs_defs s) | [] => RPanic | _ => RErr end.
(** parser/mod.rs:79-101 with a file of rules *)
Definition int_cfg (cf : pcfg) : pcfg := mkP (strict cf) (subtyping cf) (expand_lets cf) false.
Definition read_instance_rules (cf : pcfg) (apply_defs holes : bool) (problem proof rules : text) : outcome (list term * list command * rare_rules) :=
  do s <- read_problem_text cf apply_defs problem ;
  do p <- read_proof_defs (int_cfg cf) holes (pb_sorts s) (pb_vars s) (pb_defs s) proof ;
  do r <- read_rules_text (int_cfg cf) (mkRst (pb_sorts s) (pb_vars s) (snd p)) rules ;
  ROk (pb_prems s, fst p, r).

Lemma read_proof_defs_fst cf holes sdecl E D txt p D' : read_proof_defs cf holes sdecl E D txt = ROk (p, D') -> read_proof_text cf holes sdecl E D txt = ROk p.
Proof.
  unfold read_proof_defs, read_proof_text. intros H. apply obind_ok in H. destruct H as [ts [-> H]]. cbn [obind]. cbv zeta in *. apply obind_ok in H. destruct H as [s [-> H]]. cbn [obind].
  destruct (ps_frames (rs_st s)) as [|f [|]]; try discriminate. injection H as <- <-. reflexivity.
Qed.
Lemma read_proof_defs_wt cf holes sdecl E D txt p D' : defs_wt D -> read_proof_defs cf holes sdecl E D txt = ROk (p, D') -> defs_wt D'.
Proof.
  intros HD H. unfold read_proof_defs in H. apply obind_ok in H. destruct H as [ts [_ H]]. cbv zeta in H. apply obind_ok in H. destruct H as [s [H1 H]]. apply read_cmds_wt in H1.
  - destruct (ps_frames (rs_st s)) as [|f [|]]; try discriminate. injection H as <- <-. apply H1.
  - split; [|exact HD]. constructor; [|constructor]. split; reflexivity.
Qed.
(** a proof and its problem are read as without the rules *)
Lemma read_instance_rules_fst cf ap holes problem proof rules prems p r : read_instance_rules cf ap holes problem proof rules = ROk (prems, p, r) ->
  read_instance cf ap holes problem proof = ROk (prems, p).
Proof.
  unfold read_instance_rules, read_instance. intros H. apply obind_ok in H. destruct H as [s [-> H]]. cbn [obind]. apply obind_ok in H. destruct H as [[p' D] [H1 H]]. apply read_proof_defs_fst in H1.
  unfold int_cfg in H1. rewrite H1. cbn [obind]. apply obind_ok in H. destruct H as [r' [_ H]]. injection H as <- <- _. reflexivity.
Qed.

(** ** What is read is well sorted *)
Lemma im_insert_In {K A} (eqb : K -> K -> bool) k (v : A) l p : In p (im_insert eqb k v l) -> snd p = v \/ In p l.
Proof.
  induction l as [|[k' v'] l IH]; cbn [im_insert]; [intros [<-|[]]; auto|]. destruct (eqb k k'); intros [<-|H]; cbn [snd]; auto; [right; right; exact H|right; left; reflexivity|].
  destruct (IH H); auto. right; right; auto.
Qed.
Lemma im_collect_In {K A} (eqb : K -> K -> bool) (l : list (K * A)) p : In p (im_collect eqb l) -> exists k, In (k, snd p) l.
Proof.
  unfold im_collect. assert (H : forall l m, In p (fold_left (fun m p => im_insert eqb (fst p) (snd p) m) l m) -> In p m \/ exists k, In (k, snd p) l).
  { clear l. induction l as [|[k v] l IH]; intros m; cbn [fold_left fst snd]; [auto|]. intros Hi. destruct (IH _ Hi) as [H1|[k1 H1]]; [|right; exists k1; right; auto].
    destruct (im_insert_In _ _ _ _ _ H1) as [->|H2]; [right; exists k; left; reflexivity|left; auto]. }
  intros Hi. destruct (H l [] Hi) as [[]|H1]. exact H1.
Qed.
Definition rst_wt (s : rst) : Prop := defs_wt (r_defs s).
Definition body_wt (b : rbody) : Prop := match b with BConcl t => W t | BPrems l => Forall W l | BArgs _ => True end.
Definition rule_wt (r : rare_rule) : Prop := Forall W (rr_concl r :: rr_prems r).
Section Wt.
  Variables (cf : pcfg) (F : nat).
  Lemma r_term_good s ts : rst_wt s -> good W rst_wt (r_term cf F s ts).
  Proof.
    intros Hs. unfold r_term. apply (bind_good W defs_wt); [apply (parse_good cf (r_sorts s) F (r_vars s) (r_defs s) ts Hs)|]. intros t D r Ht HD. split; auto.
  Qed.
  Lemma r_sort_good s ts : rst_wt s -> good (fun _ => True) defs_wt (r_sort cf F s ts).
  Proof.
    intros Hs. pose proof (proj2 (proj2 (parse_good cf (r_sorts s) F (r_vars s) (r_defs s) ts Hs))) as Hg. unfold r_sort.
    destruct ts as [|k r]; [exact Logic.I|]. destruct k; try exact Logic.I.
    - destruct r as [|[] r]; try exact Logic.I. exact Hg.
    - destruct (_ && _); [split; [exact Logic.I|exact Hs]|exact Hg].
  Qed.
  Lemma r_param_good s ts : rst_wt s -> good (fun _ => True) rst_wt (r_param cf F s ts).
  Proof.
    intros Hs. unfold r_param. apply any_good. intros r0 _. apply any_good. intros x _. apply (bind_good (fun _ => True) defs_wt); [apply r_sort_good; auto|].
    intros t D r1 _ HD. destruct t; try exact Logic.I. destruct r1 as [|[] r2]; try exact Logic.I; [split; [exact Logic.I|exact HD]|].
    apply any_good. intros r3 _. destruct (text_eqb _ _); [split; [exact Logic.I|exact HD]|exact Logic.I].
  Qed.
  Lemma r_body_good n s ts : rst_wt s -> good body_wt rst_wt (r_body cf F n s ts).
  Proof.
    intros Hs. unfold r_body. destruct ts as [|[] r]; try exact Logic.I. destruct (text_eqb _ _).
    { apply (bind_good W rst_wt); [apply r_term_good; auto|]. intros t s1 r1 Ht Hs1. split; auto. }
    destruct (text_eqb _ _).
    { apply any_good. intros r0 _. apply any_good. intros [[l u] r1] _. split; [exact Logic.I|exact Hs]. }
    destruct (text_eqb _ _); [|exact Logic.I]. apply any_good. intros r0 _. apply (bind_good (Forall W) rst_wt); [apply seq_good; auto; intros; apply r_term_good; auto|].
    intros l s1 r1 Hl Hs1. split; auto.
  Qed.
  Lemma body_prems_wt l : Forall body_wt l -> Forall W (body_prems l).
  Proof.
    unfold body_prems. assert (H : forall l a, Forall body_wt l -> Forall W a -> Forall W (fold_left (fun a b => match b with BPrems x => x | _ => a end) l a)).
    { clear l. induction l as [|b l IH]; intros a Hl Ha; cbn [fold_left]; [auto|]. inversion Hl; subst. apply IH; auto. destruct b; auto. }
    intros Hl. apply H; auto.
  Qed.
  Lemma body_concl_wt l t : Forall body_wt l -> body_concl l = Some t -> W t.
  Proof.
    unfold body_concl. assert (H : forall l a, Forall body_wt l -> (forall t, a = Some t -> W t) -> fold_left (fun a b => match b with BConcl x => Some x | _ => a end) l a = Some t -> W t).
    { clear l. induction l as [|b l IH]; intros a Hl Ha; cbn [fold_left]; [auto|]. inversion Hl; subst. apply IH; auto. destruct b; auto. intros u Hu. injection Hu as <-. auto. }
    intros Hl. apply H; auto. discriminate.
  Qed.
  Lemma r_rule_good n s ts : rst_wt s -> good (fun p => rule_wt (snd p)) rst_wt (r_rule cf F n s ts).
  Proof.
    intros Hs. unfold r_rule. apply any_good. intros r0 _. destruct r0 as [|[] r0]; try exact Logic.I. destruct r0 as [|[] r1]; try exact Logic.I. destruct (text_eqb _ _); [|exact Logic.I].
    apply any_good. intros r2 _. apply (bind_good (Forall (fun _ => True)) rst_wt); [apply seq_good; auto; intros; apply r_param_good; auto|]. intros ps st1 r3 _ Hs1.
    apply (bind_good (Forall body_wt) rst_wt); [apply seq_good; auto; intros; apply r_body_good; auto|]. intros b st2 r4 Hb Hs2.
    destruct (body_concl b) as [t|] eqn:Eb; [|exact Logic.I]. split; [|exact Hs2]. constructor; [eapply body_concl_wt; eauto|]. apply body_prems_wt; auto.
  Qed.
  Lemma r_rules_wt : forall n s ts l, rst_wt s -> r_rules cf F n s ts = ROk l -> Forall (fun p => rule_wt (snd p)) l.
  Proof.
    induction n as [|n IH]; intros s ts l Hs H; destruct ts as [|k ts]; try discriminate; try (injection H as <-; constructor).
    cbn [r_rules] in H. apply obind_ok in H. destruct H as [[[r s1] ts1] [H1 H]]. pose proof (r_rule_good F s (k :: ts) Hs) as Hg. rewrite H1 in Hg. destruct Hg as [Hr Hs1].
    apply obind_ok in H. destruct H as [l' [H2 H]]. injection H as <-. constructor; eauto.
  Qed.
End Wt.
Theorem read_rules_wt cf s txt rs : defs_wt (r_defs s) -> read_rules_text cf s txt = ROk rs -> forall name r, In (name, r) rs -> forallb wt (rr_concl r :: rr_prems r) = true.
Proof.
  intros Hs H name r Hi. unfold read_rules_text in H. apply obind_ok in H. destruct H as [ts [_ H]]. apply obind_ok in H. destruct H as [l [H1 H]]. injection H as <-.
  apply im_collect_In in Hi. destruct Hi as [k Hi]. pose proof (r_rules_wt cf (fuel_for ts) (S (List.length ts)) s ts l Hs H1) as Hl. rewrite Forall_forall in Hl. specialize (Hl _ Hi). apply Forall_W. exact Hl.
Qed.
