(** The definitions and the premises that reading a problem gives are well sorted. *)
From Coq Require Import List Bool NArith ZArith Arith String Lia.
From Verif Require Import Base Term Sem Sorting Utils Rules Checker Lexer TermIO Parser ProofIO WellSorted ProblemIO.
Import ListNotations.
Local Open Scope string_scope.
Local Open Scope nat_scope.
Local Open Scope list_scope.

(** the definitions are well sorted, and the premises if [b] holds *)
Definition pok (b : bool) (s : pbstate) : Prop := defs_wt (pb_defs s) /\ (b = true -> Forall W (pb_prems s)).
Definition res (P : pbstate -> Prop) (o : outcome (pbstate * list token)) : Prop := match o with ROk (s, _) => P s | _ => True end.
Lemma bind_res {A S} (P : A -> Prop) (Q : S -> Prop) R (o : outcome (A * S * list token)) f :
  good P Q o -> (forall a s r, P a -> Q s -> res R (f (a, s, r))) -> res R (do x <- o ; f x).
Proof. destruct o as [[[a s] r]| |]; cbn; auto. intros [H1 H2] H. auto. Qed.
Lemma any_res {A} R (o : outcome A) f : (forall a, o = ROk a -> res R (f a)) -> res R (do x <- o ; f x).
Proof. destruct o; cbn; auto. Qed.
Lemma add_prem_W l t : Forall W l -> W t -> Forall W (add_prem l t).
Proof. intros Hl Ht. unfold add_prem. destruct (memb _ _ _); [exact Hl|]. apply Forall_app. auto. Qed.
Lemma add_prems_W ts : forall l, Forall W l -> Forall W ts -> Forall W (fold_left add_prem ts l).
Proof. induction ts as [|t ts IH]; cbn; intros l Hl H; [exact Hl|]. inversion H; subst. apply IH; [apply add_prem_W; auto|auto]. Qed.
Lemma defs_cons D f ps b : defs_wt D -> W b -> defs_wt ((f, (ps, b)) :: D).
Proof. intros HD Hb y d. cbn. destruct (String.eqb _ _); [intros H; injection H as <-; exact Hb|apply HD]. Qed.

Section Problem.
  Variables (cf : pcfg) (apply_defs : bool).
  Variable F : nat.
  Notation anyg := (good (fun _ => True)).
  Lemma pb_sort_good s D ts : defs_wt D -> good (fun _ : sort => True) defs_wt (pb_sort cf F s D ts).
  Proof.
    intros HD. unfold pb_sort. apply (bind_good (fun _ => True) defs_wt); [apply parse_good; auto|]. intros t D1 r _ H1. destruct t; cbn; auto.
  Qed.
  Lemma read_dec_good s D ts : defs_wt D -> good (fun _ => True) defs_wt (read_dec cf F s D ts).
  Proof.
    intros HD. unfold read_dec. apply any_good. intros x _. apply any_good. intros r0 _.
    apply (bind_good (Forall (fun _ => True)) (fun p : venv * defs => defs_wt (snd p))).
    - apply seq_good; [|exact HD]. intros ND ts' H. apply svar_good. exact H.
    - intros params ND r1 _ H1. apply (bind_good (fun _ => True) defs_wt); [apply pb_sort_good; auto|]. intros so D1 r2 _ H2. cbn. auto.
  Qed.
  Lemma read_body_good s params so D ts : defs_wt D -> good (WS so) defs_wt (read_body cf F s params so D ts).
  Proof. intros HD. apply term_of_sort_good. exact HD. Qed.
  Lemma eq_wt a b : W a -> W b -> sort_of a = sort_of b -> W (TOp OEquals [a; b]).
  Proof. unfold W. intros Ha Hb E. cbn [wt forallb map]. rewrite Ha, Hb, E. cbn. rewrite sort_eqb_refl. reflexivity. Qed.
  Lemma var_terms_wt (params : list (string * sort)) : forallb wt (map (fun v => TVar (fst v) (snd v)) params) = true /\ map sort_of (map (fun v => TVar (fst v) (snd v)) params) = map snd params.
  Proof. induction params as [|v l [IH1 IH2]]; cbn; [auto|]. rewrite IH1, IH2. auto. Qed.
  Lemma rec_prem_wt E f params so body p : assoc f E = Some (rec_sort params so) -> WS so body -> rec_prem E f params body = ROk p -> W p.
  Proof.
    intros He [Hb1 Hb2] H. unfold rec_prem in H. rewrite He in H. injection H as <-. destruct params as [|v l].
    - cbn [rec_sort]. apply eq_wt; [reflexivity|exact Hb1|]. cbn. congruence.
    - cbn [rec_sort]. set (ps := v :: l). destruct (var_terms_wt ps) as [H1 H2].
      assert (He' : W (TOp OEquals [TApp (TVar f (SFun (map snd ps ++ [so]))) (map (fun v => TVar (fst v) (snd v)) ps); body])).
      { apply eq_wt; [|exact Hb1|].
        - unfold W. cbn [wt sort_of]. rewrite H1, H2, removelast_last. rewrite (proj2 (list_eqb_eq sort_eqb (map snd ps) (map snd ps) ltac:(intros; apply sort_eqb_eq)) eq_refl). destruct (map snd ps); reflexivity.
        - cbn [sort_of]. rewrite Hb2. apply last_last. }
      unfold W in *. cbn [wt] in *. rewrite He'. reflexivity.
  Qed.
  (** commands other than [define-funs-rec] *)
  Definition is_recs (ts : list token) : bool := match ts with KRes w :: _ => text_eqb w (chars "define-funs-rec") | _ => false end.
  Lemma read_bodies_dok decs : forall s ts, pok false s -> res (pok false) (read_bodies cf F s decs ts).
  Proof.
    induction decs as [|[[f params] so] decs IH]; intros s ts Hs; cbn [read_bodies]; [exact Hs|].
    apply (bind_res (WS so) defs_wt); [apply read_body_good; apply Hs|]. intros body D1 r1 _ H1. apply any_res. intros p _. apply IH. split; [exact H1|discriminate].
  Qed.
  Lemma read_recs_dok s r : pok false s -> res (pok false) (read_define_recs cf F s r).
  Proof.
    intros [HD _]. unfold read_define_recs. apply any_res. intros r0 _. apply (bind_res (fun _ => True) defs_wt).
    - pose proof (seq1_good (fun _ => True) defs_wt (fun D ts => do r <- expect is_open ts ; do x <- read_dec cf F s D r ; let '(d, D1, r1) := x in do r2 <- expect is_close r1 ; ROk (d, D1, r2)) F (pb_defs s) r0) as H.
      assert (Hi : good (fun l => Forall (fun _ => True) l /\ l <> []) defs_wt (seq1 (fun D ts => do r <- expect is_open ts ; do x <- read_dec cf F s D r ; let '(d, D1, r1) := x in do r2 <- expect is_close r1 ; ROk (d, D1, r2)) F (pb_defs s) r0)).
      { apply H; [|exact HD]. intros D ts HD'. apply any_good. intros r1 _. apply (bind_good (fun _ => True) defs_wt); [apply read_dec_good; auto|]. intros d D1 r2 _ H1. apply any_good. intros r3 _. cbn. auto. }
      destruct (seq1 _ _ _ _) as [[[l D1] r1]| |]; cbn in *; tauto.
    - intros ds D1 r1 _ H1. apply any_res. intros r2 _. pose proof (read_bodies_dok ds (declare_recs (set_defs s D1) ds) r2 (conj H1 (fun E => match Bool.diff_false_true E with end))) as Hb.
      destruct (read_bodies _ _ _ _ _) as [[s' r3]| |]; cbn [obind fst snd]; try exact Logic.I. apply any_res. intros r4 _. apply any_res. intros r5 _. exact Hb.
  Qed.
  Lemma read_pcmd_pok b s ts : pok b s -> (b = true -> is_recs ts = false) -> res (pok b) (read_pcmd cf apply_defs F s ts).
  Proof.
    intros [HD HP] Hr. unfold read_pcmd. assert (Hs : forall r, res (pok b) (do r1 <- skip_parens 1 r ; ROk (s, r1))) by (intros r; apply any_res; intros r1 _; split; auto).
    destruct ts as [|k r]; [exact Logic.I|]. destruct k; try apply Hs. cbn [is_recs] in Hr.
    destruct (text_eqb s0 (chars "declare-fun")).
    { unfold read_declare_fun. apply any_res. intros x _. apply any_res. intros r0 _. apply (bind_res (Forall (fun _ => True)) defs_wt); [apply seq_good; [intros; apply pb_sort_good; auto|auto]|].
      intros ss D1 r1 _ H1. apply (bind_res (fun _ => True) defs_wt); [apply pb_sort_good; auto|]. intros s1 D2 r2 _ H2. apply any_res. intros r3 _. split; auto. }
    destruct (text_eqb s0 (chars "declare-const")).
    { unfold read_declare_const. apply any_res. intros x _. apply (bind_res (fun _ => True) defs_wt); [apply pb_sort_good; auto|]. intros s1 D2 r2 _ H2. apply any_res. intros r3 _. split; auto. }
    destruct (text_eqb s0 (chars "declare-sort")).
    { unfold read_declare_sort. apply any_res. intros x _. destruct (snd x) as [|[] [|[] l]]; try exact Logic.I. destruct (_ && _); [split; auto|exact Logic.I]. }
    destruct (text_eqb s0 (chars "define-fun")).
    { unfold read_define_fun. apply (bind_res (fun _ => True) defs_wt); [apply read_dec_good; auto|]. intros [[f params] so] D1 r1 _ H1.
      apply (bind_res (WS so) defs_wt); [apply read_body_good; auto|]. intros body D2 r2 [Hb1 Hb2] H2. apply any_res. intros r3 _. destruct apply_defs.
      - split; [apply defs_cons; auto|exact HP].
      - split; [exact H2|]. cbn. intros Eb. apply add_prem_W; [exact (HP Eb)|]. apply eq_wt; [reflexivity| |reflexivity]. destruct params; [exact Hb1|]. unfold W. cbn [wt]. rewrite Hb1. reflexivity. }
    destruct (text_eqb s0 (chars "define-fun-rec")).
    { unfold read_define_rec. apply (bind_res (fun _ => True) defs_wt); [apply read_dec_good; auto|]. intros [[f params] so] D1 r1 _ H1.
      cbn [read_bodies]. apply any_res. intros [s2 r2] H2. apply obind_ok in H2. destruct H2 as [[[body D2] r3] [H2 H3]].
      pose proof (read_body_good (declare_recs (set_defs s D1) [(f, params, so)]) params so D1 r1 H1) as Hg. cbn [declare_recs set_defs pb_defs set_vars] in H2. rewrite H2 in Hg. destruct Hg as [Hb HD2].
      apply obind_ok in H3. destruct H3 as [p [Hp H3]]. injection H3 as <- <-. apply any_res. intros r4 _. split; [exact HD2|]. cbn. intros Eb. apply add_prem_W; [exact (HP Eb)|].
      apply (rec_prem_wt (pb_vars (declare_recs (set_defs s D1) [(f, params, so)])) f params so body p); [|exact Hb|exact Hp]. cbn. rewrite String.eqb_refl. reflexivity. }
    destruct (text_eqb s0 (chars "define-funs-rec")).
    { destruct b; [discriminate (Hr eq_refl)|]. apply read_recs_dok. split; auto. }
    destruct (text_eqb s0 (chars "define-sort")).
    { unfold read_define_sort. apply any_res. intros x _. apply any_res. intros r0 _. apply any_res. intros [[ps u] r1] _.
      apply (bind_res (fun _ => True) defs_wt); [apply pb_sort_good; auto|]. intros so D1 r2 _ H1. apply any_res. intros r3 _. split; auto. }
    destruct (text_eqb s0 (chars "assert")).
    { unfold read_assert. apply (bind_res W defs_wt); [apply parse_good; auto|]. intros t D1 r1 Ht H1. apply any_res. intros r2 _. split; [exact H1|]. cbn. intros Eb. apply add_prem_W; auto. }
    destruct (text_eqb s0 (chars "check-sat-assuming")).
    { unfold read_assuming. apply any_res. intros r0 _. apply (bind_res (fun l => Forall W l /\ l <> []) defs_wt); [apply seq1_good; [intros; apply parse_good; auto|auto]|].
      intros l D1 r1 [Hl _] H1. apply any_res. intros r2 _. split; [exact H1|]. cbn. intros Eb. apply add_prems_W; auto. }
    destruct (text_eqb s0 (chars "set-logic")); [|apply Hs].
    unfold read_set_logic. apply any_res. intros x _. apply any_res. intros r1 _. split; auto.
  Qed.
  (** no command of the text that is reached is a [define-funs-rec] *)
  Fixpoint no_recs (n : nat) (s : pbstate) (ts : list token) : bool :=
    match ts, n with
    | KOpen :: r, S n => negb (is_recs r) && match read_pcmd cf apply_defs F s r with ROk (s', r') => no_recs n s' r' | _ => true end
    | _, _ => true
    end.
  Lemma read_pcmds_pok b n : forall s ts s', pok b s -> (b = true -> no_recs n s ts = true) -> read_pcmds cf apply_defs F n s ts = ROk s' -> pok b s'.
  Proof.
    induction n as [|n IH]; intros s ts s' Hs Hn H; destruct ts as [|k r]; cbn [read_pcmds] in H; try (injection H as <-; exact Hs); destruct k; try discriminate.
    apply obind_ok in H. destruct H as [[s1 r1] [H1 H]]. pose proof (read_pcmd_pok b s r Hs) as Hp. rewrite H1 in Hp. cbn [no_recs] in Hn. rewrite H1 in Hn.
    apply (IH s1 r1 s'); [apply Hp|intros Eb|exact H].
    - intros Eb. specialize (Hn Eb). apply andb_true_iff in Hn. destruct Hn as [Hn _]. apply negb_true_iff in Hn. exact Hn.
    - specialize (Hn Eb). apply andb_true_iff in Hn. apply Hn.
  Qed.
End Problem.
Lemma read_problem_defs cf ap txt s : read_problem_text cf ap txt = ROk s -> defs_wt (pb_defs s).
Proof.
  intros H. unfold read_problem_text in H. apply obind_ok in H. destruct H as [ts [_ H]]. apply (read_pcmds_pok cf ap (fuel_for ts) false _ _ _ _) in H; [apply H| |discriminate].
  split; [intros x d Hx; discriminate Hx|discriminate].
Qed.
(** the text has no [define-funs-rec] command *)
Definition no_funs_rec (cf : pcfg) (ap : bool) (txt : text) : bool :=
  match lex_all txt with ROk ts => no_recs cf ap (fuel_for ts) (S (List.length ts)) pb0 ts | _ => true end.
Lemma read_problem_prems cf ap txt s : read_problem_text cf ap txt = ROk s -> no_funs_rec cf ap txt = true -> forallb wt (pb_prems s) = true.
Proof.
  intros H Hn. unfold read_problem_text in H. apply obind_ok in H. destruct H as [ts [El H]]. unfold no_funs_rec in Hn. rewrite El in Hn.
  apply (read_pcmds_pok cf ap (fuel_for ts) true _ _ _ _) in H; [|split; [intros x d Hx; discriminate Hx|constructor]|auto]. apply Forall_W. apply H. reflexivity.
Qed.
