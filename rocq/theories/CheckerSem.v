(** Soundness of the sequential checker relative to the soundness of its rules. The meaning of a proof
    command inside nested subproofs is given by a chain of environments, one per open anchor. *)
From Coq Require Import List String ZArith Bool Arith Lia.
From Verif Require Import Base Term Field Sem Sorting Rules Polyeq Std PolyeqSound Checker CheckerSound.
Import ListNotations.

(** ** Specification: meaning of anchors *)
Definition bound_var (a : anchor) : sorted_var := match a with AVar v | AAssign v _ => v end.
(** [ext a E E']: [E'] extends [E] according to the anchor arguments [a], in order: a declared variable
    takes any value of its sort, an assigned variable the value of its term. *)
Inductive ext {I : interp} : list anchor -> env I -> env I -> Prop :=
| ext_nil E : ext [] E E
| ext_var x s v a E E' : idom I s v = true -> ext a (upd E x s v) E' -> ext (AVar (x, s) :: a) E E'
| ext_asg x s t a E E' : ext a (upd E x s (eval t E)) E' -> ext (AAssign (x, s) t :: a) E E'.
(** environments possible inside the open anchors [cx] (innermost first) *)
Inductive in_ctx {I : interp} : list (list anchor) -> env I -> Prop :=
| in_ctx_nil E : env_ok E -> in_ctx [] E
| in_ctx_cons a cx E E' : in_ctx cx E -> ext a E E' -> in_ctx (a :: cx) E'.
Definition anchor_wt (a : anchor) : bool :=
  match a with AVar _ => true | AAssign (_, s) t => wt t && sort_eqb (sort_of t) s end.
Definition free_of (a : anchor) (t : term) : bool := negb (free_in (fst (bound_var a)) (snd (bound_var a)) t).
(** no literal of [c] mentions a variable bound by [a] *)
Definition closed_under (a : list anchor) (c : clause) : bool := forallb (fun t => forallb (fun b => free_of b t) a) c.

Section Ext.
  Context {I : interp}.
  Lemma ext_ok a (E E' : env I) : ext a E E' -> env_ok E -> forallb anchor_wt a = true -> env_ok E'.
  Proof.
    induction 1 as [E|x s v a E E' Hv H IH|x s t a E E' H IH]; intros HE Hw; auto; cbn [forallb] in Hw;
      apply andb_true_iff in Hw; destruct Hw as [Ha Hw].
    - apply IH; auto. apply env_ok_upd; auto.
    - apply IH; auto. apply env_ok_upd; auto. cbn in Ha. apply andb_true_iff in Ha. destruct Ha as [Ht Hs].
      apply sort_eqb_eq in Hs. subst. apply eval_dom; auto.
  Qed.
  Lemma ext_exists a : forall E : env I, env_ok E -> forallb anchor_wt a = true -> exists E', ext a E E'.
  Proof.
    induction a as [|b a IH]; intros E HE Hw; [exists E; constructor|]. cbn [forallb] in Hw. apply andb_true_iff in Hw.
    destruct Hw as [Hb Hw]. destruct b as [[x s]|[x s] t].
    - destruct (IH (upd E x s (E x s))) as [E' H]; auto; [apply env_ok_upd; auto|]. exists E'. econstructor; eauto.
    - cbn in Hb. apply andb_true_iff in Hb. destruct Hb as [Ht Hs]. apply sort_eqb_eq in Hs. subst.
      destruct (IH (upd E x (sort_of t) (eval t E))) as [E' H]; auto.
      + apply env_ok_upd; auto. apply eval_dom; auto.
      + exists E'. econstructor; eauto.
  Qed.
  Lemma ext_notin a (E E' : env I) : ext a E E' -> forall y s, ~ In (y, s) (map bound_var a) -> E' y s = E y s.
  Proof.
    induction 1 as [E|x s0 v a E E' Hv H IH|x s0 t a E E' H IH]; intros y s Hn; auto; cbn in Hn;
      rewrite IH by tauto; apply upd_other; intros Hq; apply Hn; left; congruence.
  Qed.
  Lemma free_of_spec a t : forallb (fun b => free_of b t) a = true ->
    forall x s, free_in x s t = true -> ~ In (x, s) (map bound_var a).
  Proof.
    intros H x s Hf Hin. apply in_map_iff in Hin. destruct Hin as [b [Hb Hin]]. rewrite forallb_forall in H.
    apply H in Hin. unfold free_of in Hin. rewrite Hb in Hin. cbn in Hin. rewrite Hf in Hin. discriminate.
  Qed.
  Lemma ext_eval a (E E' : env I) t : ext a E E' -> forallb (fun b => free_of b t) a = true -> eval t E' = eval t E.
  Proof.
    intros H Hf. apply eval_agree. intros x s Hx. apply (ext_notin _ _ _ H). eapply free_of_spec; eauto.
  Qed.
  Lemma ext_clause a (E E' : env I) c : ext a E E' -> closed_under a c = true -> (clause_holds E' c <-> clause_holds E c).
  Proof.
    intros H Hc. unfold closed_under in Hc. rewrite forallb_forall in Hc.
    split; intros [l [Hl Hh]]; exists l; split; auto; unfold holds in *; [rewrite <- (ext_eval _ _ _ l H)|rewrite (ext_eval _ _ _ l H)]; auto.
  Qed.
  Lemma in_ctx_ok cx (E : env I) : in_ctx cx E -> forallb (forallb anchor_wt) cx = true -> env_ok E.
  Proof.
    induction 1; auto. cbn [forallb]. rewrite andb_true_iff. intros [H1 H2]. eapply ext_ok; eauto.
  Qed.
End Ext.

(** ** Specification: soundness of a rule in context *)
Definition cmd_ok (c : command) : bool := match c with CAssume _ t => bool_term t | _ => true end.
Definition ra_wt (ra : rargs) : bool :=
  clause_wt (ra_concl ra) && forallb clause_wt (ra_prems ra) && forallb (forallb anchor_wt) (ra_ctx ra)
  && (match ra_prev ra with Some p => clause_wt p | None => true end) && forallb cmd_ok (ra_disch ra).
(** an ordinary step: the conclusion holds wherever the premises do, inside the open anchors *)
Definition step_sound (r : crule) (side : rargs -> bool) : Prop :=
  forall ra, r ra = ROk tt -> side ra = true -> ra_wt ra = true -> ra_prev ra = None ->
  forall (I : interp) (E : env I), in_ctx (ra_ctx ra) E ->
    (forall p, In p (ra_prems ra) -> clause_holds E p) -> clause_holds E (ra_concl ra).
(** the last step of a subproof: its conclusion holds outside the innermost anchor, provided that inside,
    under the discharged assumptions, the premises and the previous command hold *)
Definition end_sound (r : crule) (side : rargs -> bool) : Prop :=
  forall ra a cx prev, r ra = ROk tt -> side ra = true -> ra_wt ra = true ->
    ra_ctx ra = a :: cx -> ra_prev ra = Some prev ->
  forall (I : interp) (E : env I), in_ctx cx E ->
    (forall E', ext a E E' -> (forall id t, In (CAssume id t) (ra_disch ra) -> holds E' t = true) ->
       (forall p, In p (ra_prems ra) -> clause_holds E' p) /\ clause_holds E' prev) ->
    clause_holds E (ra_concl ra).

(** Side condition for exporting a clause from a subproof by a rule that ignores the anchor. *)
Definition end_closed (ra : rargs) : bool :=
  match ra_ctx ra with a :: _ => closed_under a (ra_concl ra) | [] => false end.
Definition no_disch (ra : rargs) : bool := match ra_disch ra with [] => true | _ => false end.

Lemma plain_step r : rule_sound r -> forall side, step_sound (plain r) side.
Proof.
  intros Hr side ra Ha _ Hw _ I E HE Hp. unfold ra_wt in Hw. rewrite !andb_true_iff in Hw. destruct Hw as [[[[H1 H2] H3] _] _].
  apply (Hr _ _ _ Ha H1 H2 I E); auto. eapply in_ctx_ok; eauto.
Qed.
Lemma plain_end r : rule_sound r -> end_sound (plain r) (fun ra => end_closed ra && no_disch ra).
Proof.
  intros Hr ra a cx prev Ha Hs Hw Hcx _ I E HE Hin. apply andb_true_iff in Hs. destruct Hs as [Hs Hd].
  unfold ra_wt in Hw. rewrite !andb_true_iff in Hw. destruct Hw as [[[[H1 H2] H3] _] _].
  unfold end_closed in Hs. rewrite Hcx in Hs, H3. cbn [forallb] in H3. apply andb_true_iff in H3. destruct H3 as [Hwa H3].
  pose proof (in_ctx_ok _ _ HE H3) as HEok.
  destruct (ext_exists a E HEok Hwa) as [E' He].
  unfold no_disch in Hd. destruct (ra_disch ra) eqn:Ed; [|discriminate].
  rewrite <- (ext_clause a E E' _ He Hs). apply (Hr _ _ _ Ha H1 H2 I E'); [eapply ext_ok; eauto|].
  apply Hin; auto.
Qed.

(** The [subproof] rule (discharge), given that the compared terms are standard. *)
Definition std_term (t : term) : bool := std_lits t && scoped t.
Definition subproof_side (ra : rargs) : bool :=
  end_closed ra && forallb std_term (ra_concl ra)
  && (match ra_prev ra with Some p => forallb std_term p | None => true end)
  && forallb (fun c => match c with CAssume _ t => std_term t | _ => true end) (ra_disch ra).
Lemma clause_wt_In c t : clause_wt c = true -> In t c -> bool_term t = true.
Proof. unfold clause_wt. rewrite forallb_forall. auto. Qed.
Lemma bool_term_wt t : bool_term t = true -> wt t = true.
Proof. unfold bool_term. rewrite andb_true_iff. tauto. Qed.
Lemma std_term_spec t : std_term t = true -> std_lits t = true /\ scoped t = true.
Proof. unfold std_term. rewrite andb_true_iff. tauto. Qed.
Lemma std_not t : std_term (tNot t) = true -> std_term t = true.
Proof.
  unfold std_term, std_lits, scoped, tNot. cbn [all_sub forallb]. rewrite !andb_true_iff. tauto.
Qed.
Lemma bool_not t : bool_term (tNot t) = true -> bool_term t = true.
Proof.
  unfold bool_term, tNot. cbn [wt sort_of op_sort map forallb op_wt]. rewrite !andb_true_iff. intros [[[H _] H1] _]. split; [exact H|].
  unfold sorts_are in H1. apply list_eqb_eq in H1; [|apply sort_eqb_eq]. injection H1 as <-. apply sort_eqb_refl.
Qed.
Lemma assert_polyeq_eval a b : assert_polyeq a b = ROk tt -> bool_term a = true -> bool_term b = true ->
  std_term a = true -> std_term b = true -> forall I (E : env I), env_ok E -> holds E a = holds E b.
Proof.
  unfold assert_polyeq. intros H Wa Wb Sa Sb I E HE. apply obind_ok in H. destruct H as [r [Hr H]]. apply rassert_ok in H. subst r.
  apply std_term_spec in Sa, Sb. unfold holds. f_equal. apply polyeq_sound; try tauto; apply bool_term_wt; auto.
Qed.
Lemma disch_ok_spec ds : forall c, disch_ok ds c = ROk tt -> List.length ds < List.length c ->
  forall I (E : env I), env_ok E -> clause_wt c = true -> forallb std_term c = true ->
  forallb cmd_ok ds = true -> forallb (fun c => match c with CAssume _ t => std_term t | _ => true end) ds = true ->
  (forall id t, In (CAssume id t) ds -> holds E t = true) \/ clause_holds E (firstn (List.length ds) c).
Proof.
  induction ds as [|d ds IH]; intros c H Hlen I E HE Wc Sc Wd Sd; [left; intros id t []|].
  destruct c as [|t c]; [cbn in Hlen; lia|]. cbn [disch_ok] in H. destruct d as [id a| |]; try discriminate.
  apply obind_ok in H. destruct H as [t' [Ht H]]. apply obind_ok in H. destruct H as [[] [Hp H]].
  unfold rm_neg, remove_negation in Ht. apply ok_or_ok in Ht. apply op1_some in Ht. subst t.
  unfold clause_wt in Wc. cbn [forallb cmd_ok List.length] in *. rewrite !andb_true_iff in *. destruct Wc as [Wt Wc], Sc as [St Sc], Wd as [Wa Wd], Sd as [Sa Sd].
  destruct (IH c H ltac:(lia) I E HE Wc Sc Wd Sd) as [Hall|Hc].
  2:{ right. cbn [firstn]. apply clause_holds_cons. auto. }
  destruct (holds E a) eqn:Ha.
  - left. intros id' u [Heq|Hin]; [injection Heq as <- <-; exact Ha|eauto].
  - right. cbn [firstn]. apply clause_holds_cons. left.
    pose proof (assert_polyeq_eval a t' Hp Wa (bool_not _ Wt) Sa (std_not _ St) I E HE) as Heq.
    change (TOp ONot [t']) with (tNot t'). rewrite holds_not, <- Heq, Ha. reflexivity.
Qed.
Lemma subproof_end : end_sound subproof subproof_side.
Proof.
  intros ra a cx prev Ha Hs Hw Hcx Hprev I E HE Hin.
  unfold subproof_side in Hs. rewrite !andb_true_iff, Hprev in Hs. destruct Hs as [[[Hcl Sc] Sp] Sd].
  unfold ra_wt in Hw. rewrite !andb_true_iff, Hprev in Hw. destruct Hw as [[[[H1 H2] H3] Hwp] Hwd].
  unfold end_closed in Hcl. rewrite Hcx in Hcl, H3. cbn [forallb] in H3. apply andb_true_iff in H3. destruct H3 as [Hwa H3].
  pose proof (in_ctx_ok _ _ HE H3) as HEok.
  destruct (ext_exists a E HEok Hwa) as [E' He].
  assert (HE'ok : env_ok E') by (eapply ext_ok; eauto).
  unfold subproof in Ha. rewrite Hprev in Ha. cbn [ok_or obind] in Ha. apply rassert_bind in Ha. destruct Ha as [Hlen Ha].
  apply Nat.eqb_eq in Hlen. apply obind_ok in Ha. destruct Ha as [[] [Hd Ha]].
  apply obind_ok in Ha. destruct Ha as [phi [Hphi Ha]]. apply obind_ok in Ha. destruct Ha as [l [Hl Ha]].
  apply unwrap_ok in Hl.
  rewrite <- (ext_clause a E E' _ He Hcl).
  destruct (disch_ok_spec _ _ Hd ltac:(lia) I E' HE'ok H1 Sc Hwd Sd) as [Hall|Hc].
  - destruct (Hin E' He Hall) as [_ Hpv]. exists l. split; [eapply nth_error_In; eauto|].
    pose proof (nth_error_In _ _ Hl) as Hinl.
    assert (Hp : bool_term phi = true /\ std_term phi = true /\ holds E' phi = true).
    { destruct prev as [|t [|]]; try discriminate; injection Hphi as <-.
      - destruct (clause_holds_nil E' Hpv).
      - unfold clause_wt in Hwp. cbn [forallb] in Hwp, Sp. rewrite andb_true_r in *.
        rewrite clause_holds_one in Hpv. auto. }
    destruct Hp as [Wp [Spp Hh]]. rewrite (assert_polyeq_eval l phi Ha); auto.
    + apply (clause_wt_In (ra_concl ra)); auto.
    + rewrite forallb_forall in Sc. auto.
  - eapply clause_holds_incl; [|exact Hc]. intros x Hx. rewrite <- (firstn_skipn (List.length (ra_disch ra)) (ra_concl ra)).
    apply in_or_app. auto.
Qed.
Lemma subproof_step side : step_sound subproof side.
Proof. intros ra H _ _ Hp. unfold subproof in H. rewrite Hp in H. discriminate. Qed.

(** ** Well-formed proofs *)
(** A premise (depth, index) refers to a command that has already been completed in that scope. *)
Definition visible (stk : stack) (p : nat * nat) : bool :=
  match nth_error (rev stk) (fst p) with Some (k, _) => Nat.ltb (S (snd p)) k | None => false end.
(** the premise does not mention variables rebound between its scope and the current one *)
Definition prem_closed (stk : stack) (cx : list (list anchor)) (p : nat * nat) : bool :=
  match get_premise stk p with
  | ROk c => forallb (fun a => closed_under a c) (firstn (depth stk - fst p) cx)
  | _ => true
  end.
(** every clause is a list of well-sorted Boolean terms, every anchor assigns terms of the right sort *)
Fixpoint cmd_wt (c : command) : bool :=
  match c with
  | CAssume _ t => bool_term t
  | CStep s => clause_wt (s_clause s)
  | CSub cs args _ => forallb anchor_wt args && forallb cmd_wt cs
  end.

Section Sound.
  Variable table : bool -> string -> option crule.
  Variable cfg : config.
  Variable prems : list term.
  (** side conditions under which the rules of the table are sound; the flag tells an end step *)
  Variable side : bool -> string -> rargs -> bool.
  Definition wf_step (stk : stack) (cx : list (list anchor)) (s : step) : bool :=
    forallb (visible stk) (s_prems s) && forallb (prem_closed stk cx) (s_prems s)
    && match mk_rargs stk cx s with ROk ra => side (is_end_step stk) (s_rule s) ra | _ => true end.
  Fixpoint wf_cmd (c : command) (stk : stack) (cx : list (list anchor)) {struct c} : bool :=
    match c with
    | CAssume _ _ => true
    | CStep s => wf_step stk cx s
    | CSub sub args _ =>
        (fix go (l : list command) (i : nat) {struct l} : bool :=
           match l with [] => true | x :: r => wf_cmd x ((S i, sub) :: stk) (args :: cx) && go r (S i) end) sub 0
    end.
  Fixpoint wf_list (sub : list command) (out : stack) (cx : list (list anchor)) (l : list command) (i : nat) : bool :=
    match l with [] => true | x :: r => wf_cmd x ((S i, sub) :: out) cx && wf_list sub out cx r (S i) end.
  Definition wf_proof (proof : list command) : bool := wf_list proof [] [] proof 0.
  Lemma wf_sub sub args k stk cx : wf_cmd (CSub sub args k) stk cx = wf_list sub stk (args :: cx) sub 0.
  Proof.
    cbn [wf_cmd]. generalize 0. assert (H : forall l n,
      (fix go (l : list command) (i : nat) {struct l} : bool :=
           match l with [] => true | x :: r => wf_cmd x ((S i, sub) :: stk) (args :: cx) && go r (S i) end) l n
      = wf_list sub stk (args :: cx) l n).
    { induction l as [|x r IH]; intros n; [reflexivity|]. cbn [wf_list]. f_equal. apply IH. }
    intros n. apply H.
  Qed.
  Lemma wf_list_app sub out cx l1 : forall l2 i,
    wf_list sub out cx (l1 ++ l2) i = wf_list sub out cx l1 i && wf_list sub out cx l2 (i + List.length l1).
  Proof.
    induction l1 as [|x r IH]; intros l2 i; cbn [wf_list app List.length].
    - rewrite Nat.add_0_r. reflexivity.
    - rewrite IH, andb_assoc. replace (i + S (List.length r)) with (S i + List.length r) by lia. reflexivity.
  Qed.

  (** The rules of the table are sound under the side conditions. *)
  Definition table_sound : Prop := forall name r, table (elaborated cfg) name = Some r ->
    name <> "hole"%string -> name <> "lia_generic"%string ->
    step_sound r (side false name) /\
    end_sound r (fun ra => side true name ra && (String.eqb name "subproof" || no_disch ra)).
  Hypothesis Htable : table_sound.

  Context {I : interp}.
  (** the commands already completed in a scope hold in the environment of the scope *)
  Definition seg (i : nat) (cs : list command) (E : env I) : Prop :=
    forall j c cl, S j < i -> nth_error cs j = Some c -> cmd_clause c = Some cl -> clause_holds E cl.
  Inductive facts : stack -> list (list anchor) -> env I -> Prop :=
  | facts_top i cs E : env_ok E -> seg i cs E -> facts [(i, cs)] [] E
  | facts_sub i cs stk a cx E E' : facts stk cx E -> ext a E E' -> seg i cs E' -> facts ((i, cs) :: stk) (a :: cx) E'.
  Lemma facts_ctx stk cx E : facts stk cx E -> in_ctx cx E.
  Proof. induction 1; econstructor; eauto. Qed.
  Lemma facts_len stk cx E : facts stk cx E -> List.length stk = S (List.length cx).
  Proof. induction 1; cbn; congruence. Qed.
  Lemma facts_prem stk cx E : facts stk cx E -> forall p c, visible stk p = true ->
    get_premise stk p = ROk c -> forallb (fun a => closed_under a c) (firstn (depth stk - fst p) cx) = true -> clause_holds E c.
  Proof.
    induction 1 as [i cs E HE Hseg|i cs stk a cx E E' Hf IH He Hseg]; intros [d j] c Hv Hg Hcl.
    - unfold visible in Hv. unfold get_premise, get_command in Hg. cbn [fst snd rev app] in *.
      destruct d as [|d]; [|destruct d; discriminate]. cbn [nth_error unwrap obind snd] in *. apply Nat.ltb_lt in Hv.
      destruct (nth_error cs j) eqn:Ej; [|discriminate]. cbn [unwrap obind] in Hg. apply unwrap_ok in Hg.
      eapply Hseg; eauto.
    - unfold visible in Hv. unfold get_premise, get_command in Hg. cbn [fst snd rev] in *.
      destruct (Nat.ltb d (List.length stk)) eqn:Ed.
      + apply Nat.ltb_lt in Ed. rewrite nth_error_app1 in Hv, Hg by (rewrite rev_length; lia).
        unfold depth in Hcl. cbn [List.length] in Hcl.
        replace (S (List.length stk) - 1 - d) with (S (depth stk - d)) in Hcl by (unfold depth; lia).
        cbn [firstn forallb] in Hcl. apply andb_true_iff in Hcl. destruct Hcl as [Ha Hcl].
        rewrite (ext_clause a E E' c He Ha). apply (IH (d, j)); auto.
      + apply Nat.ltb_ge in Ed. rewrite nth_error_app2 in Hv, Hg by (rewrite rev_length; lia). rewrite rev_length in *.
        destruct (d - List.length stk) as [|k]; [|destruct k; discriminate]. cbn [nth_error unwrap obind snd] in *.
        apply Nat.ltb_lt in Hv. destruct (nth_error cs j) eqn:Ej; [|discriminate]. cbn [unwrap obind] in Hg. apply unwrap_ok in Hg.
        eapply Hseg; eauto.
  Qed.
  Lemma omap_prems stk cx E l : facts stk cx E -> forallb (visible stk) l = true -> forallb (prem_closed stk cx) l = true ->
    forall ps, omap (get_premise stk) l = ROk ps -> forall p, In p ps -> clause_holds E p.
  Proof.
    intros Hf. induction l as [|x r IH]; cbn [forallb omap]; intros Hv Hc ps H p Hin; [injection H as <-; contradiction|].
    apply andb_true_iff in Hv, Hc. destruct Hv as [Hv1 Hv], Hc as [Hc1 Hc]. apply obind_ok in H. destruct H as [c [Hx H]].
    apply obind_ok in H. destruct H as [cs [Hr H]]. injection H as <-. destruct Hin as [<-|Hin]; [|eapply IH; eauto].
    unfold prem_closed in Hc1. rewrite Hx in Hc1. eapply facts_prem; eauto.
  Qed.

  (** well-sortedness of what a step sees *)
  Definition stk_wt (stk : stack) : Prop := forall e, In e stk -> forallb cmd_wt (snd e) = true.
  Lemma cmd_wt_clause c : cmd_wt c = true -> forall cl, cmd_clause c = Some cl -> clause_wt cl = true.
  Proof.
    induction c as [id t|s|cs a k IH] using command_ind'; cbn [cmd_wt cmd_clause]; intros Hw cl Hc.
    - injection Hc as <-. unfold clause_wt. cbn. rewrite Hw. reflexivity.
    - injection Hc as <-. exact Hw.
    - apply andb_true_iff in Hw. destruct Hw as [_ Hw]. induction cs as [|x r IHr]; [discriminate|].
      inversion IH; subst. cbn [forallb] in Hw. apply andb_true_iff in Hw. destruct Hw as [Hx Hw].
      destruct r as [|y r]; [eauto|]. apply IHr; auto.
  Qed.
  Lemma get_command_wt stk p c : stk_wt stk -> get_command stk p = ROk c -> cmd_wt c = true.
  Proof.
    intros Hs H. unfold get_command in H. apply obind_ok in H. destruct H as [e [He H]]. apply unwrap_ok in He, H.
    apply nth_error_In in He, H. apply in_rev in He. apply Hs in He. rewrite forallb_forall in He. auto.
  Qed.
  Lemma mk_rargs_wt stk cx s ra : mk_rargs stk cx s = ROk ra -> stk_wt stk -> clause_wt (s_clause s) = true ->
    forallb (forallb anchor_wt) cx = true -> ra_wt ra = true.
  Proof.
    intros H Hs Hc Hx. unfold mk_rargs in H. apply obind_ok in H. destruct H as [prev [Hp H]].
    apply obind_ok in H. destruct H as [ps [Hps H]]. apply obind_ok in H. destruct H as [ds [Hds H]]. injection H as <-.
    unfold ra_wt. cbn [ra_concl ra_prems ra_ctx ra_prev ra_disch]. rewrite Hc, Hx. cbn [andb].
    assert (H1 : forallb clause_wt ps = true).
    { revert ps Hps. induction (s_prems s) as [|x r IH]; cbn [omap]; intros ps Hps; [injection Hps as <-; reflexivity|].
      apply obind_ok in Hps. destruct Hps as [c [Hg Hps]]. apply obind_ok in Hps. destruct Hps as [cs [Hr Hps]]. injection Hps as <-.
      cbn [forallb]. rewrite (IH _ Hr), andb_true_r. unfold get_premise in Hg. apply obind_ok in Hg. destruct Hg as [c0 [Hg Hu]].
      apply unwrap_ok in Hu. eapply cmd_wt_clause; [|exact Hu]. eapply get_command_wt; eauto. }
    rewrite H1. cbn [andb].
    assert (H2 : forallb cmd_ok ds = true).
    { revert ds Hds. induction (s_disch s) as [|x r IH]; cbn [omap]; intros ds Hds; [injection Hds as <-; reflexivity|].
      apply obind_ok in Hds. destruct Hds as [c [Hg Hds]]. apply obind_ok in Hds. destruct Hds as [cs [Hr Hds]]. injection Hds as <-.
      cbn [forallb]. rewrite (IH _ Hr), andb_true_r. apply get_command_wt in Hg; auto. destruct c; auto. }
    rewrite H2, andb_true_r. destruct prev as [p|]; [|reflexivity].
    unfold previous_command in Hp. destruct (is_end_step stk); [|discriminate]. destruct stk as [|[i cs] stk]; [discriminate|].
    destruct (List.length cs <? 2); [discriminate|]. destruct (nth_error cs (List.length cs - 2)) eqn:En; [|discriminate].
    apply obind_ok in Hp. destruct Hp as [cl [Hcl Hp]]. injection Hp as ->. apply unwrap_ok in Hcl.
    eapply cmd_wt_clause; [|exact Hcl]. apply nth_error_In in En. specialize (Hs (i, cs) (or_introl eq_refl)). cbn in Hs.
    rewrite forallb_forall in Hs. auto.
  Qed.
  Lemma mk_rargs_fields stk cx s ra : mk_rargs stk cx s = ROk ra ->
    ra_concl ra = s_clause s /\ ra_ctx ra = cx /\ previous_command stk = ROk (ra_prev ra) /\
    omap (get_premise stk) (s_prems s) = ROk (ra_prems ra) /\ omap (get_command stk) (s_disch s) = ROk (ra_disch ra).
  Proof.
    intros H. unfold mk_rargs in H. apply obind_ok in H. destruct H as [prev [Hp H]].
    apply obind_ok in H. destruct H as [ps [Hps H]]. apply obind_ok in H. destruct H as [ds [Hds H]]. injection H as <-. cbn. auto.
  Qed.
  (** an accepted step which was really checked *)
  Lemma step_core_real s ra is_end sub d : step_core table cfg s ra is_end sub d = ROk false ->
    exists r, table (elaborated cfg) (s_rule s) = Some r /\ r ra = ROk tt /\
      s_rule s <> "hole"%string /\ s_rule s <> "lia_generic"%string /\
      (s_disch s = [] \/ s_rule s = "subproof"%string) /\
      (is_end = true -> forall cs, sub = Some cs -> check_discharge 0 cs d (s_disch s) = ROk tt).
  Proof.
    unfold step_core. intros H. destruct (memb String.eqb (s_rule s) (allowed cfg)); [discriminate|].
    destruct (negb (List.length (s_disch s) =? 0) && negb (s_rule s =? "subproof")%string) eqn:Ed; [discriminate|].
    destruct (table (elaborated cfg) (s_rule s)) as [r|] eqn:Et; [|destruct (ignore_unknown cfg); discriminate].
    exists r. split; [reflexivity|]. apply obind_ok in H. destruct H as [[] [Hr H]]. split; [exact Hr|].
    apply obind_ok in H. destruct H as [[] [Hd H]]. injection H as H. apply orb_false_iff in H. destruct H as [Hh Hl].
    apply String.eqb_neq in Hh, Hl. repeat split; auto.
    - apply andb_false_iff in Ed. destruct Ed as [Ed|Ed]; apply negb_false_iff in Ed.
      + left. apply Nat.eqb_eq in Ed. destruct (s_disch s); [reflexivity|discriminate].
      + right. apply String.eqb_eq in Ed. exact Ed.
    - intros -> cs ->. exact Hd.
  Qed.
  Lemma omap_In {A B} (f : A -> outcome B) l : forall bs, omap f l = ROk bs -> forall a, In a l -> exists b, f a = ROk b /\ In b bs.
  Proof.
    induction l as [|x r IH]; cbn [omap]; intros bs H a Ha; [contradiction|].
    apply obind_ok in H. destruct H as [b [Hb H]]. apply obind_ok in H. destruct H as [cs [Hr H]]. injection H as <-.
    destruct Ha as [->|Ha]; [exists b; cbn; auto|]. destruct (IH _ Hr _ Ha) as [b' [H1 H2]]. exists b'; cbn; auto.
  Qed.

  Lemma run_sound c : forall i cs out cx st st', run table cfg prems c ((i, cs) :: out) st = ROk st' ->
    st_ctx st = cx -> shape_ok c = true -> (out = [] \/ i < List.length cs) ->
    wf_cmd c ((i, cs) :: out) cx = true -> stk_wt ((i, cs) :: out) -> cmd_wt c = true ->
    forallb (forallb anchor_wt) cx = true -> st_holey st' = false ->
    forall E, facts ((i, cs) :: out) cx E -> (forall id t, c = CAssume id t -> holds E t = true) ->
    forall cl, cmd_clause c = Some cl -> clause_holds E cl.
  Proof.
    induction c as [id t|s|sub args k IH] using command_ind'; intros i cs out cx st st' H Hcx Hs Hi Hwf Hstk Hwt Hcxwt Hh E Hf Ha cl Hcl.
    - injection Hcl as <-. apply clause_holds_one. eauto.
    - injection Hcl as <-. cbn [run do_command] in H. apply do_step_inv in H.
      destruct H as [ra [Hra [_ [_ [h [Hcore Hho]]]]]]. rewrite Hh in Hho. symmetry in Hho. apply orb_false_iff in Hho. destruct Hho as [_ ->].
      assert (He : is_end_step ((i, cs) :: out) = false).
      { destruct Hi as [->|Hi]; [reflexivity|]. apply is_end_nonlast; auto. }
      apply step_core_real in Hcore. destruct Hcore as [r [Ht [Hr [Hn1 [Hn2 [_ _]]]]]].
      cbn [wf_cmd] in Hwf. unfold wf_step in Hwf. rewrite Hcx in Hra. rewrite Hra, He, !andb_true_iff in Hwf. destruct Hwf as [[Hv Hc] Hside].
      pose proof (mk_rargs_wt _ _ _ _ Hra Hstk Hwt Hcxwt) as Hrw.
      destruct (mk_rargs_fields _ _ _ _ Hra) as [F1 [F2 [F3 [F4 F5]]]].
      unfold previous_command in F3. rewrite He in F3. injection F3 as F3.
      rewrite <- F1. apply (proj1 (Htable _ _ Ht Hn1 Hn2) ra Hr Hside Hrw (eq_sym F3)).
      + rewrite F2. eapply facts_ctx; eauto.
      + intros p Hp. eapply omap_prems; eauto.
    - rewrite run_sub in H. rewrite wf_sub in Hwf. cbn [shape_ok] in Hs. rewrite !andb_true_iff in Hs. destruct Hs as [[Hlen Hlast] Hall].
      apply Nat.leb_le in Hlen. destruct (last sub (CAssume "" tTrue)) as [| s |] eqn:El; try discriminate.
      pose proof (list_last sub (CAssume "" tTrue) ltac:(lia)) as Hsplit. rewrite El in Hsplit.
      rewrite (cmd_clause_last _ _ _ s) in Hcl; auto; [|destruct sub; cbn in Hlen; [lia|discriminate]]. injection Hcl as <-.
      remember (removelast sub) as pre eqn:Epre. clear Epre.
      assert (Hlp : List.length sub = List.length pre + 1) by (rewrite Hsplit at 1; rewrite app_length; reflexivity).
      rewrite Hsplit in H at 2. rewrite run_list_app in H. apply obind_ok in H. destruct H as [s1 [H1 H2]].
      rewrite Hsplit in Hwf at 2. rewrite wf_list_app in Hwf. apply andb_true_iff in Hwf. destruct Hwf as [Hwf1 Hwf2].
      cbn [cmd_wt] in Hwt. apply andb_true_iff in Hwt. destruct Hwt as [Hargs Hwt].
      cbn [run_list Nat.add] in H2. apply obind_ok in H2. destruct H2 as [s2 [H2 Hx]]. injection Hx as ->.
      cbn [wf_list Nat.add] in Hwf2. rewrite andb_true_r in Hwf2.
      replace (S (List.length pre)) with (List.length sub) in * by lia.
      assert (Hstk' : forall j, stk_wt ((j, sub) :: (i, cs) :: out)).
      { intros j e [<-|He]; [exact Hwt|]. apply Hstk. exact He. }
      assert (Hcxwt' : forallb (forallb anchor_wt) (args :: cx) = true) by (cbn [forallb]; rewrite Hargs; exact Hcxwt).
      cbn [run do_command] in H2. apply do_step_inv in H2.
      destruct H2 as [ra [Hra [_ [_ [h [Hcore Hho]]]]]]. rewrite Hh in Hho. symmetry in Hho. apply orb_false_iff in Hho. destruct Hho as [Hh1 ->].
      (* the commands before the last one *)
      assert (Hpre : forall l j s0 s1 E', (forall m x, nth_error l m = Some x -> nth_error sub (j + m) = Some x) ->
        j + List.length l < List.length sub -> run_list table cfg prems sub ((i, cs) :: out) l j s0 = ROk s1 ->
        st_ctx s0 = args :: cx -> st_holey s1 = false -> wf_list sub ((i, cs) :: out) (args :: cx) l j = true ->
        ext args E E' -> (forall id t, In (CAssume id t) sub -> holds E' t = true) ->
        seg (S j) sub E' -> st_ctx s1 = args :: cx /\ seg (S (j + List.length l)) sub E').
      { induction l as [|x r IHl]; intros j s0 s3 E' Hnth Hj Hr Hc0 Hh3 Hw He Hloc Hseg; cbn [run_list wf_list List.length] in *.
        - injection Hr as <-. rewrite Nat.add_0_r. auto.
        - apply obind_ok in Hr. destruct Hr as [s4 [Hr4 Hr]]. apply andb_true_iff in Hw. destruct Hw as [Hw1 Hw].
          assert (Hxn : nth_error sub j = Some x) by (rewrite <- (Nat.add_0_r j); apply (Hnth 0); reflexivity).
          pose proof (nth_error_In _ _ Hxn) as Hxin.
          assert (Hsh : shape_ok x = true) by (rewrite forallb_forall in Hall; auto).
          assert (Hh4 : st_holey s4 = false).
          { apply run_list_holey in Hr. rewrite Hh3 in Hr. symmetry in Hr. apply orb_false_iff in Hr. tauto. }
          pose proof (run_ctx _ _ _ _ _ _ _ _ _ Hr4 Hsh ltac:(right; lia)) as [Hc4 _].
          replace (j + S (List.length r)) with (S j + List.length r) by lia.
          apply (IHl (S j) s4 s3 E'); auto; try congruence.
          + intros m y Hm. replace (S j + m) with (j + S m) by lia. apply Hnth. exact Hm.
          + lia.
          + intros m c cl Hm Hc Hcl. destruct (Nat.eq_dec m j) as [->|Hne]; [|eapply Hseg; eauto; lia].
            rewrite Hxn in Hc. injection Hc as <-. rewrite Forall_forall in IH.
            eapply (IH x Hxin (S j) sub ((i, cs) :: out) (args :: cx)); eauto.
            * right. lia.
            * rewrite forallb_forall in Hwt. auto.
            * econstructor; eauto.
            * intros id t ->. eauto. }
      apply step_core_real in Hcore. destruct Hcore as [r [Ht [Hr [Hn1 [Hn2 [Hds Hdis]]]]]].
      assert (Hc1 : st_ctx s1 = args :: cx).
      { destruct (ext_exists args E) as [E0 _]; auto; [eapply in_ctx_ok; [eapply facts_ctx; eauto|auto]|].
        assert (Hg : forall l j s0 s1, (forall m x, nth_error l m = Some x -> nth_error sub (j + m) = Some x) ->
           j + List.length l < List.length sub -> run_list table cfg prems sub ((i, cs) :: out) l j s0 = ROk s1 -> st_ctx s1 = st_ctx s0).
        { induction l as [|x l IHl]; intros j s0 s3 Hnth Hj Hrr; cbn [run_list List.length] in *; [injection Hrr as <-; reflexivity|].
          apply obind_ok in Hrr. destruct Hrr as [s4 [Hr4 Hrr]].
          assert (Hxn : nth_error sub j = Some x) by (rewrite <- (Nat.add_0_r j); apply (Hnth 0); reflexivity).
          rewrite forallb_forall in Hall. pose proof (run_ctx _ _ _ _ _ _ _ _ _ Hr4 (Hall _ (nth_error_In _ _ Hxn)) ltac:(right; lia)) as [Hc4 _].
          rewrite (IHl (S j) s4 s3); auto; [|lia]. intros m y Hm. replace (S j + m) with (j + S m) by lia. apply Hnth. exact Hm. }
        rewrite (Hg pre 0 _ _ ltac:(intros m x Hm; cbn; rewrite Hsplit; rewrite nth_error_app1; auto; apply nth_error_Some; congruence) ltac:(cbn; lia) H1).
        cbn. congruence. }
      rewrite Hc1 in Hra. cbn [wf_cmd] in Hwf2. unfold wf_step in Hwf2. rewrite Hra, is_end_last, !andb_true_iff in Hwf2.
      destruct Hwf2 as [[Hv Hc] Hside].
      assert (Hsw : clause_wt (s_clause s) = true).
      { rewrite forallb_forall in Hwt. apply (Hwt (CStep s)). rewrite Hsplit. apply in_or_app. right. left. reflexivity. }
      pose proof (mk_rargs_wt _ _ _ _ Hra (Hstk' _) Hsw Hcxwt') as Hrw.
      destruct (mk_rargs_fields _ _ _ _ Hra) as [F1 [F2 [F3 [F4 F5]]]].
      unfold previous_command in F3. rewrite is_end_last in F3. replace (List.length sub <? 2) with false in F3 by (symmetry; apply Nat.ltb_ge; lia).
      destruct (nth_error sub (List.length sub - 2)) as [pc|] eqn:Epc; [|apply nth_error_None in Epc; lia].
      apply obind_ok in F3. destruct F3 as [pcl [Hpcl F3]]. apply unwrap_ok in Hpcl. injection F3 as F3.
      rewrite <- F1. apply (proj2 (Htable _ _ Ht Hn1 Hn2) ra args cx pcl Hr); auto.
      + rewrite Hside. cbn [andb]. destruct Hds as [Hds| ->]; [|reflexivity].
        rewrite Hds in F5. cbn in F5. injection F5 as F5. unfold no_disch. rewrite <- F5. apply orb_true_r.
      + eapply facts_ctx; eauto.
      + intros E' He Hdh.
        assert (Hloc : forall id t, In (CAssume id t) sub -> holds E' t = true).
        { intros id t Hin. apply In_nth_error in Hin. destruct Hin as [m Hm].
          specialize (Hdis (is_end_last _ _ _) sub eq_refl). pose proof (check_discharge_ok _ _ _ _ Hdis _ _ _ Hm) as Hd.
          destruct (omap_In _ _ _ F5 _ Hd) as [c [Hgc Hc']]. unfold get_command in Hgc. cbn [fst snd Nat.add] in Hgc.
          unfold depth in Hgc. cbn [rev List.length] in Hgc. rewrite nth_error_app2 in Hgc by (rewrite app_length, rev_length; cbn; lia).
          rewrite app_length, rev_length in Hgc. cbn [List.length] in Hgc.
          replace (S (S (List.length out)) - 1 - (List.length out + 1)) with 0 in Hgc by lia.
          cbn [nth_error unwrap obind snd] in Hgc. rewrite Hm in Hgc. cbn in Hgc. injection Hgc as <-. eauto. }
        destruct (Hpre pre 0 _ _ E' ltac:(intros m x Hm; cbn; rewrite Hsplit; rewrite nth_error_app1; auto; apply nth_error_Some; congruence)
          ltac:(cbn; lia) H1 ltac:(cbn; congruence) Hh1 Hwf1 He Hloc ltac:(intros m c0 cl0 Hm; lia)) as [_ Hseg].
        cbn [Nat.add] in Hseg. replace (S (List.length pre)) with (List.length sub) in Hseg by lia.
        assert (Hf' : facts ((List.length sub, sub) :: (i, cs) :: out) (args :: cx) E') by (econstructor; eauto).
        split.
        * intros p Hp. eapply omap_prems; eauto.
        * apply (Hseg (List.length sub - 2) pc pcl); auto. lia.
  Qed.

  (** the top level *)
  Lemma run_list_sound proof : forallb cmd_wt proof = true -> forallb shape_ok proof = true ->
    forall l i st st', (forall m x, nth_error l m = Some x -> nth_error proof (i + m) = Some x) ->
    run_list table cfg prems proof [] l i st = ROk st' -> st_ctx st = [] -> st_holey st' = false ->
    wf_list proof [] [] l i = true ->
    forall E, env_ok E -> (forall id t, In (CAssume id t) proof -> holds E t = true) ->
    seg (S i) proof E -> seg (S (i + List.length l)) proof E.
  Proof.
    intros Hwt Hsh. induction l as [|x r IH]; intros i st st' Hnth Hr Hc Hh Hw E HE Ha Hseg; cbn [run_list wf_list List.length] in *.
    - rewrite Nat.add_0_r. exact Hseg.
    - apply obind_ok in Hr. destruct Hr as [s1 [H1 Hr]]. apply andb_true_iff in Hw. destruct Hw as [Hw1 Hw].
      assert (Hxn : nth_error proof i = Some x) by (rewrite <- (Nat.add_0_r i); apply (Hnth 0); reflexivity).
      pose proof (nth_error_In _ _ Hxn) as Hxin. rewrite forallb_forall in Hwt, Hsh.
      pose proof (run_ctx _ _ _ _ _ _ _ _ _ H1 (Hsh _ Hxin) ltac:(left; reflexivity)) as [Hc1 _].
      assert (Hh1 : st_holey s1 = false).
      { apply run_list_holey in Hr. rewrite Hh in Hr. symmetry in Hr. apply orb_false_iff in Hr. tauto. }
      replace (i + S (List.length r)) with (S i + List.length r) by lia.
      apply (IH (S i) s1 st'); auto; try congruence.
      + intros m y Hm. replace (S i + m) with (i + S m) by lia. apply Hnth. exact Hm.
      + intros m c cl Hm Hcm Hcl. destruct (Nat.eq_dec m i) as [->|Hne]; [|eapply Hseg; eauto; lia].
        rewrite Hxn in Hcm. injection Hcm as <-.
        eapply (run_sound x (S i) proof [] []); eauto.
        * intros e [<-|[]]. cbn. rewrite forallb_forall. auto.
        * constructor; auto.
        * intros id t ->. eauto.
  Qed.
  Theorem check_sound_facts proof : check table cfg prems proof = ROk false ->
    forallb shape_ok proof = true -> forallb cmd_wt proof = true -> wf_proof proof = true ->
    forall E : env I, env_ok E -> (forall id t, In (CAssume id t) proof -> holds E t = true) -> False.
  Proof.
    intros H Hs Hwt Hwf E HE Ha. pose proof (check_reaches _ _ _ _ _ H Hs) as [c [Hin Hc]].
    rewrite check_eq in H. apply obind_ok in H. destruct H as [st [Hr H]].
    destruct (st_reached st); [|discriminate]. injection H as Hh.
    apply In_nth_error in Hin. destruct Hin as [j Hj].
    assert (Hlt : j < List.length proof) by (apply nth_error_Some; congruence).
    assert (Hseg : seg (S (0 + List.length proof)) proof E).
    { eapply run_list_sound; eauto. intros m c0 cl0 Hm. lia. }
    apply (clause_holds_nil E). eapply Hseg; eauto. cbn. lia.
  Qed.
End Sound.

(** ** The main theorem, for any table of rules *)
(** Top-level assumptions are compared with the assertions, so both must be standard. *)
Definition assume_std (t : term) : bool := std_lits t && scoped t && no_unary_minus t.
Definition assumes_ok (cfg : config) (prems : list term) (proof : list command) : bool :=
  elaborated cfg ||
  (forallb (fun p => wt p && assume_std p) prems
   && forallb (fun c => match c with CAssume _ t => assume_std t | _ => true end) proof).
Theorem check_sound table cfg prems side proof :
  table_sound table cfg side ->
  check table cfg prems proof = ROk false ->
  forallb shape_ok proof = true -> forallb cmd_wt proof = true -> wf_proof side proof = true ->
  assumes_ok cfg prems proof = true ->
  forall (I : interp) (E : env I), env_ok E -> ~ (forall p, In p prems -> holds E p = true).
Proof.
  intros Ht H Hs Hwt Hwf Hao I E HE Hp.
  apply (check_sound_facts table cfg prems side Ht proof H Hs Hwt Hwf E HE).
  intros id t Hin. destruct (check_assumes _ _ _ _ _ H id t Hin) as [Hq|[Hel [p [Hq He]]]]; [auto|].
  unfold assumes_ok in Hao. rewrite Hel in Hao. cbn [orb] in Hao. apply andb_true_iff in Hao. destruct Hao as [Ho1 Ho2].
  rewrite forallb_forall in Ho1, Ho2, Hwt. pose proof (Ho1 _ Hq) as Op. pose proof (Ho2 _ Hin) as Ot. pose proof (Hwt _ Hin) as Wt.
  cbn in Ot, Wt. cbv beta in Op. unfold assume_std in Op, Ot. rewrite !andb_true_iff in Op. rewrite !andb_true_iff in Ot.
  apply bool_term_wt in Wt. specialize (Hp p Hq). assert (Heq : eval t E = eval p E) by (apply assume_eq_sound; tauto).
  unfold holds in *. rewrite Heq. exact Hp.
Qed.
