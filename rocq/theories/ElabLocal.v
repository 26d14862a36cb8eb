(** The local elaboration pass over a whole proof: Elaborator::elaborate_local, elaborator/mod.rs:170-198, with mutate, 330-430.
    The proof is a tree; the premises of a step are distinct nodes. *)
From Coq Require Import List String ZArith Bool Arith Lia Permutation.
From Verif Require Import Base Term Sem Rules R_Taut R_Claus R_Eq R_Resolution R_Extras R_ResExact Utils Checker R_Binder R_Simp Table Elab ElabSound ElabCong ElabFlip ElabTrans ElabCongr ElabRes.
Import ListNotations.
Open Scope string_scope.
Local Open Scope nat_scope.
Local Open Scope list_scope.

(** nodes with addresses *)
Definition addressed (ps : list enode) : list (nat * enode) := combine (seq 0 (List.length ps)) ps.
(** get_elaboration_function, mod.rs:171-180 *)
Definition elab_step (c : clause) (r : string) (ps : list enode) (args : list term) : outcome enode :=
  if String.eqb r "eq_transitive" then elab_eq_transitive c args
  else if String.eqb r "trans" then elab_trans c ps args
  else if String.eqb r "resolution" || String.eqb r "th_resolution" then elab_resolution r c (addressed ps) args
  else if String.eqb r "cong" then elab_cong c ps args
  else if String.eqb r "eq_congruent" then elab_eq_congruent c args
  else ROk (EStep c r ps args).
Definition is_local (r : string) : bool := memb String.eqb r ["eq_transitive"; "trans"; "resolution"; "th_resolution"; "cong"; "eq_congruent"].
(** the premises are elaborated first; a subproof is entered and closed by the step it had (its last step is left alone unless its rule is one of the above, which
    is not modelled: such a rule does not close subproofs) *)
Fixpoint elab_local (n : enode) : outcome enode :=
  match n with
  | EPrem c => ROk (EPrem c)
  | EStep c r ps args =>
      do ps' <- (fix all (l : list enode) := match l with [] => ROk [] | x :: l => do y <- elab_local x ; do k <- all l ; ROk (y :: k) end) ps ;
      elab_step c r ps' args
  | ESub a c r ps args prev =>
      do ps' <- (fix all (l : list enode) := match l with [] => ROk [] | x :: l => do y <- elab_local x ; do k <- all l ; ROk (y :: k) end) ps ;
      do prev' <- elab_local prev ;
      ROk (ESub a c r ps' args prev')
  end.

Section Local.
  Variable other : bool -> string -> crule.
  Notation accepted := (accepted other).
  (** no equality occurs in both orientations, unless its sides are equal *)
  Definition no_twins (qs : list (term * term)) : Prop := forall p, In p qs -> In (swap_pair p) qs -> fst p = snd p.
  (** A step of the original proof: the rule accepts it, for the rules that are not elaborated in elaborated mode; the remaining conditions exclude
      the steps for which the elaboration goes wrong (ElabRefute.v). *)
  Inductive step_fits (cx : list (list anchor)) (c : clause) (ps : list clause) (args : list term) : string -> Prop :=
  | Fit_trans : r_trans c ps args = ROk tt -> step_fits cx c ps args "trans"
  | Fit_cong : r_cong c ps args = ROk tt -> step_fits cx c ps args "cong"
  | Fit_eq_transitive qs a b : c = map nl qs ++ [tEq a b] -> r_eq_transitive c ps args = ROk tt -> NoDup qs -> no_twins qs ->
      a <> b -> ~ In (a, b) qs -> ~ In (b, a) qs -> step_fits cx c ps args "eq_transitive"
  | Fit_eq_congruent qs x y : c = map nl qs ++ [tEq x y] -> r_eq_congruent c ps args = ROk tt -> no_twins qs -> step_fits cx c ps args "eq_congruent"
  | Fit_pivots r : In r ["resolution"; "th_resolution"] -> args <> [] -> r_resolution_with_args c ps args = ROk tt -> step_fits cx c ps args r
  | Fit_resolution r p0 l : In r ["resolution"; "th_resolution"] -> args = [] -> ps = p0 :: map fst l -> l <> [] -> regular_step c p0 l -> step_fits cx c ps args r
  | Fit_other r : is_local r = false -> run other r (mkRA c ps args cx None []) -> step_fits cx c ps args r.
  Fixpoint fits_all (cx : list (list anchor)) (n : enode) : Prop :=
    match n with
    | EPrem _ => True
    | EStep c r ps args =>
        step_fits cx c (map eclause ps) args r /\
        (fix all (l : list enode) : Prop := match l with [] => True | x :: l => fits_all cx x /\ all l end) ps
    | ESub a c r ps args prev =>
        run other r (mkRA c (map eclause ps) args (a :: cx) (Some (eclause prev)) []) /\
        (fix all (l : list enode) : Prop := match l with [] => True | x :: l => fits_all cx x /\ all l end) ps /\
        fits_all (a :: cx) prev
    end.
  Lemma map_snd_addressed ps : map snd (addressed ps) = ps.
  Proof. unfold addressed. generalize 0. induction ps as [|p ps IH]; intros k; [reflexivity|]. cbn. f_equal. apply IH. Qed.
  Lemma map_fst_addressed ps : map fst (addressed ps) = seq 0 (List.length ps).
  Proof. unfold addressed. generalize 0. induction ps as [|p ps IH]; intros k; [reflexivity|]. cbn. f_equal. apply IH. Qed.
  Lemma elab_step_ok cx c ps args r : step_fits cx c (map eclause ps) args r -> Forall (accepted cx) ps ->
    exists n, elab_step c r ps args = ROk n /\ eclause n = c /\ accepted cx n.
  Proof.
    intros H HF. inversion H as [H1|H1|qs a b H1 H2 H3 H4 H5 H6 H7|qs x y H1 H2 H3|r' Hr H1 H2|r' p0 l Hr H1 H2 H3 H4|r' H1 H2]; subst r; unfold elab_step.
    - cbn [String.eqb Ascii.eqb Bool.eqb orb]. apply elab_trans_ok; auto.
    - cbn [String.eqb Ascii.eqb Bool.eqb orb]. apply elab_cong_ok; auto.
    - cbn [String.eqb Ascii.eqb Bool.eqb orb]. subst c. eapply elab_eq_transitive_ok; eauto.
    - cbn [String.eqb Ascii.eqb Bool.eqb orb]. subst c. eapply elab_eq_congruent_ok; eauto.
    - assert (E : elab_step c r' ps args = ROk (EStep c r' ps args)).
      { destruct args as [|t args]; [congruence|]. destruct Hr as [<-|[<-|[]]]; cbn [elab_step String.eqb Ascii.eqb Bool.eqb orb elab_resolution]; rewrite map_snd_addressed; reflexivity. }
      unfold elab_step in E. rewrite E. eexists. split; [reflexivity|]. split; [reflexivity|]. apply accepted_step. split; [|exact HF].
      destruct Hr as [<-|[<-|[]]]; eapply run_plain with (r := r_resolution_with_args); try exact H2; cbn; tauto.
    - subst args. destruct (elab_resolution_ok other cx r' c (addressed ps) p0 l) as (args & E & _ & Ha); rewrite ?map_snd_addressed, ?map_fst_addressed; auto; [apply seq_NoDup|].
      rewrite map_snd_addressed in *. exists (EStep c "resolution" ps args). split; [|split; [reflexivity|exact Ha]].
      destruct Hr as [<-|[<-|[]]]; cbn [elab_step String.eqb Ascii.eqb Bool.eqb orb]; exact E.
    - assert (E : elab_step c r' ps args = ROk (EStep c r' ps args)).
      { unfold elab_step. unfold is_local in H1. cbn [memb existsb] in H1. repeat (apply orb_false_iff in H1; destruct H1 as [? H1]).
        repeat match goal with Hx : String.eqb r' _ = false |- _ => rewrite Hx; clear Hx end. reflexivity. }
      unfold elab_step in E. rewrite E. eexists. split; [reflexivity|]. split; [reflexivity|]. apply accepted_step. split; [exact H2|exact HF].
  Qed.
  (** every proof of such steps elaborates to an accepted proof of the same clause *)
  Theorem elab_local_ok : forall n cx, fits_all cx n -> exists n', elab_local n = ROk n' /\ eclause n' = eclause n /\ accepted cx n'.
  Proof.
    fix IH 1. intros n cx. destruct n as [c|c r ps args|a c r ps args prev]; intros H.
    - exists (EPrem c). repeat split.
    - destruct H as [Hs H]. assert (G : exists ps', (fix all (l : list enode) := match l with [] => ROk [] | x :: l => do y <- elab_local x ; do k <- all l ; ROk (y :: k) end) ps = ROk ps' /\
        map eclause ps' = map eclause ps /\ Forall (accepted cx) ps').
      { clear Hs. induction ps as [|p ps IHp]; [exists []; repeat split; constructor|]. destruct H as [H1 H2]. destruct (IH p cx H1) as (p' & E1 & C1 & A1). destruct (IHp H2) as (ps' & E2 & C2 & A2).
        exists (p' :: ps'). rewrite E1. cbn [obind]. rewrite E2. split; [reflexivity|]. split; [cbn; congruence|constructor; auto]. }
      destruct G as (ps' & E & C & A). cbn [elab_local]. rewrite E. cbn [obind eclause]. apply elab_step_ok; [rewrite C; exact Hs|exact A].
    - destruct H as (Hs & H & Hp). assert (G : exists ps', (fix all (l : list enode) := match l with [] => ROk [] | x :: l => do y <- elab_local x ; do k <- all l ; ROk (y :: k) end) ps = ROk ps' /\
        map eclause ps' = map eclause ps /\ Forall (accepted cx) ps').
      { clear Hs. induction ps as [|p ps IHp]; [exists []; repeat split; constructor|]. destruct H as [H1 H2]. destruct (IH p cx H1) as (p' & E1 & C1 & A1). destruct (IHp H2) as (ps' & E2 & C2 & A2).
        exists (p' :: ps'). rewrite E1. cbn [obind]. rewrite E2. split; [reflexivity|]. split; [cbn; congruence|constructor; auto]. }
      destruct G as (ps' & E & C & A). destruct (IH prev (a :: cx) Hp) as (prev' & Ep & Cp & Ap). exists (ESub a c r ps' args prev'). cbn [elab_local]. rewrite E. cbn [obind]. rewrite Ep.
      split; [reflexivity|]. split; [reflexivity|]. apply accepted_sub. rewrite C, Cp. auto.
  Qed.
End Local.
