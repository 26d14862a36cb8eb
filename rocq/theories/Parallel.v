(** The parallel checker (checker/parallel/mod.rs): workers, their interleavings and the final verdict. *)
From Coq Require Import List String ZArith NArith Bool Arith Lia Permutation.
From Verif Require Import Base Term Rules Polyeq Checker Scheduler SchedSound.
Import ListNotations.
Local Open Scope nat_scope.

(** scheduler.rs:262-290 [ScheduleIter::next] *)
Fixpoint sched_next (steps : list entry) (stk : stack) : outcome (option (command * stack * list entry)) :=
  match steps with
  | [] => ROk None
  | (_, None) :: r => sched_next r (tl stk)
  | (_, Some i) :: r =>
      match stk with
      | [] => RPanic
      | (_, cs) :: out => do c <- unwrap (nth_error cs i) ; ROk (Some (c, enter c ((S i, cs) :: out), r))
      end
  end.
(** parallel/mod.rs:254-266: the contexts are popped lazily, when the next command shows that the subproof
    has been left; [last] is [last_depth] *)
Fixpoint pop_ctx (last d : nat) (sub : bool) (cx : list (list anchor)) : list (list anchor) :=
  if Nat.ltb d last || (Nat.eqb d last && sub) then
    match last with 0 => cx | S l => pop_ctx l d sub (tl cx) end
  else cx.

Inductive wstatus : Type := Running | AtLoad | Done | Failed | Panicked.
(** the state of a worker: parallel/mod.rs:24-33 and 240-252 *)
Record wst : Type := mkW {
  w_steps : list entry; w_stk : stack; w_ctx : list (list anchor); w_last : nat;
  w_reached : bool; w_holey : bool; w_status : wstatus }.

Lemma skipn_tl {A} m : forall l : list A, skipn (S m) l = tl (skipn m l).
Proof. induction m as [|m IH]; intros [|x l]; try reflexivity. cbn [skipn] in *. apply IH. Qed.
Lemma skipn_hd {A} i : forall (l : list A) x r, skipn i l = x :: r -> nth_error l i = Some x.
Proof. induction i as [|i IH]; intros [|y l] x r H; cbn [skipn nth_error] in *; try discriminate; [congruence|eauto]. Qed.

Section Par.
  Variable table : bool -> string -> option crule.
  Variable cfg : config.
  Variable prems : list term.

  (** parallel/mod.rs:268-325: the check of one command, with the popped context [cx]. The value says whether
      the empty clause was reached and whether the step is a hole. *)
  Definition wcheck (c : command) (stk : stack) (cx : list (list anchor)) : outcome (bool * bool) :=
    match c with
    | CStep s =>
        do ra <- mk_rargs stk cx s ;
        do h <- step_core table cfg s ra (is_end_step stk)
                  (if in_subproof stk then match stk with (_, cs) :: _ => Some cs | [] => None end else None) (depth stk) ;
        ROk (Nat.eqb (List.length (s_clause s)) 0 && Nat.eqb (List.length cx) 0, h)
    | CSub _ _ _ => ROk (false, false)
    | CAssume _ t => do b <- check_assume cfg prems t (in_subproof stk) ; if b then ROk (false, false) else RErr
    end.
  (** one iteration of the loop, up to the load of [should_abort] (parallel/mod.rs:251-329).
      [None] in the second component leaves the flag alone. *)
  Definition worker_step (x : wst) : wst * bool :=
    match sched_next (w_steps x) (w_stk x) with
    | ROk None => (mkW (w_steps x) (w_stk x) (w_ctx x) (w_last x) (w_reached x) (w_holey x) Done, false)
    | ROk (Some (c, stk, r)) =>
        let cx := pop_ctx (w_last x) (depth stk) (is_sub c) (w_ctx x) in
        match wcheck c stk cx with
        | ROk (re, h) =>
            let cx' := match c with CSub _ args _ => args :: cx | _ => cx end in
            (mkW r stk cx' (depth stk) (w_reached x || re) (w_holey x || h) AtLoad, false)
        | RErr => (mkW r stk cx (depth stk) (w_reached x) (w_holey x) Failed, true)
        | RPanic => (mkW r stk cx (depth stk) (w_reached x) (w_holey x) Panicked, false)
        end
    | _ => (mkW (w_steps x) (w_stk x) (w_ctx x) (w_last x) (w_reached x) (w_holey x) Panicked, false)
    end.
  Definition set_status (x : wst) (s : wstatus) : wst :=
    mkW (w_steps x) (w_stk x) (w_ctx x) (w_last x) (w_reached x) (w_holey x) s.

  (** The threads and the shared flag [premature_abort]. *)
  Record gst : Type := mkG { g_w : nat -> wst; g_abort : bool }.
  Definition ginit (proof : list command) (loads : nat -> list entry) : gst :=
    mkG (fun w => mkW (loads w) [(0, proof)] [] 0 false false Running) false.
  (** One step of one of the [n] threads, in any order. After each command a thread looks at the flag; a flag
      that has been set may be seen at once or only later. *)
  Inductive gstep (n : nat) : gst -> gst -> Prop :=
  | G_cmd g w : w < n -> w_status (g_w g w) = Running ->
      gstep n g (mkG (fupd (g_w g) w (fst (worker_step (g_w g w)))) (g_abort g || snd (worker_step (g_w g w))))
  | G_go g w : w < n -> w_status (g_w g w) = AtLoad ->
      gstep n g (mkG (fupd (g_w g) w (set_status (g_w g w) Running)) (g_abort g))
  | G_stop g w : w < n -> w_status (g_w g w) = AtLoad -> g_abort g = true ->
      gstep n g (mkG (fupd (g_w g) w (set_status (g_w g w) Done)) (g_abort g)).
  Inductive gsteps (n : nat) : gst -> gst -> Prop :=
  | GS_refl g : gsteps n g g
  | GS_step g g1 g2 : gsteps n g g1 -> gstep n g1 g2 -> gsteps n g g2.
  Definition stopped (s : wstatus) : bool := match s with Done | Failed | Panicked => true | _ => false end.
  Definition final (n : nat) (g : gst) : Prop := forall w, w < n -> stopped (w_status (g_w g w)) = true.
  (** parallel/mod.rs:108-139: joining the threads. A panic of a thread becomes a panic of [check]. *)
  Definition anyw (n : nat) (f : nat -> bool) : bool := existsb f (seq 0 n).
  Definition verdict (n : nat) (g : gst) : outcome bool :=
    if anyw n (fun w => match w_status (g_w g w) with Panicked => true | _ => false end) then RPanic
    else if anyw n (fun w => match w_status (g_w g w) with Failed => true | _ => false end) then RErr
    else if anyw n (fun w => w_reached (g_w g w)) then ROk (anyw n (fun w => w_holey (g_w g w)))
    else RErr.

  (** ** The context of a position *)
  Fixpoint ctx_of (s : stack) : list (list anchor) :=
    match s with
    | [] => []
    | _ :: out =>
        match out with
        | [] => []
        | (j, cs) :: _ => (match nth_error cs (pred j) with Some (CSub _ args _) => args | _ => [] end) :: ctx_of out
        end
    end.
  Lemma ctx_of_len s : List.length (ctx_of s) = depth s.
  Proof.
    unfold depth. induction s as [|x out IH]; [reflexivity|]. cbn [ctx_of]. destruct out as [|[j cs] out']; [reflexivity|].
    cbn [List.length] in *. rewrite IH. lia.
  Qed.
  Lemma ctx_of_tl s : 1 < List.length s -> ctx_of (tl s) = tl (ctx_of s).
  Proof. destruct s as [|x [|[j cs] out]]; cbn [List.length]; try lia. reflexivity. Qed.
  Lemma ctx_of_hd x y out : ctx_of (x :: out) = ctx_of (y :: out).
  Proof. reflexivity. Qed.

  (** how a worker judges a visit *)
  Definition judge (v : visit) : outcome (bool * bool) :=
    wcheck (fst v) (snd v) (ctx_of (snd v)).

  Lemma pop_ctx_spec m : forall (last d : nat) (sub : bool) (cx : list (list anchor)), last = m + (if sub then pred d else d) -> (sub = true -> 0 < d) ->
    pop_ctx last d sub cx = skipn m cx.
  Proof.
    induction m as [|m IH]; intros last d sub cx Hl Hs.
    - cbn [skipn]. destruct last; cbn [pop_ctx].
      + destruct sub; [specialize (Hs eq_refl); replace (Nat.ltb d 0 || (Nat.eqb d 0 && true)) with false; [reflexivity|]|].
        * symmetry. apply orb_false_iff. split; [apply Nat.ltb_ge; lia|]. apply andb_false_iff. left. apply Nat.eqb_neq. lia.
        * destruct (_ || _); reflexivity.
      + replace (Nat.ltb d (S last) || (Nat.eqb d (S last) && sub)) with false; [reflexivity|]. symmetry. apply orb_false_iff.
        destruct sub; [specialize (Hs eq_refl)|]; (split; [apply Nat.ltb_ge; lia|]); [apply andb_false_iff; left; apply Nat.eqb_neq; lia|apply andb_false_r].
    - destruct last as [|last]; [lia|]. cbn [pop_ctx].
      replace (Nat.ltb d (S last) || (Nat.eqb d (S last) && sub)) with true.
      + rewrite (IH last d sub (tl cx)) by (auto; lia). destruct cx; [apply skipn_nil|reflexivity].
      + symmetry. apply orb_true_iff. destruct sub; [specialize (Hs eq_refl)|].
        * destruct (Nat.eq_dec d (S last)) as [->|]; [right; rewrite Nat.eqb_refl; reflexivity|left; apply Nat.ltb_lt; lia].
        * left. apply Nat.ltb_lt. lia.
  Qed.

  (** the next command of a worker is the head of its remaining visits, and its context is the one of the position *)
  Lemma next_spec : forall steps s V cx, sched_iter steps s = Some V -> s <> [] -> cx = ctx_of s ->
    match V with
    | [] => sched_next steps s = ROk None
    | (c, stk) :: V' => exists r, sched_next steps s = ROk (Some (c, stk, r)) /\ sched_iter r stk = Some V' /\ stk <> [] /\
        (let cx' := pop_ctx (depth s) (depth stk) (is_sub c) cx in
         match c with CSub _ args _ => args :: cx' = ctx_of stk | _ => cx' = ctx_of stk end)
    end.
  Proof.
    assert (G : forall steps s V, sched_iter steps s = Some V -> s <> [] -> forall s0 m, s = skipn m s0 -> List.length s0 = m + List.length s ->
      match V with
      | [] => sched_next steps s = ROk None
      | (c, stk) :: V' => exists r, sched_next steps s = ROk (Some (c, stk, r)) /\ sched_iter r stk = Some V' /\ stk <> [] /\
        (let cx' := pop_ctx (depth s0) (depth stk) (is_sub c) (ctx_of s0) in
         match c with CSub _ args _ => args :: cx' = ctx_of stk | _ => cx' = ctx_of stk end)
      end).
    { induction steps as [|[d [i|]] r IH]; intros s V H Hs s0 m Hm HL.
      - injection H as <-. reflexivity.
      - cbn [sched_iter sched_next] in *. destruct s as [|[i0 cs] out]; [congruence|].
        destruct (nth_error cs i) as [c|] eqn:Ec; [|discriminate].
        destruct (sched_iter r (enter c ((S i, cs) :: out))) as [V'|] eqn:Ev; [|discriminate]. injection H as <-.
        cbn [unwrap obind]. exists r. split; [reflexivity|]. split; [exact Ev|]. split; [destruct c; discriminate|].
        assert (Hcx : skipn m (ctx_of s0) = ctx_of ((S i, cs) :: out)).
        { rewrite (ctx_of_hd _ (i0, cs)), Hm. clear - HL. revert s0 HL. induction m as [|m IHm]; intros s0 HL; [reflexivity|].
          destruct s0 as [|x s0]; [cbn [List.length] in HL; lia|]. cbn [skipn] in *. cbn [List.length] in HL.
          rewrite <- IHm by (cbn [List.length] in *; lia). destruct s0 as [|[j c0] s1]; [cbn [List.length] in HL; lia|]. reflexivity. }
        cbv zeta. unfold depth at 1. destruct c as [cid ct|st|sub a id]; cbn [enter is_sub]; cbn [List.length] in HL.
        + rewrite (pop_ctx_spec m); [exact Hcx|unfold depth; cbn [List.length]; lia|discriminate].
        + rewrite (pop_ctx_spec m); [exact Hcx|unfold depth; cbn [List.length]; lia|discriminate].
        + rewrite (pop_ctx_spec m); [|unfold depth; cbn [List.length]; lia|intros _; unfold depth; cbn [List.length]; lia].
          rewrite Hcx. cbn [ctx_of pred]. rewrite Ec. reflexivity.
      - cbn [sched_iter sched_next] in *. destruct s as [|x out]; [discriminate|]. cbn [tl].
        destruct out as [|y out].
        + assert (Hx : forall l V, sched_iter l [] = Some V -> V = [] /\ sched_next l [] = ROk None).
          { induction l as [|[d' [i'|]] l IHl]; intros V0 H0; cbn [sched_iter] in H0; try discriminate. injection H0 as <-. auto. }
          destruct (Hx _ _ H) as [-> E]. exact E.
        + apply (IH (y :: out) V H ltac:(discriminate) s0 (S m)).
          * rewrite skipn_tl, <- Hm. reflexivity.
          * cbn [List.length] in *. lia. }
    intros steps s V cx H Hs ->. apply (G steps s V H Hs s 0); [reflexivity|lia].
  Qed.

  (** ** The sequential checker as a fold over the same visits *)
  (** every subproof ends with a step, as the parser enforces (parser/mod.rs:940-965) *)
  Fixpoint wfc (c : command) : bool :=
    match c with
    | CSub cs _ _ =>
        (fix go l := match l with [] => true | x :: r => wfc x && go r end) cs &&
        match rev cs with CStep _ :: _ => true | _ => false end
    | _ => true
    end.
  Definition wfp (proof : list command) : bool := forallb wfc proof.
  Definition ends_in_step (l : list command) : bool := match rev l with CStep _ :: _ => true | _ => false end.
  Lemma wfc_sub cs a k : wfc (CSub cs a k) = forallb wfc cs && ends_in_step cs.
  Proof. cbn [wfc]. unfold ends_in_step. f_equal. Qed.

  Definition judge_seq (v : visit) : outcome (bool * bool) :=
    do st <- do_command table cfg prems (snd v) (mkSt (ctx_of (snd v)) false false) (fst v) ;
    ROk (st_reached st, st_holey st).
  Fixpoint seqfold (vs : list visit) (x : bool * bool) : outcome (bool * bool) :=
    match vs with
    | [] => ROk x
    | v :: r => do y <- judge_seq v ; seqfold r (fst x || fst y, snd x || snd y)
    end.
  Lemma seqfold_app a : forall b x, seqfold (a ++ b) x = do y <- seqfold a x ; seqfold b y.
  Proof. induction a as [|v a IH]; intros b x; [reflexivity|]. cbn [app seqfold]. destruct (judge_seq v); cbn [obind]; auto. Qed.

  Lemma do_command_st stk st c : do_command table cfg prems stk st c =
    do st' <- do_command table cfg prems stk (mkSt (st_ctx st) false false) c ;
    ROk (mkSt (st_ctx st') (st_reached st || st_reached st') (st_holey st || st_holey st')).
  Proof.
    destruct c as [id t|s|cs a k]; cbn [do_command].
    - destruct (check_assume _ _ _ _) as [[]| |]; cbn [obind]; auto. destruct st. cbn. rewrite !orb_false_r. reflexivity.
    - unfold do_step. cbn [st_ctx]. destruct (mk_rargs _ _ _); cbn [obind]; auto. destruct (step_core _ _ _ _ _ _ _); cbn [obind]; auto.
    - cbn. rewrite !orb_false_r. reflexivity.
  Qed.
  Definition is_step (c : command) : bool := match c with CStep _ => true | _ => false end.

  Lemma run_visits : forall c, wfc c = true -> forall i cs out st,
    nth_error cs i = Some c -> st_ctx st = ctx_of ((S i, cs) :: out) ->
    (is_end_step ((S i, cs) :: out) = true -> is_step c = true) ->
    run table cfg prems c ((S i, cs) :: out) st =
    do rh <- seqfold (visits c ((S i, cs) :: out)) (st_reached st, st_holey st) ;
    ROk (mkSt (if is_end_step ((S i, cs) :: out) then tl (st_ctx st) else st_ctx st) (fst rh) (snd rh)).
  Proof.
    induction c as [id t|s|sub args k IH] using command_ind'; intros Hw i cs out st Hn Hcx He.
    - cbn [run]. rewrite do_command_st. rewrite visits_eq. cbn [seqfold]. unfold judge_seq. cbn [enter fst snd]. rewrite <- Hcx.
      destruct (do_command _ _ _ _ _ _) as [st'| |] eqn:E; cbn [obind fst snd]; auto.
      destruct (is_end_step _) eqn:Ee; [specialize (He eq_refl); discriminate|]. f_equal. f_equal.
      cbn [do_command] in E. destruct (check_assume _ _ _ _) as [[]| |]; cbn [obind] in E; try discriminate. injection E as <-. reflexivity.
    - cbn [run]. rewrite do_command_st. rewrite visits_eq. cbn [seqfold]. unfold judge_seq. cbn [enter fst snd]. rewrite <- Hcx.
      destruct (do_command _ _ _ _ _ _) as [st'| |] eqn:E; cbn [obind fst snd]; auto.
      f_equal. f_equal. cbn [do_command] in E. unfold do_step in E. destruct (mk_rargs _ _ _); cbn [obind] in E; try discriminate.
      destruct (step_core _ _ _ _ _ _ _); cbn [obind] in E; try discriminate. injection E as <-. reflexivity.
    - rewrite run_sub, visits_eq. cbn [seqfold]. unfold judge_seq at 1. cbn [enter fst snd do_command obind st_reached st_holey].
      rewrite !orb_false_r.
      destruct (is_end_step ((S i, cs) :: out)) eqn:Ee; [specialize (He eq_refl); discriminate|]. clear He.
      rewrite wfc_sub in Hw. apply andb_true_iff in Hw. destruct Hw as [Hwl Hend].
      set (stk := (S i, cs) :: out) in *.
      assert (H : forall l i0 st1, skipn i0 sub = l -> st_ctx st1 = args :: st_ctx st -> l <> [] ->
        run_list table cfg prems sub stk l i0 st1 =
        do rh <- seqfold (visits_list sub stk l i0) (st_reached st1, st_holey st1) ; ROk (mkSt (st_ctx st) (fst rh) (snd rh))).
      { rewrite Forall_forall in IH. rewrite forallb_forall in Hwl.
        induction l as [|x r IHl]; intros i0 st1 Hl Hc Hne; [congruence|].
        assert (Hx : nth_error sub i0 = Some x).
        { eapply skipn_hd; eauto. }
        assert (Hlen : List.length sub - i0 = S (List.length r)) by (rewrite <- skipn_length, Hl; reflexivity).
        assert (Hxin : In x sub) by (eapply nth_error_In; eauto).
        assert (Hes : is_end_step ((S i0, sub) :: stk) = match r with [] => true | _ => false end).
        { unfold is_end_step, in_subproof, depth, stk. cbn [List.length]. replace (Nat.ltb 0 _) with true by (symmetry; apply Nat.ltb_lt; lia). cbn [andb].
          destruct r; [apply Nat.eqb_eq|apply Nat.eqb_neq]; cbn [List.length] in Hlen; lia. }
        cbn [run_list visits_list]. rewrite seqfold_app.
        rewrite (IH x Hxin (Hwl x Hxin) i0 sub stk st1 Hx).
        - rewrite Hes. destruct (seqfold (visits x _) _) as [rh| |]; cbn [obind]; auto.
          destruct r as [|y r].
          + cbn [run_list visits_list seqfold obind]. rewrite Hc. destruct rh; reflexivity.
          + rewrite (IHl (S i0)); cbn [st_ctx st_reached st_holey]; [destruct rh; reflexivity| |exact Hc|discriminate].
            rewrite skipn_tl, Hl. reflexivity.
        - rewrite Hc, Hcx. unfold stk. cbn [ctx_of pred]. rewrite Hn. reflexivity.
        - rewrite Hes. destruct r; [|discriminate]. intros _.
          unfold ends_in_step in Hend. rewrite <- (firstn_skipn i0 sub), Hl, rev_app_distr in Hend. cbn [rev app] in Hend.
          destruct x; try discriminate. reflexivity. }
      rewrite H; [destruct (seqfold _ _); reflexivity|reflexivity|reflexivity|]. intros ->. discriminate.
  Qed.
  Lemma check_fold proof : wfp proof = true ->
    check table cfg prems proof = do rh <- seqfold (all_visits proof) (false, false) ; if fst rh then ROk (snd rh) else RErr.
  Proof.
    intros Hw. rewrite check_eq. unfold all_visits. unfold wfp in Hw. rewrite forallb_forall in Hw.
    assert (H : forall l i st, skipn i proof = l -> st_ctx st = [] ->
        run_list table cfg prems proof [] l i st =
        do rh <- seqfold (visits_list proof [] l i) (st_reached st, st_holey st) ; ROk (mkSt [] (fst rh) (snd rh))).
    { induction l as [|x r IHl]; intros i st Hl Hc; [cbn; rewrite <- Hc; destruct st; reflexivity|].
      assert (Hx : nth_error proof i = Some x).
      { eapply skipn_hd; eauto. }
      cbn [run_list visits_list]. rewrite seqfold_app. rewrite (run_visits x (Hw x (nth_error_In _ _ Hx)) i proof [] st Hx).
      - destruct (seqfold (visits x _) _) as [rh| |]; cbn [obind]; auto.
        rewrite (IHl (S i)); [destruct rh; reflexivity|rewrite skipn_tl, Hl; reflexivity|]. cbn. exact Hc.
      - rewrite Hc. reflexivity.
      - discriminate. }
    rewrite H by reflexivity. cbn [st0 st_reached st_holey].
    destruct (seqfold _ _) as [[? ?]| |]; reflexivity.
  Qed.

  Definition jr (v : visit) : bool := match judge v with ROk (r, _) => r | _ => false end.
  Definition jh (v : visit) : bool := match judge v with ROk (_, h) => h | _ => false end.
  (** an end step of an outermost subproof with an empty clause is counted by the sequential checker only *)
  Definition end_empty (v : visit) : bool :=
    match fst v with
    | CStep s => is_end_step (snd v) && Nat.eqb (depth (snd v)) 1 && Nat.eqb (List.length (s_clause s)) 0
    | _ => false
    end.
  Lemma judge_seq_eq v : end_empty v = false -> judge_seq v = judge v.
  Proof.
    destruct v as [c stk]. unfold judge_seq, judge, end_empty. cbn [fst snd]. destruct c as [id t|s|cs a k]; cbn [do_command wcheck]; intros H.
    - destruct (check_assume _ _ _ _) as [[]| |]; reflexivity.
    - unfold do_step. cbn [st_ctx st_reached st_holey]. destruct (mk_rargs _ _ _); cbn [obind]; auto.
      destruct (step_core _ _ _ _ _ _ _); cbn [obind st_reached st_holey orb]; auto. f_equal. f_equal.
      destruct (is_end_step stk) eqn:Ee; [|reflexivity]. cbn [andb] in H.
      pose proof (ctx_of_len stk) as HL. destruct (ctx_of stk) as [|x [|y r]]; cbn [tl List.length] in *; rewrite <- HL in H; cbn [Nat.eqb andb] in *.
      + unfold is_end_step, in_subproof in Ee. rewrite <- HL in Ee. discriminate.
      + rewrite H. reflexivity.
      + reflexivity.
    - reflexivity.
  Qed.
  Lemma judge_sub v : leaf v = false -> judge v = ROk (false, false).
  Proof. destruct v as [[] s]; try discriminate. reflexivity. Qed.

  Lemma seqfold_spec : forall vs x, (forall v, In v vs -> judge v <> RPanic /\ end_empty v = false) ->
    (exists v, In v vs /\ judge v = RErr /\ seqfold vs x = RErr) \/
    ((forall v, In v vs -> exists rh, judge v = ROk rh) /\
     seqfold vs x = ROk (fst x || existsb jr vs, snd x || existsb jh vs)).
  Proof.
    induction vs as [|v vs IH]; intros x H.
    - right. split; [intros v []|]. cbn. rewrite !orb_false_r. destruct x; reflexivity.
    - destruct (H v (or_introl eq_refl)) as [Hp He]. cbn [seqfold]. rewrite (judge_seq_eq v He).
      destruct (judge v) as [[r h]| |] eqn:Ej; [|left; exists v; cbn; auto|congruence].
      cbn [obind fst snd]. destruct (IH (fst x || r, snd x || h) (fun u Hu => H u (or_intror Hu))) as [(u & Hu & Eu & E)|[Ha E]].
      + left. exists u. cbn. auto.
      + right. split; [intros u [<-|Hu]; eauto|]. rewrite E. cbn [fst snd existsb]. unfold jr at 2, jh at 2. rewrite Ej, !orb_assoc. reflexivity.
  Qed.

  (** the verdict determined by the judgements, when none of them is a panic *)
  Definition pjudge (vs : list visit) : outcome bool :=
    if existsb (fun v => match judge v with RErr => true | _ => false end) vs then RErr
    else if existsb jr vs then ROk (existsb jh vs) else RErr.
  Lemma pjudge_spec vs : (forall v, In v vs -> judge v <> RPanic) ->
    (exists v, In v vs /\ judge v = RErr /\ pjudge vs = RErr) \/
    ((forall v, In v vs -> exists rh, judge v = ROk rh) /\ pjudge vs = if existsb jr vs then ROk (existsb jh vs) else RErr).
  Proof.
    intros H. unfold pjudge. destruct (existsb (fun v => match judge v with RErr => true | _ => false end) vs) eqn:E.
    - left. apply existsb_exists in E. destruct E as (v & Hv & E). exists v. split; [auto|]. split; [destruct (judge v); congruence|reflexivity].
    - right. split; [|reflexivity]. intros v Hv. destruct (judge v) eqn:Ej; [eauto| |exfalso; apply (H v Hv Ej)]. exfalso.
      assert (X : existsb (fun v => match judge v with RErr => true | _ => false end) vs = true); [|congruence].
      apply existsb_exists. exists v. rewrite Ej. auto.
  Qed.

  Section Run.
    Variable proof : list command.
    Variable n : nat.
    Variable loads : nat -> list entry.
    Variable V : nat -> list visit.
    Hypothesis HV : forall w, sched_iter (loads w) [(0, proof)] = Some (V w).
    Hypothesis Hcover : forall v, In v (all_visits proof) -> leaf v = true -> exists w, w < n /\ In v (V w).
    Hypothesis Hsound : forall w v, In v (V w) -> leaf v = true -> In v (all_visits proof).
    Hypothesis Hnp : forall v, In v (all_visits proof) -> judge v <> RPanic.

    Definition okdone (dn : list visit) (x : wst) : Prop :=
      (forall v, In v dn -> exists rh, judge v = ROk rh) /\ w_reached x = existsb jr dn /\ w_holey x = existsb jh dn.
    Definition Wst (w : nat) (x : wst) (ab : bool) : Prop :=
      match w_status x with
      | Running | AtLoad => exists dn todo, V w = dn ++ todo /\ sched_iter (w_steps x) (w_stk x) = Some todo /\
          w_stk x <> [] /\ w_ctx x = ctx_of (w_stk x) /\ w_last x = depth (w_stk x) /\ okdone dn x
      | Done => exists dn todo, V w = dn ++ todo /\ okdone dn x /\ (todo = [] \/ ab = true)
      | Failed => exists v, In v (V w) /\ judge v = RErr
      | Panicked => False
      end.
    Definition Ginv (g : gst) : Prop :=
      (forall w, w < n -> Wst w (g_w g w) (g_abort g)) /\
      (g_abort g = true -> exists w, w < n /\ w_status (g_w g w) = Failed).

    Lemma Wst_mono w x ab ab' : (ab = true -> ab' = true) -> Wst w x ab -> Wst w x ab'.
    Proof.
      intros H. unfold Wst. destruct (w_status x); auto. intros (dn & todo & H1 & H2 & H3). exists dn, todo.
      repeat split; try apply H2; auto. destruct H3; auto.
    Qed.
    Lemma worker_step_inv w x : Wst w x false -> w_status x = Running ->
      Wst w (fst (worker_step x)) false /\
      (snd (worker_step x) = true -> w_status (fst (worker_step x)) = Failed) .
    Proof.
      intros HW Hs. unfold Wst in HW. rewrite Hs in HW. destruct HW as (dn & todo & E & Hi & Hne & Hc & Hl & (Hd1 & Hd2 & Hd3)).
      pose proof (next_spec _ _ _ _ Hi Hne Hc) as HN. unfold worker_step. destruct todo as [|[c stk] todo].
      - rewrite HN. cbn [fst snd]. split; [|discriminate]. unfold Wst. cbn [w_status w_reached w_holey]. exists dn, []. repeat split; auto.
      - destruct HN as (r & En & Hi' & Hne' & Hcx). rewrite En. cbv zeta in Hcx. rewrite Hl.
        set (cx := pop_ctx (depth (w_stk x)) (depth stk) (is_sub c) (w_ctx x)) in *.
        assert (Hin : In (c, stk) (V w)) by (rewrite E; apply in_or_app; right; left; auto).
        assert (Hj : wcheck c stk cx = judge (c, stk)).
        { unfold judge. cbn [fst snd]. destruct c; [rewrite Hcx; reflexivity|rewrite Hcx; reflexivity|reflexivity]. }
        rewrite Hj. destruct (judge (c, stk)) as [[re h]| |] eqn:Ej; cbn [fst snd].
        + split; [|discriminate]. unfold Wst. cbn [w_status w_steps w_stk w_ctx w_last w_reached w_holey].
          exists (dn ++ [(c, stk)]), todo. split; [rewrite <- app_assoc; exact E|]. split; [exact Hi'|]. split; [exact Hne'|].
          split; [destruct c; exact Hcx|]. split; [reflexivity|]. unfold okdone. cbn [w_reached w_holey]. rewrite !existsb_app. cbn [existsb].
          split; [|unfold jr at 2, jh at 2; rewrite Ej, Hd2, Hd3, !orb_false_r; auto].
          intros v Hv. apply in_app_or in Hv. destruct Hv as [Hv|[<-|[]]]; eauto.
        + split; [|reflexivity]. unfold Wst. cbn [w_status]. eauto.
        + exfalso. destruct (leaf (c, stk)) eqn:El; [|rewrite judge_sub in Ej by auto; discriminate].
          apply (Hnp (c, stk)); eauto.
    Qed.
    Lemma Wst_false w x ab : w_status x = Running -> Wst w x ab -> Wst w x false.
    Proof. intros H. unfold Wst. rewrite H. auto. Qed.

    Lemma gstep_inv g g' : Ginv g -> gstep n g g' -> Ginv g'.
    Proof.
      intros [HW HA] Hs. destruct Hs as [g w Hw Hst|g w Hw Hst|g w Hw Hst Hab].
      - destruct (worker_step_inv w (g_w g w) (Wst_false _ _ _ Hst (HW w Hw)) Hst) as [H1 H2]. split; cbn [g_w g_abort].
        + intros w' Hw'. unfold fupd. destruct (Nat.eqb_spec w' w) as [->|Hne].
          * eapply Wst_mono; [|exact H1]. discriminate.
          * eapply Wst_mono; [|apply HW; auto]. intros ->. reflexivity.
        + intros H. destruct (snd (worker_step (g_w g w))) eqn:E.
          * exists w. split; [auto|]. rewrite fupd_same. auto.
          * rewrite orb_false_r in H. destruct (HA H) as (w' & Hw' & E'). exists w'. split; [auto|]. unfold fupd.
            destruct (Nat.eqb_spec w' w) as [->|]; [congruence|auto].
      - split; cbn [g_w g_abort].
        + intros w' Hw'. unfold fupd. destruct (Nat.eqb_spec w' w) as [->|Hne]; [|apply HW; auto].
          specialize (HW w Hw). unfold Wst in *. rewrite Hst in HW. exact HW.
        + intros H. destruct (HA H) as (w' & Hw' & E'). exists w'. split; [auto|]. unfold fupd.
          destruct (Nat.eqb_spec w' w) as [->|]; [congruence|auto].
      - split; cbn [g_w g_abort].
        + intros w' Hw'. unfold fupd. destruct (Nat.eqb_spec w' w) as [->|Hne]; [|apply HW; auto].
          specialize (HW w Hw). unfold Wst in *. rewrite Hst in HW. destruct HW as (dn & todo & E & _ & _ & _ & _ & Hd).
          cbn [set_status w_status]. exists dn, todo. split; [exact E|]. split; [exact Hd|auto].
        + intros H. destruct (HA H) as (w' & Hw' & E'). exists w'. split; [auto|]. unfold fupd.
          destruct (Nat.eqb_spec w' w) as [->|]; [congruence|auto].
    Qed.
    Lemma ginit_inv : Ginv (ginit proof loads).
    Proof.
      split; [|discriminate]. intros w _. unfold Wst, ginit. cbn [g_w w_status w_steps w_stk w_ctx w_last w_reached w_holey].
      exists [], (V w). split; [reflexivity|]. split; [apply HV|]. split; [discriminate|]. split; [reflexivity|]. split; [reflexivity|].
      split; [intros v []|split; reflexivity].
    Qed.
    Lemma gsteps_inv g : gsteps n (ginit proof loads) g -> Ginv g.
    Proof. intros H. remember (ginit proof loads) as g0 eqn:E. induction H; subst; [apply ginit_inv|eauto using gstep_inv]. Qed.

    Lemma anyw_true f : anyw n f = true <-> exists w, w < n /\ f w = true.
    Proof.
      unfold anyw. rewrite existsb_exists. split; intros (w & H1 & H2); exists w; split; auto; [apply in_seq in H1; lia|apply in_seq; lia].
    Qed.

    (** Whatever the interleaving, the verdict is the one determined by the judgements of all commands. *)
    Theorem par_verdict g : gsteps n (ginit proof loads) g -> final n g -> verdict n g = pjudge (all_visits proof).
    Proof.
      intros Hg Hf. destruct (gsteps_inv g Hg) as [HW HA].
      unfold verdict. 
      destruct (anyw n (fun w => match w_status (g_w g w) with Panicked => true | _ => false end)) eqn:Ep.
      { exfalso. apply anyw_true in Ep. destruct Ep as (w & Hlt & E). specialize (HW w Hlt). unfold Wst in HW.
        destruct (w_status (g_w g w)); try discriminate. contradiction. }
      destruct (pjudge_spec (all_visits proof) Hnp) as [(v & Hv & Ej & E)|[Ha E]]; rewrite E.
      - destruct (anyw n (fun w => match w_status (g_w g w) with Failed => true | _ => false end)) eqn:Ef; [reflexivity|].
        exfalso. assert (Hl : leaf v = true) by (destruct (leaf v) eqn:El; [auto|rewrite judge_sub in Ej by auto; discriminate]).
        destruct (Hcover v Hv Hl) as (w & Hlt & Hin).
        assert (Hna : g_abort g = false).
        { destruct (g_abort g); [|reflexivity]. destruct (HA eq_refl) as (w' & Hlt' & E'). exfalso.
          assert (X : anyw n (fun w => match w_status (g_w g w) with Failed => true | _ => false end) = true); [|congruence].
          apply anyw_true. exists w'. rewrite E'. auto. }
        specialize (HW w Hlt). specialize (Hf w Hlt). unfold Wst in HW.
        destruct (w_status (g_w g w)) eqn:Es; try discriminate.
        + destruct HW as (dn & todo & EV & (Hd & _) & [->|Hx]); [|congruence]. rewrite app_nil_r in EV. rewrite EV in Hin.
          destruct (Hd v Hin) as [rh Hrh]. congruence.
        + assert (X : anyw n (fun w => match w_status (g_w g w) with Failed => true | _ => false end) = true); [|congruence].
          apply anyw_true. exists w. rewrite Es. auto.
        + contradiction.
      - assert (Hall : forall w v, In v (V w) -> exists rh, judge v = ROk rh).
        { intros w v Hv. destruct (leaf v) eqn:El; [eauto|]. rewrite judge_sub by auto. eauto. }
        destruct (anyw n (fun w => match w_status (g_w g w) with Failed => true | _ => false end)) eqn:Ef.
        { exfalso. apply anyw_true in Ef. destruct Ef as (w & Hlt & Es). specialize (HW w Hlt). unfold Wst in HW.
          destruct (w_status (g_w g w)); try discriminate. destruct HW as (v & Hv & Ev). destruct (Hall w v Hv). congruence. }
        assert (Hna : g_abort g = false).
        { destruct (g_abort g); [|reflexivity]. destruct (HA eq_refl) as (w' & Hlt' & E'). exfalso.
          assert (X : anyw n (fun w => match w_status (g_w g w) with Failed => true | _ => false end) = true); [|congruence].
          apply anyw_true. exists w'. rewrite E'. auto. }
        assert (Hdone : forall w, w < n -> w_reached (g_w g w) = existsb jr (V w) /\ w_holey (g_w g w) = existsb jh (V w)).
        { intros w Hlt. specialize (HW w Hlt). specialize (Hf w Hlt). unfold Wst in HW.
          destruct (w_status (g_w g w)) eqn:Es; try discriminate; [| |contradiction].
          - destruct HW as (dn & todo & EV & (Hd & H1 & H2) & [->|Hx]); [|congruence]. rewrite app_nil_r in EV. rewrite EV. auto.
          - exfalso. assert (X : anyw n (fun w => match w_status (g_w g w) with Failed => true | _ => false end) = true); [|congruence].
            apply anyw_true. exists w. rewrite Es. auto. }
        assert (Hex : forall (f : visit -> bool) (h : nat -> bool), (forall v, leaf v = false -> f v = false) ->
          (forall w, w < n -> h w = existsb f (V w)) -> anyw n h = existsb f (all_visits proof)).
        { intros f h Hfl Hh. apply eq_true_iff_eq. rewrite anyw_true, existsb_exists. split.
          - intros (w & Hlt & Hr). rewrite Hh in Hr by auto. apply existsb_exists in Hr. destruct Hr as (v & Hv & Hr).
            exists v. split; [|auto]. apply (Hsound w v Hv). destruct (leaf v) eqn:El; [auto|]. rewrite Hfl in Hr by auto. discriminate.
          - intros (v & Hv & Hr). assert (El : leaf v = true) by (destruct (leaf v) eqn:El; [auto|rewrite Hfl in Hr by auto; discriminate]).
            destruct (Hcover v Hv El) as (w & Hlt & Hin). exists w. split; [auto|]. rewrite Hh by auto. apply existsb_exists. eauto. }
        rewrite (Hex jr); [|intros v Hl; unfold jr; rewrite judge_sub by auto; reflexivity|intros w Hlt; apply Hdone; auto].
        rewrite (Hex jh); [|intros v Hl; unfold jh; rewrite judge_sub by auto; reflexivity|intros w Hlt; apply Hdone; auto].
        reflexivity.
    Qed.

    (** In particular it is that of the sequential checker. *)
    Theorem par_eq_seq g : wfp proof = true -> (forall v, In v (all_visits proof) -> end_empty v = false) ->
      gsteps n (ginit proof loads) g -> final n g -> verdict n g = check table cfg prems proof.
    Proof.
      intros Hw He Hg Hf. rewrite check_fold by auto. rewrite (par_verdict g Hg Hf).
      destruct (seqfold_spec (all_visits proof) (false, false)) as [(v & Hv & Ej & E)|[Ha E]]; [auto| |]; rewrite E; cbn [obind fst snd orb].
      - destruct (pjudge_spec (all_visits proof) Hnp) as [(v' & Hv' & Ej' & E')|[Ha' E']]; rewrite E'; [reflexivity|].
        destruct (Ha' v Hv). congruence.
      - destruct (pjudge_spec (all_visits proof) Hnp) as [(v' & Hv' & Ej' & E')|[Ha' E']]; rewrite E'; [|reflexivity].
        destruct (Ha v' Hv'). congruence.
    Qed.

    (** ** Every execution ends, and it ends in a state in which all threads have stopped. *)
    Definition wmeas (x : wst) : nat :=
      match w_status x with Running => 2 * List.length (w_steps x) + 1 | AtLoad => 2 * List.length (w_steps x) + 2 | _ => 0 end.
    Definition gmeas (g : gst) : nat := total (fun w => wmeas (g_w g w)) n.
    Lemma sched_next_len : forall steps s c stk r, sched_next steps s = ROk (Some (c, stk, r)) -> List.length r < List.length steps.
    Proof.
      induction steps as [|[d [i|]] l IH]; intros s c stk r H; cbn [sched_next] in H; [discriminate| |].
      - destruct s as [|[j cs] out]; [discriminate|]. destruct (nth_error cs i); cbn [unwrap obind] in H; [|discriminate].
        assert (r = l) by congruence. subst. cbn [List.length]. lia.
      - apply IH in H. cbn [List.length]. lia.
    Qed.
    Lemma worker_step_meas x : w_status x = Running -> wmeas (fst (worker_step x)) < wmeas x.
    Proof.
      intros H. unfold wmeas at 2. rewrite H. unfold worker_step.
      destruct (sched_next (w_steps x) (w_stk x)) as [[[[c stk] r]|]| |] eqn:E; cbn; try lia.
      apply sched_next_len in E. destruct (wcheck _ _ _) as [[re h]| |]; cbn; lia.
    Qed.
    Theorem par_decreases g g' : gstep n g g' -> gmeas g' < gmeas g.
    Proof.
      intros H.
      assert (G : forall w x, w < n -> wmeas x < wmeas (g_w g w) -> total (fun w0 => wmeas (fupd (g_w g) w x w0)) n < gmeas g).
      { intros w x Hw Hx. pose proof (total_upd (fun w0 => wmeas (fupd (g_w g) w x w0)) (fun w0 => wmeas (g_w g w0)) w n) as HT.
        specialize (HT ltac:(intros w0 Hw0; cbn beta; rewrite fupd_other by auto; reflexivity) Hw). cbn beta in HT. rewrite fupd_same in HT.
        unfold gmeas. lia. }
      destruct H as [g w Hw Hst|g w Hw Hst|g w Hw Hst Hab]; unfold gmeas at 1; cbn [g_w]; apply G; auto.
      - apply worker_step_meas. auto.
      - unfold wmeas. rewrite Hst. cbn. lia.
      - unfold wmeas. rewrite Hst. cbn. lia.
    Qed.
    Theorem par_progress g : ~ final n g -> exists g', gstep n g g'.
    Proof.
      intros H. assert (Hw : exists w, w < n /\ stopped (w_status (g_w g w)) = false).
      { destruct (anyw n (fun w => negb (stopped (w_status (g_w g w))))) eqn:E.
        - apply anyw_true in E. destruct E as (w & Hw & E). exists w. split; [auto|]. apply negb_true_iff in E. auto.
        - exfalso. apply H. intros w Hw. destruct (stopped (w_status (g_w g w))) eqn:Es; [reflexivity|]. exfalso.
          assert (X : anyw n (fun w => negb (stopped (w_status (g_w g w)))) = true); [|congruence]. apply anyw_true. exists w. rewrite Es. auto. }
      destruct Hw as (w & Hw & Es). destruct (w_status (g_w g w)) eqn:E; try discriminate.
      - eexists. apply (G_cmd n g w Hw E).
      - eexists. apply (G_go n g w Hw E).
    Qed.
  End Run.
End Par.
