(** Correctness of the scheduler model. *)
From Coq Require Import List String ZArith NArith Bool Arith Lia.
From Verif Require Import Base Term Rules Checker Scheduler.
Import ListNotations.
Local Open Scope nat_scope.

(** ** Specification: the visits of the sequential traversal, in order *)
Fixpoint visits (c : command) (stk : stack) {struct c} : list visit :=
  (c, enter c stk) ::
  match c with
  | CSub sub _ _ =>
      (fix go (l : list command) (i : nat) {struct l} : list visit :=
         match l with [] => [] | x :: r => visits x ((S i, sub) :: stk) ++ go r (S i) end) sub 0
  | _ => []
  end.
Fixpoint visits_list (sub : list command) (out : stack) (l : list command) (i : nat) : list visit :=
  match l with [] => [] | x :: r => visits x ((S i, sub) :: out) ++ visits_list sub out r (S i) end.
Definition all_visits (proof : list command) : list visit := visits_list proof [] proof 0.
Definition is_sub (c : command) : bool := match c with CSub _ _ _ => true | _ => false end.
Definition leaf (v : visit) : bool := negb (is_sub (fst v)).

Lemma visits_eq c stk :
  visits c stk = (c, enter c stk) :: match c with CSub sub _ _ => visits_list sub stk sub 0 | _ => [] end.
Proof.
  destruct c; [reflexivity..|]. cbn [visits]. f_equal. generalize 0.
  assert (H : forall l n, (fix go (l : list command) (i : nat) {struct l} : list visit :=
         match l with [] => [] | x :: r => visits x ((S i, cmds) :: stk) ++ go r (S i) end) l n = visits_list cmds stk l n).
  { induction l; intros; cbn [visits_list]; [reflexivity|]. f_equal. auto. }
  apply H.
Qed.

(** the visits still to come from an iterator stack *)
Fixpoint rem (s : stack) : list visit :=
  match s with [] => [] | (i, cs) :: out => visits_list cs out (skipn i cs) i ++ rem out end.

Section Owners.
  Variable Q : Type.
  Variable assign : Q -> N -> option (nat * Q).
  (** who gets each of the given commands *)
  Fixpoint owners (q : Q) (cs : list command) : list nat :=
    match cs with
    | [] => []
    | c :: r => match assign q (weight c) with Some (w, q') => w :: owners q' r | None => [] end
    end.
End Owners.
(** the commands, other than subproof openings, that belong to [w] *)
Definition owned (w : nat) (os : list nat) (vs : list visit) : list visit :=
  map snd (filter (fun p => Nat.eqb (fst p) w && leaf (snd p)) (combine os vs)).

Definition gs (stk : list level) : stack := map (fun l => (lv_id l, lv_cmds l)) stk.
Lemma gs_len stk : List.length (gs stk) = List.length stk.
Proof. apply map_length. Qed.


Lemma skipn_S {A} (l : list A) i c : nth_error l i = Some c -> skipn i l = c :: skipn (S i) l.
Proof. revert i. induction l as [|x l IH]; intros [|i] H; try discriminate; [injection H as ->; reflexivity|]. apply IH. exact H. Qed.
Lemma rem_next i cs out c : nth_error cs i = Some c ->
  rem ((i, cs) :: out) = (c, enter c ((S i, cs) :: out)) :: rem (enter c ((S i, cs) :: out)).
Proof.
  intros H. cbn [rem]. rewrite (skipn_S _ _ _ H). cbn [visits_list]. rewrite visits_eq.
  destruct c; cbn [app enter rem]; auto. rewrite app_assoc. reflexivity.
Qed.
Lemma rem_done i cs out : i = List.length cs -> rem ((i, cs) :: out) = rem out.
Proof. intros ->. cbn [rem]. rewrite skipn_all. reflexivity. Qed.
Lemma visits_size : forall c stk, List.length (visits c stk) = cmd_size c.
Proof.
  induction c as [id t|s|cs args k IH] using command_ind'; intros stk; [reflexivity..|].
  rewrite visits_eq. cbn [List.length cmd_size]. f_equal. generalize 0. generalize cs at 1.
  induction IH as [|x r Hx Hr IHr]; intros l n; [reflexivity|].
  cbn [visits_list map list_sum fold_right]. rewrite app_length, Hx, IHr. reflexivity.
Qed.
Lemma visits_list_size sub out : forall l i, List.length (visits_list sub out l i) = cmds_size l.
Proof.
  unfold cmds_size. induction l as [|x r IH]; intros i; [reflexivity|].
  cbn [visits_list map list_sum fold_right]. rewrite app_length, visits_size, IH. reflexivity.
Qed.

(** the subproofs are numbered 0, 1, 2, ... in the order of their openings, as the parser does
    (parser/mod.rs:837,912-915) *)
Definition ctx_ids (vs : list visit) : list nat :=
  flat_map (fun v => match fst v with CSub _ _ id => [id] | _ => [] end) vs.
Definition ids_ok (proof : list command) : Prop :=
  ctx_ids (all_visits proof) = seq 0 (List.length (ctx_ids (all_visits proof))).
(** how often a list of visits opens the subproof with number [k] *)
Definition ocount (k : nat) (vs : list visit) : nat := count_occ Nat.eq_dec (ctx_ids vs) k.
Definition total (f : nat -> nat) (n : nat) : nat := list_sum (map f (seq 0 n)).

Lemma ctx_ids_app a b : ctx_ids (a ++ b) = ctx_ids a ++ ctx_ids b.
Proof. apply flat_map_app. Qed.
Lemma total_ext f g n : (forall i, i < n -> f i = g i) -> total f n = total g n.
Proof.
  intros H. unfold total. f_equal. apply map_ext_in. intros a Ha. apply in_seq in Ha. apply H. lia.
Qed.
Lemma list_sum_cons a l : list_sum (a :: l) = a + list_sum l.
Proof. reflexivity. Qed.
Lemma total_upd_aux f g w : (forall i, i <> w -> f i = g i) -> forall n s, s <= w < s + n ->
  list_sum (map f (seq s n)) + g w = list_sum (map g (seq s n)) + f w.
Proof.
  intros H. induction n as [|n IH]; intros s Hs; [lia|]. cbn [seq map]. rewrite !list_sum_cons.
  destruct (Nat.eq_dec s w) as [->|Hn].
  - assert (E : map f (seq (S w) n) = map g (seq (S w) n)).
    { apply map_ext_in. intros a Ha. apply in_seq in Ha. apply H. lia. }
    rewrite E. lia.
  - rewrite (H s Hn). specialize (IH (S s)). lia.
Qed.
Lemma total_upd f g w n : (forall i, i <> w -> f i = g i) -> w < n -> total f n + g w = total g n + f w.
Proof. intros H Hw. apply total_upd_aux; auto. lia. Qed.
Lemma total_ge f n w : w < n -> f w <= total f n.
Proof.
  intros H. pose proof (total_upd f (fupd f w 0) w n) as E. unfold fupd in E.
  rewrite Nat.eqb_refl in E. specialize (E ltac:(intros i Hi; destruct (Nat.eqb_spec i w); [congruence|reflexivity]) H). lia.
Qed.

Lemma vec_upd_incr v : forall k, k < List.length v -> exists v', vec_upd v k incr = ROk v' /\
  List.length v' = List.length v /\ forall i, nth i v' 0 = if Nat.eqb i k then S (nth i v 0) else nth i v 0.
Proof.
  induction v as [|x v IH]; intros [|k] H; cbn [List.length] in H; try lia.
  - exists (S x :: v). repeat split. intros [|i]; reflexivity.
  - destruct (IH k) as [v' [E [L N]]]; [lia|]. cbn [vec_upd]. rewrite E. exists (x :: v'). repeat split.
    + cbn [List.length]. lia.
    + intros [|i]; [reflexivity|]. apply N.
Qed.
Lemma vec_upd_decr v : forall k, k < List.length v -> 0 < nth k v 0 -> exists v', vec_upd v k decr = ROk v' /\
  List.length v' = List.length v /\ forall i, nth i v' 0 + (if Nat.eqb i k then 1 else 0) = nth i v 0.
Proof.
  induction v as [|x v IH]; intros [|k] H Hp; cbn [List.length] in H; try lia.
  - cbn [nth] in Hp. destruct x as [|x]; [lia|]. exists (x :: v). repeat split. intros [|i]; cbn; lia.
  - destruct (IH k) as [v' [E [L N]]]; [lia|exact Hp|]. cbn [vec_upd]. rewrite E. exists (x :: v'). repeat split.
    + cbn [List.length]. lia.
    + intros [|i]; cbn [nth Nat.eqb]; [lia|]. apply N.
Qed.

Lemma owned_app w A G a v : List.length A = List.length G ->
  owned w (A ++ [a]) (G ++ [v]) = owned w A G ++ (if Nat.eqb a w && leaf v then [v] else []).
Proof.
  intros H. unfold owned.
  assert (E : combine (A ++ [a]) (G ++ [v]) = combine A G ++ [(a, v)]).
  { revert G H. induction A as [|x A IH]; intros [|y G] H; try discriminate; [reflexivity|].
    cbn [app combine]. f_equal. apply IH. cbn [List.length] in H. lia. }
  rewrite E, filter_app, map_app. cbn [filter fst snd]. destruct (Nat.eqb a w && leaf v); reflexivity.
Qed.

Lemma at_depth_app top lv out : at_depth (top ++ lv :: out) (List.length out) = Some lv.
Proof.
  induction top as [|x top IH]; cbn [app at_depth].
  - rewrite Nat.eqb_refl. reflexivity.
  - destruct (Nat.eqb_spec (List.length (top ++ lv :: out)) (List.length out)) as [E|E]; [|exact IH].
    rewrite app_length in E. cbn [List.length] in E. lia.
Qed.
Lemma at_depth_hd lv out : at_depth (lv :: out) (List.length out) = Some lv.
Proof. apply (at_depth_app []). Qed.
Lemma at_depth_snd x lv out : at_depth (x :: lv :: out) (List.length out) = Some lv.
Proof. apply (at_depth_app [x]). Qed.
Lemma upd_depth_app f top lv out : upd_depth (top ++ lv :: out) (List.length out) f = top ++ f lv :: out.
Proof.
  induction top as [|x top IH]; cbn [app upd_depth].
  - rewrite Nat.eqb_refl. reflexivity.
  - destruct (Nat.eqb_spec (List.length (top ++ lv :: out)) (List.length out)) as [E|E]; [|f_equal; exact IH].
    rewrite app_length in E. cbn [List.length] in E. lia.
Qed.

(** ** Invariants *)
Section Inv.
  Variable proof : list command.
  (** a well-formed stack, all of whose subproofs have numbers below [m] *)
  Inductive WS (m : nat) : list level -> Prop :=
  | WS_root i u : NoDup u -> i <= List.length proof -> WS m [mkLv i proof None u]
  | WS_sub i u sub args k j p out : NoDup u -> i <= List.length sub -> WS m (p :: out) ->
      nth_error (lv_cmds p) j = Some (CSub sub args k) -> lv_id p = S j -> k < m ->
      WS m (mkLv i sub (Some (List.length out, j)) u :: p :: out).

  (** replay of a schedule (newest entry first) *)
  Inductive R : list entry -> stack -> list visit -> Prop :=
  | R_nil : R [] [(0, proof)] []
  | R_cmd load i cs out V j c : R load ((i, cs) :: out) V -> nth_error cs j = Some c ->
      R ((List.length out, Some j) :: load) (enter c ((S j, cs) :: out)) (V ++ [(c, enter c ((S j, cs) :: out))])
  | R_close load x y out V : R load (x :: y :: out) V -> R ((S (List.length out), None) :: load) (y :: out) V.

  Lemma R_ne load s V : R load s V -> s <> [].
  Proof. induction 1; try discriminate. destruct c; discriminate. Qed.

  Lemma iter_app l1 : forall s l2 V, sched_iter (l1 ++ l2) s = Some V ->
    exists V1, sched_iter l1 s = Some V1.
  Proof.
    induction l1 as [|[d [j|]] l1 IH]; intros s l2 V H; cbn [sched_iter app] in *; eauto.
    - destruct s as [|[i cs] out]; [discriminate|]. destruct (nth_error cs j); [|discriminate].
      destruct (sched_iter (l1 ++ l2) _) eqn:E; [|discriminate]. apply IH in E. destruct E as [V1 ->]. eauto.
    - destruct s; [discriminate|]. eauto.
  Qed.
  Lemma R_iter load s V : R load s V -> forall r,
    sched_iter (rev load ++ r) [(0, proof)] = match sched_iter r s with Some V' => Some (V ++ V') | None => None end.
  Proof.
    induction 1 as [|load i cs out V j c HR IH Hj|load x y out V HR IH]; intros r.
    - cbn [rev app]. destruct (sched_iter r _); reflexivity.
    - cbn [rev]. rewrite <- app_assoc, IH. cbn [app sched_iter]. rewrite Hj.
      destruct (sched_iter r _); [|reflexivity]. rewrite <- app_assoc. reflexivity.
    - cbn [rev]. rewrite <- app_assoc, IH. cbn [app sched_iter]. reflexivity.
  Qed.

  (** the position of a worker relative to the stack: it has opened the levels of [bot] *)
  Definition nonroot_used (w : nat) (ls : list level) : Prop :=
    forall l, In l ls -> lv_pre l <> None -> In w (lv_used l).
  Definition linked (w : nat) (cst : stack) (top bot : list level) : Prop :=
    (exists i lv out, bot = lv :: out /\ cst = (i, lv_cmds lv) :: gs out /\ nonroot_used w out) /\
    (forall l, In l top -> ~ In w (lv_used l)).
  Definition act (w : nat) (cst : stack) (stk : list level) : Prop :=
    exists top bot, stk = top ++ bot /\ linked w cst top bot /\ nonroot_used w bot.

  Definition vis (load : list entry) : list visit :=
    match sched_iter (rev load) [(0, proof)] with Some V => V | None => [] end.
  Lemma R_vis load s V : R load s V -> vis load = V.
  Proof.
    intros H. unfold vis. pose proof (R_iter _ _ _ H []) as E. rewrite app_nil_r in E. rewrite E.
    cbn [sched_iter]. apply app_nil_r.
  Qed.

  Lemma add_user_In w l w' : In w' (lv_used (add_user w l)) <-> w' = w \/ In w' (lv_used l).
  Proof.
    unfold add_user. cbn [lv_used]. destruct (memb Nat.eqb w (lv_used l)) eqn:E; cbn [In].
    - apply (memb_In Nat.eqb Nat.eqb_eq) in E. split; [auto|]. intros [->|H]; auto.
    - split; intros [H|H]; auto.
  Qed.
  Lemma add_user_NoDup w l : NoDup (lv_used l) -> NoDup (lv_used (add_user w l)).
  Proof.
    unfold add_user. cbn [lv_used]. destruct (memb Nat.eqb w (lv_used l)) eqn:E; auto.
    intros H. constructor; auto. intros Hi. apply (memb_In Nat.eqb Nat.eqb_eq) in Hi. congruence.
  Qed.
  (** levels that differ at most by having gained the user [w] *)
  Definition grow (w : nat) (l l' : level) : Prop :=
    lv_id l' = lv_id l /\ lv_cmds l' = lv_cmds l /\ lv_pre l' = lv_pre l /\
    (NoDup (lv_used l) -> NoDup (lv_used l')) /\
    (forall w', In w' (lv_used l) -> In w' (lv_used l')) /\
    (forall w', w' <> w -> In w' (lv_used l') -> In w' (lv_used l)).
  Lemma grow_refl w l : grow w l l.
  Proof. repeat split; auto. Qed.
  Lemma grow_trans w a b c : grow w a b -> grow w b c -> grow w a c.
  Proof.
    intros (?&?&?&?&?&?) (?&?&?&?&?&?). unfold grow. repeat split; try congruence; auto.
  Qed.
  Lemma grow_add w l : grow w l (add_user w l).
  Proof.
    repeat split; auto using add_user_NoDup.
    - intros w' H. apply add_user_In. auto.
    - intros w' Hn H. apply add_user_In in H. destruct H; congruence.
  Qed.
  Definition grows w := Forall2 (grow w).
  Lemma grows_refl w s : grows w s s.
  Proof. induction s; constructor; auto using grow_refl. Qed.
  Lemma grows_trans w a b c : grows w a b -> grows w b c -> grows w a c.
  Proof.
    intros H. revert c. induction H; intros c Hc; inversion Hc; subst; constructor; eauto using grow_trans. apply IHForall2. auto.
  Qed.
  Lemma grows_gs w a b : grows w a b -> gs b = gs a.
  Proof. induction 1 as [|x y a b (H1&H2&_) _ IH]; [reflexivity|]. unfold gs in *. cbn [map]. rewrite H1, H2, IH. reflexivity. Qed.
  Lemma grows_len w a b : grows w a b -> List.length b = List.length a.
  Proof. induction 1; cbn [List.length]; auto. Qed.
  Lemma grows_WS w m a b : grows w a b -> WS m a -> WS m b.
  Proof.
    intros H Hw. revert b H. induction Hw as [i u Hu Hle|i u sub args k j p out Hu Hle Hw IH Hj Hi Hk]; intros b H.
    - inversion H as [|x y ? ? (H1&H2&H3&H4&_) H5]; subst. inversion H5; subst. destruct y; cbn in *. subst. constructor; auto.
    - inversion H as [|x y ? l' (H1&H2&H3&H4&_) H5]; subst. specialize (IH _ H5).
      pose proof (grows_len _ _ _ H5) as HL. inversion H5 as [|? p' ? out' (G1&G2&G3&_) H6]; subst. cbn [List.length] in HL.
      destruct y; cbn in *. subst. replace (List.length out) with (List.length out') by lia.
      apply (WS_sub m _ _ _ args k); auto; rewrite ?G1, ?G2; auto.
  Qed.
  Lemma WS_id m l r : WS m (l :: r) -> lv_id l <= List.length (lv_cmds l).
  Proof. intros H. inversion H; subst; auto. Qed.
  Lemma WS_mono m m' s : WS m s -> m <= m' -> WS m' s.
  Proof. induction 1; intros; econstructor; eauto. lia. Qed.
  Lemma WS_suffix m top bot : WS m (top ++ bot) -> bot <> [] -> WS m bot.
  Proof.
    induction top as [|x top IH]; intros H Hb; [exact H|]. cbn [app] in H. inversion H; subst.
    - match goal with E : [] = _ |- _ => symmetry in E; apply app_eq_nil in E; destruct E end. contradiction.
    - apply IH; auto. match goal with E : _ :: _ = top ++ bot |- _ => rewrite <- E end. auto.
  Qed.
  Lemma Forall2_In_r {A B} (P : A -> B -> Prop) a b y : Forall2 P a b -> In y b -> exists x, In x a /\ P x y.
  Proof. induction 1; [contradiction|]. intros [<-|Hi]; [exists x; split; auto; left; auto|]. destruct (IHForall2 Hi) as [z [? ?]]. exists z. split; auto. right; auto. Qed.
  Lemma grows_nonroot w w' a b : grows w a b -> nonroot_used w' a -> nonroot_used w' b.
  Proof.
    intros H Hn l Hl Hp. destruct (Forall2_In_r _ _ _ _ H Hl) as [x [Hx (H1&H2&H3&H4&H5&H6)]].
    apply H5, Hn; auto. congruence.
  Qed.
  Lemma grows_act w w' cst a b : w' <> w -> grows w a b -> act w' cst a -> act w' cst b.
  Proof.
    intros Hw H (top & bot & -> & ((i & lv & out & -> & -> & Hu) & Ht) & Hb).
    apply Forall2_app_inv_l in H. destruct H as (t' & b' & H1 & H2 & ->).
    exists t', b'. repeat split; auto.
    - inversion H2 as [|? lv' ? out' (G1&G2&_) H3]; subst. exists i, lv', out'. repeat split.
      + rewrite G2, (grows_gs _ _ _ H3). reflexivity.
      + eapply grows_nonroot; eauto.
    - intros l Hl Hi. destruct (Forall2_In_r _ _ _ _ H1 Hl) as [x [Hx (_&_&_&_&_&H6)]]. apply (Ht x Hx), H6; auto.
    - eapply grows_nonroot; eauto.
  Qed.

  Variable n : nat.
  Definition Uinv (loads : loads_t) (usage : list nat) : Prop :=
    forall k, nth k usage 0 = total (fun w => ocount k (vis (loads w))) n.
  Lemma ocount_app k a b : ocount k (a ++ b) = ocount k a + ocount k b.
  Proof. unfold ocount. rewrite ctx_ids_app. apply count_occ_app. Qed.
  Lemma ocount_sub k s sub a id : ocount k [(CSub sub a id, s)] = if Nat.eqb k id then 1 else 0.
  Proof.
    unfold ocount, ctx_ids. cbn [flat_map fst app]. cbn [count_occ].
    destruct (Nat.eq_dec id k), (Nat.eqb_spec k id); congruence.
  Qed.
  Lemma ocount_leaf k v : leaf v = true -> ocount k [v] = 0.
  Proof. destruct v as [[] s]; try discriminate; reflexivity. Qed.
  Lemma fupd_same {A} (f : nat -> A) k v : fupd f k v k = v.
  Proof. unfold fupd. rewrite Nat.eqb_refl. reflexivity. Qed.
  Lemma fupd_other {A} (f : nat -> A) k v j : j <> k -> fupd f k v j = f j.
  Proof. unfold fupd. intros H. destruct (Nat.eqb_spec j k); congruence. Qed.

  (** opening a subproof for a worker that stands directly outside it *)
  Lemma open1_spec w (loads : loads_t) usage top lv p out i V :
    w < n -> WS (List.length usage) (top ++ lv :: p :: out) ->
    R (loads w) ((i, lv_cmds p) :: gs out) V -> Uinv loads usage ->
    exists e usage' V', open1 w (mkS loads (top ++ lv :: p :: out) usage) (List.length (p :: out)) =
      ROk (mkS (fupd loads w (e :: loads w)) (top ++ lv :: add_user w p :: out) usage') /\
      R (e :: loads w) ((0, lv_cmds lv) :: gs (p :: out)) V' /\ filter leaf V' = filter leaf V /\
      List.length usage' = List.length usage /\ Uinv (fupd loads w (e :: loads w)) usage'.
  Proof.
    intros Hw HWS HR HU. pose proof (WS_suffix _ _ _ HWS ltac:(discriminate)) as HS.
    inversion HS as [|i0 u sub args k j p' out' Hu Hle HWp Hj Hi Hk]; subst.
    unfold open1. cbn [ss_stack ss_loads ss_usage]. rewrite at_depth_app. cbn [unwrap obind lv_pre fst snd].
    assert (Hlast : last_is (loads w) (List.length out, j) = false).
    { destruct (loads w) as [|e load]; [reflexivity|]. cbn [last_is]. unfold entry_eqb. cbn [fst snd].
      destruct (Nat.eqb (fst e) (List.length out)) eqn:E1; [|reflexivity]. cbn [andb].
      destruct e as [d [x|]]; [|reflexivity]. cbn [fst snd] in *. destruct (Nat.eqb_spec x j) as [->|]; [|reflexivity].
      exfalso. apply Nat.eqb_eq in E1. inversion HR as [|load' i1 cs out1 V1 j1 c HR1 Hj1 E3 E4 E5|]; subst.
      destruct c as [| |sub' a' k']; cbn [enter] in E4.
      1,2: assert (cs = lv_cmds p) by congruence; subst cs; rewrite Hj in Hj1; discriminate.
      apply (f_equal (@List.length _)) in E4. cbn [List.length] in E4. rewrite gs_len in E4. lia. }
    rewrite Hlast.
    replace (top ++ {| lv_id := i0; lv_cmds := sub; lv_pre := Some (List.length out, j); lv_used := u |} :: p :: out)
      with ((top ++ [mkLv i0 sub (Some (List.length out, j)) u]) ++ p :: out) by (rewrite <- app_assoc; reflexivity).
    rewrite upd_depth_app, at_depth_app. cbn [unwrap obind].
    cbn [add_user lv_cmds]. rewrite Hj. cbn [unwrap obind].
    destruct (vec_upd_incr usage k Hk) as [usage' [E [HL HN]]]. rewrite E. cbn [obind].
    exists (List.length out, Some j), usage'. eexists. split; [rewrite <- app_assoc; reflexivity|].
    assert (HR' : R ((List.length out, Some j) :: loads w) ((0, sub) :: (S j, lv_cmds p) :: gs out)
       (V ++ [(CSub sub args k, (0, sub) :: (S j, lv_cmds p) :: gs out)])).
    { rewrite <- (gs_len out). apply (R_cmd _ _ _ _ _ _ _ HR Hj). }
    split; [|split; [|split; [exact HL|]]].
    - unfold gs at 1. cbn [map lv_cmds]. rewrite Hi. exact HR'.
    - rewrite filter_app. cbn. apply app_nil_r.
    - intros k0. rewrite HN.
      pose proof (total_upd (fun w0 => ocount k0 (vis (fupd loads w ((List.length out, Some j) :: loads w) w0)))
                            (fun w0 => ocount k0 (vis (loads w0))) w n) as HT.
      specialize (HT ltac:(intros w0 Hw0; cbn beta; rewrite fupd_other by auto; reflexivity) Hw). cbn beta in HT.
      rewrite fupd_same in HT. rewrite (R_vis _ _ _ HR'), (R_vis _ _ _ HR) in HT.
      rewrite ocount_app, ocount_sub in HT. rewrite (HU k0). revert HT. generalize (total (fun w0 => ocount k0 (vis (loads w0))) n) (ocount k0 V).
      intros a b. set (tt0 := total _ n). clearbody tt0. clear. destruct (Nat.eqb k0 k); intros; lia.
  Qed.

  Lemma il_some d i l : initial_layer ((d, Some i) :: l) = ROk d.
  Proof. destruct d; reflexivity. Qed.
  Definition only (w : nat) (loads loads' : loads_t) : Prop := forall w', w' <> w -> loads' w' = loads w'.
  Lemma open_levels_spec : forall t w (loads : loads_t) usage top bot i lv out V,
    List.length top = t ->
    w < n -> bot = lv :: out -> WS (List.length usage) (top ++ bot) ->
    R (loads w) ((i, lv_cmds lv) :: gs out) V -> nonroot_used w out -> Uinv loads usage ->
    exists (loads' : loads_t) stk' usage' V' i' lv' out',
      open_levels w (mkS loads (top ++ bot) usage) (seq (List.length bot) t) = ROk (mkS loads' stk' usage') /\
      stk' = lv' :: out' /\ R (loads' w) ((i', lv_cmds lv') :: gs out') V' /\ filter leaf V' = filter leaf V /\
      nonroot_used w out' /\ grows w (top ++ bot) stk' /\ only w loads loads' /\
      List.length usage' = List.length usage /\ Uinv loads' usage'.
  Proof.
    induction t as [|t IH]; intros w loads usage top bot i lv out V Ht Hw -> HWS HR Hn HU.
    - destruct top; [|discriminate]. cbn [app seq open_levels] in *.
      exists loads, (lv :: out), usage, V, i, lv, out.
      repeat (split; [solve [auto using grows_refl | intros ? ?; reflexivity]|]). auto.
    - destruct (@exists_last _ top) as [top' [l ->]]; [intros ->; discriminate|].
      rewrite app_length in Ht. cbn [List.length] in Ht. rewrite <- app_assoc in *. cbn [app] in *.
      destruct (open1_spec w loads usage top' l lv out i V Hw HWS HR HU) as (e & usage1 & V1 & E1 & HR1 & HF1 & HL1 & HU1).
      cbn [seq open_levels]. rewrite E1. cbn [obind].
      assert (HG : grows w (top' ++ l :: lv :: out) (top' ++ l :: add_user w lv :: out)).
      { apply Forall2_app; [apply grows_refl|]. constructor; [apply grow_refl|]. constructor; [apply grow_add|apply grows_refl]. }
      set (loads1 := fupd loads w (e :: loads w)) in *.
      destruct (IH w loads1 usage1 top' (l :: add_user w lv :: out) 0 l (add_user w lv :: out) V1)
        as (loads2 & stk2 & usage2 & V2 & i2 & lv2 & out2 & E2 & -> & HR2 & HF2 & Hn2 & HG2 & HO2 & HL2 & HU2); auto.
      + lia.
      + rewrite HL1. eapply grows_WS; eauto.
      + unfold loads1. rewrite fupd_same. exact HR1.
      + intros x [<-|Hx] Hp; [apply add_user_In; auto|]. apply Hn; auto.
      + exists loads2, (lv2 :: out2), usage2, V2, i2, lv2, out2.
        split; [exact E2|]. split; [reflexivity|]. split; [exact HR2|]. split; [congruence|]. split; [exact Hn2|].
        split; [eapply grows_trans; eauto|]. split; [|split; [congruence|exact HU2]].
        intros w' Hw'. rewrite HO2 by auto. unfold loads1. apply fupd_other. auto.
  Qed.

  (** giving the next command to a worker, whatever its position *)
  Lemma give_spec w (loads : loads_t) usage stk cst V top out c :
    w < n -> WS (List.length usage) stk -> stk = top :: out -> act w cst stk -> R (loads w) cst V -> Uinv loads usage ->
    nth_error (lv_cmds top) (lv_id top) = Some c ->
    (forall sub a id, c = CSub sub a id -> id = List.length usage) ->
    exists (loads' : loads_t) stk' usage' V' cst', 
      give w (mkS loads stk usage) = ROk (mkS loads' stk' usage') /\
      gs stk' = enter c ((S (lv_id top), lv_cmds top) :: gs out) /\
      WS (List.length usage') stk' /\
      R (loads' w) cst' V' /\ act w cst' stk' /\
      filter leaf V' = filter leaf V ++ filter leaf [(c, enter c ((S (lv_id top), lv_cmds top) :: gs out))] /\
      only w loads loads' /\
      (forall w' cst', w' <> w -> act w' cst' stk -> act w' cst' stk') /\
      (forall w' l', w' <> w -> In l' stk' -> In w' (lv_used l') -> exists l, In l stk /\ In w' (lv_used l)) /\
      List.length usage' = List.length usage + (if is_sub c then 1 else 0) /\ Uinv loads' usage'.
  Proof.
    intros Hw HWS Hstk (tp & bot & Es & ((i & lv & bo & -> & -> & Hnb) & Hnt) & Hnr) HR HU Hc Hid.
    unfold give. cbn [ss_stack ss_loads ss_usage].
    set (d := List.length stk - 1).
    assert (HD : List.length stk = List.length tp + S (List.length bo)) by (rewrite Es, app_length; reflexivity).
    (* the levels to open *)
    assert (HO : exists l0, initial_layer (loads w) = ROk l0 /\
      open_levels w (mkS loads stk usage) (seq (S l0) (d - l0)) =
      open_levels w (mkS loads (tp ++ lv :: bo) usage) (seq (List.length (lv :: bo)) (List.length tp))).
    { rewrite Es. remember (loads w) as load eqn:El. remember ((i, lv_cmds lv) :: gs bo) as cst eqn:Ec.
      inversion HR as [E3 E4 E5|load' i1 cs out1 V1 j1 c1 HR1 Hj1 E3 E4 E5|load' x y out1 V1 HR1 E3 E4 E5]; rewrite Ec in E4.
      - exists 0. split; [reflexivity|]. injection E4 as _ _ E2.
        assert (bo = []) by (destruct bo; [reflexivity|discriminate]). subst bo. cbn [List.length] in *. do 2 f_equal. unfold d. lia.
      - destruct c1 as [| |sub' a' k']; cbn [enter] in E4.
        1,2: exists (List.length out1); split; [apply il_some|]; injection E4 as _ _ ->; rewrite gs_len; cbn [List.length]; do 2 f_equal; unfold d; lia.
        exists (List.length out1). split; [apply il_some|].
        assert (HLo : List.length bo = S (List.length out1)).
        { apply (f_equal (@List.length _)) in E4. cbn [List.length] in E4. rewrite gs_len in E4. lia. }
        replace (d - List.length out1) with (S (List.length tp)) by (unfold d; lia). cbn [seq].
        cbn [open_levels]. unfold open1. cbn [ss_stack ss_loads ss_usage]. rewrite <- HLo. rewrite at_depth_app. cbn [unwrap obind].
        rewrite Es in HWS. pose proof (WS_suffix _ _ _ HWS ltac:(discriminate)) as HS.
        inversion HS as [i0 u Hu Hle E6|i0 u sub args k j p out' Hu Hle HWp Hj Hi Hk E6]; [subst bo; discriminate|]. subst lv bo.
        cbn [lv_pre unwrap obind]. replace (last_is (loads w) (List.length out', j)) with true.
        + cbn [obind List.length]. do 2 f_equal. 
        + rewrite <- El, <- E3. cbn [last_is]. unfold entry_eqb. cbn [fst snd]. cbn [List.length] in HLo. injection HLo as HLo. rewrite HLo, Nat.eqb_refl.
          unfold gs in E4. cbn [map] in E4. injection E4 as _ _ E4 _ _. rewrite Hi in E4. injection E4 as ->. rewrite Nat.eqb_refl. reflexivity.
      - exists (List.length out1). split; [reflexivity|]. injection E4 as -> ->. rewrite gs_len. cbn [List.length]. do 2 f_equal. unfold d. lia. }
    destruct HO as (l0 & El0 & EO). rewrite El0. cbn [obind]. rewrite EO.
    rewrite Es in HWS.
    destruct (open_levels_spec (List.length tp) w loads usage tp (lv :: bo) i lv bo V) as
      (loads1 & stk1 & usage1 & V1 & i1 & lv1 & out1 & E1 & -> & HR1 & HF1 & Hn1 & HG1 & HO1 & HL1 & HU1); auto.
    rewrite E1. cbn [obind ss_stack ss_loads ss_usage]. rewrite <- Es in HG1, HWS. rewrite Hstk in HG1.
    inversion HG1 as [|? ? ? ? (G1&G2&G3&G4&G5&G6) HG1']; subst x y l l'.
    rewrite G1, G2, Hc. cbn [unwrap obind].
    assert (Hd : d = List.length out1). { apply grows_len in HG1'. unfold d. rewrite Hstk. cbn [List.length]. lia. }
    set (top1 := add_user w {| lv_id := S (lv_id top); lv_cmds := lv_cmds top; lv_pre := lv_pre lv1; lv_used := lv_used lv1 |}).
    set (ns := enter c ((S (lv_id top), lv_cmds top) :: gs out)).
    set (loads2 := fupd loads1 w ((d, Some (lv_id top)) :: loads1 w)).
    assert (HRn : R (loads2 w) ns (V1 ++ [(c, ns)])).
    { unfold loads2. rewrite fupd_same, Hd, <- (gs_len out1). unfold ns. rewrite <- (grows_gs _ _ _ HG1').
      rewrite G2 in HR1. apply (R_cmd _ _ _ _ _ _ _ HR1 Hc). }
    assert (HT1 : forall k, total (fun w0 => ocount k (vis (loads2 w0))) n = nth k usage1 0 + ocount k [(c, ns)]).
    { intros k. rewrite (HU1 k).
      pose proof (total_upd (fun w0 => ocount k (vis (loads2 w0))) (fun w0 => ocount k (vis (loads1 w0))) w n) as HT.
      specialize (HT ltac:(intros w0 Hw0; unfold loads2; cbn beta; rewrite fupd_other by auto; reflexivity) Hw). cbn beta in HT.
      rewrite (R_vis _ _ _ HRn), (R_vis _ _ _ HR1), ocount_app in HT. revert HT.
      set (a := total _ n). set (b := total _ n). clearbody a b. clear. lia. }
    assert (HG2 : grows w (mkLv (S (lv_id top)) (lv_cmds top) (lv_pre top) (lv_used top) :: out) (top1 :: out1)).
    { constructor; [|exact HG1']. eapply grow_trans; [|apply grow_add]. repeat split; auto. }
    assert (HWS2 : forall m, List.length usage <= m -> WS m (top1 :: out1)).
    { intros m Hm. eapply grows_WS; [exact HG2|]. rewrite Hstk in HWS. assert (Hlt : S (lv_id top) <= List.length (lv_cmds top)) by (apply nth_error_Some; congruence).
      inversion HWS; subst; econstructor; eauto using WS_mono. lia. }
    assert (Hgs1 : gs (top1 :: out1) = (S (lv_id top), lv_cmds top) :: gs out).
    { rewrite (grows_gs _ _ _ HG2). reflexivity. }
    assert (Hnt1 : nonroot_used w (top1 :: out1)).
    { intros l [<-|Hl] Hp; [apply add_user_In; auto|]. apply Hn1; auto. }
    assert (Hact1 : forall w' cst', w' <> w -> act w' cst' stk -> act w' cst' (top1 :: out1)).
    { intros w' cst' Hw' Ha. eapply grows_act; [exact Hw'|exact HG2|].
      destruct Ha as (tp' & bot' & Es' & ((i' & lv' & bo' & -> & -> & Hnb') & Hnt') & Hnr').
      rewrite Hstk in Es'. destruct tp' as [|x tp']; cbn [app] in Es'; injection Es' as -> ->.
      - exists [], (mkLv (S (lv_id lv')) (lv_cmds lv') (lv_pre lv') (lv_used lv') :: bo'). split; [reflexivity|]. split.
        + split; [|intros l []]. exists i', (mkLv (S (lv_id lv')) (lv_cmds lv') (lv_pre lv') (lv_used lv')), bo'. auto.
        + intros l [<-|Hl] Hp; [apply (Hnr' lv'); [left; reflexivity|exact Hp]|apply Hnb'; auto].
      - exists (mkLv (S (lv_id x)) (lv_cmds x) (lv_pre x) (lv_used x) :: tp'), (lv' :: bo'). split; [reflexivity|]. split; [|auto].
        split; [exists i', lv', bo'; auto|]. intros l [<-|Hl]; [apply (Hnt' x); left; reflexivity|apply Hnt'; right; auto]. }
    assert (Hin : forall w' l', w' <> w -> In l' (top1 :: out1) -> In w' (lv_used l') -> exists l, In l stk /\ In w' (lv_used l)).
    { intros w' l' Hw' Hl Hu. destruct (Forall2_In_r _ _ _ _ HG2 Hl) as [x [Hx (_&_&_&_&_&H6)]]. rewrite Hstk.
      destruct Hx as [<-|Hx]; [exists top; split; [left; auto|]; apply (H6 w' Hw' Hu)|]. exists x. split; [right; auto|]. apply H6; auto. }
    assert (HO2 : only w loads loads2).
    { intros w' Hw'. unfold loads2. rewrite fupd_other by auto. apply HO1. auto. }
    assert (Hleaf : is_sub c = false ->
      exists (loads' : loads_t) stk' usage' V' cst', 
      ROk (mkS loads2 (top1 :: out1) usage1) = ROk (mkS loads' stk' usage') /\
      gs stk' = enter c ((S (lv_id top), lv_cmds top) :: gs out) /\
      WS (List.length usage') stk' /\
      R (loads' w) cst' V' /\ act w cst' stk' /\
      filter leaf V' = filter leaf V ++ filter leaf [(c, enter c ((S (lv_id top), lv_cmds top) :: gs out))] /\
      only w loads loads' /\
      (forall w' cst', w' <> w -> act w' cst' stk -> act w' cst' stk') /\
      (forall w' l', w' <> w -> In l' stk' -> In w' (lv_used l') -> exists l, In l stk /\ In w' (lv_used l)) /\
      List.length usage' = List.length usage + (if is_sub c then 1 else 0) /\ Uinv loads' usage').
    { intros Hs. exists loads2, (top1 :: out1), usage1, (V1 ++ [(c, ns)]), ns.
      assert (Hens : ns = (S (lv_id top), lv_cmds top) :: gs out) by (unfold ns; destruct c; try discriminate; reflexivity).
      split; [reflexivity|]. split; [rewrite Hgs1; symmetry; exact Hens|]. split; [apply HWS2; lia|]. split; [exact HRn|].
      split; [|split; [rewrite filter_app, HF1; reflexivity|split; [exact HO2|split; [exact Hact1|split; [exact Hin|split]]]]].
      - exists [], (top1 :: out1). split; [reflexivity|]. split; [|exact Hnt1]. split; [|intros l []].
        exists (S (lv_id top)), top1, out1. split; [reflexivity|]. split; [|exact Hn1].
        rewrite Hens, (grows_gs _ _ _ HG1'). reflexivity.
      - rewrite Hs. lia.
      - intros k. rewrite HT1, ocount_leaf; [lia|]. unfold leaf. cbn [fst]. rewrite Hs. reflexivity. }
    destruct c as [cid ct|cs|sub a id]; [apply Hleaf; reflexivity..|]. clear Hleaf.
    specialize (Hid sub a id eq_refl). subst id.
    exists loads2, (mkLv 0 sub (Some (d, lv_id top)) [w] :: top1 :: out1), (usage1 ++ [1]), (V1 ++ [(CSub sub a (List.length usage), ns)]), ns.
    split; [reflexivity|]. split; [unfold gs in *; cbn [map lv_id lv_cmds enter] in *; rewrite Hgs1; reflexivity|].
    assert (HLu : List.length (usage1 ++ [1]) = List.length usage + 1) by (rewrite app_length; cbn [List.length]; lia).
    split; [|split; [exact HRn|split; [|split; [rewrite filter_app, HF1; reflexivity|split; [exact HO2|split; [|split; [|split]]]]]]].
    - rewrite HLu, Hd. apply (WS_sub _ _ _ _ a (List.length usage)); auto; [constructor; [intros []|constructor]|lia|apply HWS2; lia|lia].
    - exists [], (mkLv 0 sub (Some (d, lv_id top)) [w] :: top1 :: out1). split; [reflexivity|]. split.
      + split; [|intros l []]. exists 0, (mkLv 0 sub (Some (d, lv_id top)) [w]), (top1 :: out1). split; [reflexivity|].
        split; [|exact Hnt1]. rewrite Hgs1. reflexivity.
      + intros l [<-|Hl] Hp; [left; reflexivity|]. apply Hnt1; auto.
    - intros w' cst' Hw' Ha. destruct (Hact1 w' cst' Hw' Ha) as (tp' & bot' & Es' & ((i' & lv' & bo' & -> & -> & Hnb') & Hnt') & Hnr').
      exists (mkLv 0 sub (Some (d, lv_id top)) [w] :: tp'), (lv' :: bo'). split; [cbn [app]; rewrite Es'; reflexivity|].
      split; [|auto]. split; [exists i', lv', bo'; auto|]. intros l [<-|Hl]; [|apply Hnt'; auto]. intros [Hx|[]]. congruence.
    - intros w' l' Hw' [<-|Hl] Hu; [destruct Hu as [Hu|[]]; congruence|]. eapply Hin; eauto.
    - cbn [is_sub]. exact HLu.
    - intros k. rewrite HT1, ocount_sub. rewrite <- HL1. destruct (Nat.eqb_spec k (List.length usage1)) as [->|Hk].
      + rewrite app_nth2 by lia. rewrite Nat.sub_diag, (nth_overflow usage1) by lia. reflexivity.
      + destruct (Nat.lt_ge_cases k (List.length usage1)); [rewrite app_nth1 by lia; lia|].
        rewrite !nth_overflow; try (rewrite ?app_length; cbn [List.length]; lia).
  Qed.

  (** closing a subproof for a worker that has opened it *)
  Lemma close1_spec w (loads : loads_t) usage l r i V :
    w < n -> r <> [] -> WS (List.length usage) (l :: r) -> R (loads w) ((i, lv_cmds l) :: gs r) V -> Uinv loads usage ->
    exists load' usage' V' i' p out, close1 (l :: r) w (loads, usage) = ROk (fupd loads w load', usage') /\
      r = p :: out /\ R load' ((i', lv_cmds p) :: gs out) V' /\ filter leaf V' = filter leaf V /\
      List.length usage' = List.length usage /\ Uinv (fupd loads w load') usage'.
  Proof.
    intros Hw Hr HWS HR HU. destruct r as [|p out]; [congruence|].
    inversion HWS as [|i0 u sub args k j p' out' Hu Hle HWp Hj Hi Hk]; subst. cbn [lv_cmds] in *.
    set (cst := (i, sub) :: gs (p :: out)) in *.
    set (nl := (List.length (p :: out), None) :: loads w : list entry).
    assert (HRn : R nl (gs (p :: out)) V).
    { unfold nl, cst in *. cbn [List.length]. rewrite <- (gs_len out). apply (R_close _ _ _ _ _ HR). }
    assert (HUn : forall us, us = usage -> Uinv (fupd loads w nl) us).
    { intros us -> k0. rewrite (HU k0). apply total_ext. intros w0 _. unfold fupd. destruct (Nat.eqb_spec w0 w) as [->|]; [|reflexivity].
      rewrite (R_vis _ _ _ HR), (R_vis _ _ _ HRn). reflexivity. }
    assert (Hpush : exists load' usage' V' i' p0 out0, ROk (fupd loads w nl, usage) = ROk (fupd loads w load', usage') /\
      p :: out = p0 :: out0 /\ R load' ((i', lv_cmds p0) :: gs out0) V' /\ filter leaf V' = filter leaf V /\
      List.length usage' = List.length usage /\ Uinv (fupd loads w load') usage').
    { exists nl, usage, V, (lv_id p), p, out. repeat (split; [solve [auto]|]). auto. }
    unfold close1. set (stk := mkLv i0 sub (Some (List.length out, j)) u :: p :: out) in *.
    assert (HLs : List.length stk = S (S (List.length out))) by reflexivity.
    replace (List.length stk - 1) with (List.length (p :: out)) by (cbn [List.length]; lia). fold nl.
    remember (loads w) as load eqn:El. remember cst as cst0 eqn:Ec.
    inversion HR as [E3 E4 E5|load' i1 cs out1 V1 j1 c1 HR1 Hj1 E3 E4 E5|load' x y out1 V1 HR1 E3 E4 E5]; rewrite Ec in E4; unfold cst in E4; subst load.
    - discriminate.
    - destruct c1 as [cid ct|cst'|sub' a' k']; cbn [enter] in E4.
      1,2: assert (cs = sub /\ out1 = gs (p :: out)) as [-> ->] by (split; congruence);
        rewrite gs_len; replace (Nat.ltb _ _) with true by (symmetry; apply Nat.ltb_lt; rewrite HLs; cbn [List.length]; lia);
        unfold stk; rewrite at_depth_hd; cbn [unwrap obind lv_cmds]; rewrite Hj1, E5; cbn [unwrap obind]; exact Hpush.
      assert (E6 : sub' = sub /\ (S j1, cs) :: out1 = gs (p :: out)) by (split; congruence). destruct E6 as [-> E6].
      unfold gs in E6. cbn [map] in E6. injection E6 as E6a -> E6c. change (out1 = gs out) in E6c. subst out1. rewrite Hi in E6a. injection E6a as ->.
      rewrite gs_len. replace (Nat.ltb _ _) with true by (symmetry; apply Nat.ltb_lt; rewrite HLs; lia).
      unfold stk. rewrite at_depth_snd. cbn [unwrap obind]. rewrite Hj1. cbn [unwrap obind].
      assert (k' = k) by congruence. subst k'.
      assert (HP : forall k0, total (fun w0 => ocount k0 (vis (loads w0))) n =
                   total (fun w0 => ocount k0 (vis (fupd loads w load' w0))) n + (if Nat.eqb k0 k then 1 else 0)).
      { intros k0. pose proof (total_upd (fun w0 => ocount k0 (vis (loads w0))) (fun w0 => ocount k0 (vis (fupd loads w load' w0))) w n) as HT.
        specialize (HT ltac:(intros w0 Hw0; cbn beta; rewrite fupd_other by auto; reflexivity) Hw). cbn beta in HT.
        rewrite fupd_same in HT. rewrite (R_vis _ _ _ HR), (R_vis _ _ _ HR1) in HT.
        rewrite <- E5, ocount_app, ocount_sub in HT. revert HT.
        set (a := total _ n). set (b := total _ n). clearbody a b. clear. lia. }
      destruct (vec_upd_decr usage k) as [usage' [E [HL HN]]]; [exact Hk|rewrite (HU k), HP, Nat.eqb_refl; lia|].
      rewrite E. cbn [obind]. exists load', usage', V1, i1, p, out.
      split; [reflexivity|]. split; [reflexivity|]. split; [exact HR1|]. split; [rewrite filter_app; cbn; rewrite app_nil_r; reflexivity|].
      split; [exact HL|]. intros k0. specialize (HN k0). rewrite (HU k0), HP in HN. revert HN.
      set (b := total _ n). clearbody b. clear. lia.
    - assert (HLy : List.length (y :: out1) = List.length stk).
      { rewrite E4. cbn [List.length]. rewrite gs_len, HLs. reflexivity. }
      cbn [List.length] in HLy. replace (Nat.ltb _ _) with false by (symmetry; apply Nat.ltb_ge; lia).
      rewrite ?E5. exact Hpush.
  Qed.

  Lemma close_users_spec own l r : r <> [] -> forall ws (loads : loads_t) usage,
    NoDup ws -> WS (List.length usage) (l :: r) -> Uinv loads usage ->
    (forall w, In w ws -> w < n /\ exists i V, R (loads w) ((i, lv_cmds l) :: gs r) V /\ filter leaf V = own w) ->
    exists (loads' : loads_t) usage', close_users (l :: r) ws (loads, usage) = ROk (loads', usage') /\
      List.length usage' = List.length usage /\ Uinv loads' usage' /\
      (forall w, In w ws -> exists i p out V, r = p :: out /\ R (loads' w) ((i, lv_cmds p) :: gs out) V /\ filter leaf V = own w) /\
      (forall w, ~ In w ws -> loads' w = loads w).
  Proof.
    intros Hr. induction ws as [|w ws IH]; intros loads usage Hnd HWS HU Hws.
    - exists loads, usage. repeat (split; [solve [auto]|]). split; [intros w []|auto].
    - apply NoDup_cons_iff in Hnd. destruct Hnd as [Hnw Hnd]. destruct (Hws w (or_introl eq_refl)) as [Hw (i & V & HR & HF)].
      destruct (close1_spec w loads usage l r i V Hw Hr HWS HR HU) as (load' & usage1 & V1 & i1 & p & out & E1 & Er & HR1 & HF1 & HL1 & HU1).
      cbn [close_users]. rewrite E1. cbn [obind].
      destruct (IH (fupd loads w load') usage1) as (loads2 & usage2 & E2 & HL2 & HU2 & Hin & Hout); auto.
      + rewrite HL1. auto.
      + intros w' Hw'. destruct (Hws w' (or_intror Hw')) as [Hlt HH]. split; auto. rewrite fupd_other by congruence. exact HH.
      + exists loads2, usage2. split; [exact E2|]. split; [congruence|]. split; [exact HU2|]. split.
        * intros w' [<-|Hw']; [|auto]. exists i1, p, out, V1. rewrite Hout by auto. rewrite fupd_same.
          split; [auto|]. split; [auto|congruence].
        * intros w' Hw'. rewrite Hout by (intros Hx; apply Hw'; right; auto). apply fupd_other. intros ->. apply Hw'. left; auto.
  Qed.

  (** closing the outermost level: the only place where the scheduler can panic *)
  Lemma close_root_spec l : forall ws (loads : loads_t) usage,
    NoDup ws -> (forall w, In w ws -> exists i V, R (loads w) [(i, lv_cmds l)] V) ->
    (exists w, In w ws /\ loads w = [] /\ close_users [l] ws (loads, usage) = RPanic) \/
    (exists loads' : loads_t, close_users [l] ws (loads, usage) = ROk (loads', usage) /\
       (forall w, In w ws -> loads' w = (0, None) :: loads w) /\ (forall w, ~ In w ws -> loads' w = loads w) /\
       (forall w, In w ws -> loads w <> [])).
  Proof.
    induction ws as [|w ws IH]; intros loads usage Hnd Hws.
    - right. exists loads. repeat split; auto; intros w [].
    - apply NoDup_cons_iff in Hnd. destruct Hnd as [Hnw Hnd]. destruct (Hws w (or_introl eq_refl)) as (i & V & HR). cbn [close_users].
      destruct (loads w) as [|e load] eqn:El.
      { left. exists w. split; [left; auto|]. split; auto. unfold close1. rewrite El. reflexivity. }
      assert (E1 : close1 [l] w (loads, usage) = ROk (fupd loads w ((0, None) :: loads w), usage)).
      { unfold close1. rewrite El. remember [(i, lv_cmds l)] as cst eqn:Ec.
        inversion HR as [|load' i1 cs out1 V1 j1 c1 HR1 Hj1 E3 E4 E5|load' x y out1 V1 HR1 E3 E4 E5]; subst e load; rewrite Ec in E4.
        - destruct c1 as [cid ct|cst'|sub' a' k']; cbn [enter] in E4; [| |discriminate].
          1,2: assert (cs = lv_cmds l /\ out1 = []) as [-> ->] by (split; congruence);
            cbn [List.length Nat.ltb Nat.leb at_depth Nat.eqb unwrap obind]; rewrite Hj1; reflexivity.
        - assert (out1 = []) as -> by congruence. reflexivity. }
      rewrite E1. cbn [obind].
      destruct (IH (fupd loads w ((0, None) :: loads w)) usage) as [(w' & Hw' & El' & E)|(loads' & E & H3 & H4 & H5)]; auto.
      + intros w' Hw'. rewrite fupd_other by congruence. apply Hws. right; auto.
      + left. exists w'. split; [right; auto|]. rewrite fupd_other in El' by congruence. auto.
      + right. exists loads'. split; [exact E|]. split; [|split].
        * intros w' [<-|Hw']; [rewrite H4, fupd_same by auto; reflexivity|]. rewrite H3 by auto. rewrite fupd_other by congruence. reflexivity.
        * intros w' Hw'. rewrite H4 by (intros Hx; apply Hw'; right; auto). apply fupd_other. intros ->. apply Hw'. left; auto.
        * intros w' [<-|Hw']; [congruence|]. specialize (H5 w' Hw'). rewrite fupd_other in H5 by congruence. auto.
  Qed.

  Definition Winv (own : nat -> list visit) (loads : loads_t) (stk : list level) : Prop :=
    forall w, exists cst V, R (loads w) cst V /\ act w cst stk /\ filter leaf V = own w.
  Definition users (A : list nat) (stk : list level) : Prop :=
    forall l w, In l stk -> In w (lv_used l) -> In w A.
  Definition Fin (own : nat -> list visit) (loads : loads_t) (usage : list nat) : Prop :=
    (forall w, exists V, sched_iter (rev (loads w)) [(0, proof)] = Some V /\ filter leaf V = own w) /\ Uinv loads usage.

  Lemma close_all_spec own A : (forall w, In w A -> w < n) -> forall stk (loads : loads_t) usage,
    WS (List.length usage) stk -> Winv own loads stk -> users A stk -> Uinv loads usage ->
    (close_all stk (loads, usage) = RPanic /\ rem (gs stk) = [] /\ exists w, In w A /\ own w = []) \/
    (exists stk' (loads' : loads_t) usage', close_all stk (loads, usage) = ROk (stk', (loads', usage')) /\
      rem (gs stk') = rem (gs stk) /\
      ((stk' = [] /\ Fin own loads' usage') \/
       (exists top out, stk' = top :: out /\ lv_id top <> List.length (lv_cmds top) /\
          WS (List.length usage') stk' /\ Winv own loads' stk' /\ users A stk' /\ Uinv loads' usage' /\ List.length usage' = List.length usage))).
  Proof.
    intros HA. induction stk as [|l r IH]; intros loads usage HWS HW Hus HU; [inversion HWS|].
    cbn [close_all]. destruct (Nat.eqb_spec (lv_id l) (List.length (lv_cmds l))) as [Ei|Ei].
    2: { right. exists (l :: r), loads, usage. split; [reflexivity|]. split; [reflexivity|]. right. exists l, r. auto 10. }
    assert (Hhere : forall w, In w (lv_used l) -> exists i V, R (loads w) ((i, lv_cmds l) :: gs r) V /\ filter leaf V = own w /\ nonroot_used w r).
    { intros w Hw. destruct (HW w) as (cst & V & HR & (tp & bot & Es & ((i & lv & bo & -> & -> & Hnb) & Hnt) & Hnr) & HF).
      destruct tp as [|x tp].
      - cbn [app] in Es. injection Es as -> ->. exists i, V. auto.
      - cbn [app] in Es. injection Es as -> ->. exfalso. apply (Hnt x); [left; auto|auto]. }
    destruct r as [|p out].
    - destruct (close_root_spec l (lv_used l) loads usage) as [(w & Hw & El & E)|(loads' & E & H1 & H2 & H3)].
      + inversion HWS; auto.
      + intros w Hw. destruct (Hhere w Hw) as (i & V & HR & _). eauto.
      + left. rewrite E. split; [reflexivity|]. split; [unfold gs; cbn [map]; rewrite rem_done by auto; reflexivity|]. exists w. split; [apply (Hus l); [left; auto|auto]|].
        destruct (Hhere w Hw) as (i & V & HR & HF & _). rewrite El in HR. inversion HR; subst. rewrite <- HF. reflexivity.
      + right. rewrite E. cbn [obind close_all]. exists [], loads', usage. split; [reflexivity|].
        split; [unfold gs; cbn [map]; rewrite rem_done by auto; reflexivity|]. left. split; [reflexivity|].
        assert (HV : forall w, exists V, sched_iter (rev (loads' w)) [(0, proof)] = Some V /\ filter leaf V = own w /\ vis (loads w) = V).
        { intros w. destruct (HW w) as (cst & V & HR & Ha & HF). exists V. rewrite (R_vis _ _ _ HR). split; [|auto].
          destruct (in_dec Nat.eq_dec w (lv_used l)) as [Hi|Hi].
          - rewrite H1 by auto. cbn [rev]. rewrite (R_iter _ _ _ HR). cbn [sched_iter].
            pose proof (R_ne _ _ _ HR). destruct cst as [|]; [congruence|]. rewrite app_nil_r. reflexivity.
          - rewrite H2 by auto. rewrite <- (app_nil_r (rev (loads w))), (R_iter _ _ _ HR). cbn [sched_iter]. rewrite app_nil_r. reflexivity. }
        split; [intros w; destruct (HV w) as (V & ? & ? & ?); eauto|].
        intros k. rewrite (HU k). apply total_ext. intros w _. destruct (HV w) as (V & HV1 & _ & ->). unfold vis. rewrite HV1. reflexivity.
    - destruct (close_users_spec own l (p :: out) ltac:(discriminate) (lv_used l) loads usage) as (loads1 & usage1 & E1 & HL1 & HU1 & Hin & Hout); auto.
      + inversion HWS; auto.
      + intros w Hw. split; [apply HA, (Hus l); [left; auto|auto]|]. destruct (Hhere w Hw) as (i & V & HR & HF & _). eauto.
      + rewrite E1. cbn [obind].
        destruct (IH loads1 usage1) as [[E [Er (w & Hw & Ho)]]|(stk' & loads' & usage' & E & Er & HH)].
        * rewrite HL1. eapply (WS_suffix _ [l]); [exact HWS|discriminate].
        * intros w. destruct (in_dec Nat.eq_dec w (lv_used l)) as [Hi|Hi].
          -- destruct (Hin w Hi) as (i & p' & out' & V & Ep & HR & HF). injection Ep as -> ->.
             destruct (Hhere w Hi) as (_ & _ & _ & _ & Hnr).
             exists ((i, lv_cmds p') :: gs out'), V. split; [exact HR|]. split; [|exact HF].
             exists [], (p' :: out'). split; [reflexivity|]. split; [|exact Hnr]. split; [|intros x []].
             exists i, p', out'. split; [reflexivity|]. split; [reflexivity|]. intros x Hx. apply Hnr. right; auto.
          -- rewrite Hout by auto. destruct (HW w) as (cst & V & HR & (tp & bot & Es & Hl & Hnr) & HF).
             exists cst, V. split; [exact HR|]. split; [|exact HF]. destruct tp as [|x tp].
             ++ exfalso. apply Hi. cbn [app] in Es. subst bot. apply Hnr; [left; auto|]. inversion HWS; discriminate.
             ++ cbn [app] in Es. injection Es as -> Es. exists tp, bot. split; [exact Es|]. split; [|exact Hnr].
                destruct Hl as [Hl1 Hl2]. split; [exact Hl1|]. intros y Hy. apply Hl2. right; auto.
        * intros x w Hx. apply Hus. right; auto.
        * exact HU1.
        * left. split; [exact E|]. split; [|eauto]. rewrite <- Er. apply (rem_done (lv_id l)); exact Ei.
        * right. exists stk', loads', usage'. split; [exact E|]. split; [rewrite Er; symmetry; apply (rem_done (lv_id l)); exact Ei|].
          destruct HH as [HH|(top & o & Es & H1 & H2 & H3 & H4 & H5 & H6)]; [left; exact HH|]. right. exists top, o. rewrite <- HL1. auto 10.
  Qed.
End Inv.

Lemma ids_next vs1 sub a id stk vs2 m :
  ctx_ids (vs1 ++ (CSub sub a id, stk) :: vs2) = seq 0 m -> id = List.length (ctx_ids vs1).
Proof.
  rewrite ctx_ids_app. cbn [ctx_ids flat_map fst app]. fold (ctx_ids vs2). intros H.
  assert (Hn : nth (List.length (ctx_ids vs1)) (seq 0 m) 0 = id).
  { rewrite <- H, app_nth2, Nat.sub_diag by lia. reflexivity. }
  assert (HL : List.length (ctx_ids vs1) < m).
  { apply (f_equal (@List.length _)) in H. rewrite app_length, seq_length in H. cbn [List.length] in H. lia. }
  rewrite seq_nth in Hn by auto. lia.
Qed.

Section Loop.
  Variable proof : list command.
  Variable n : nat.
  Variable Q : Type.
  Variable assign : Q -> N -> option (nat * Q).
  Variable QI : Q -> Prop.
  Hypothesis assign_ok : forall q wt, QI q -> exists w q', assign q wt = Some (w, q') /\ w < n /\ QI q'.
  Hypothesis Hids : ids_ok proof.
  Variable q0 : Q.
  Let all := all_visits proof.
  Let os := owners Q assign q0 (map fst all).

  Lemma sched_loop_spec : forall fuel q st G A,
    List.length (rem (gs (ss_stack st))) <= fuel -> QI q -> G ++ rem (gs (ss_stack st)) = all ->
    List.length A = List.length G -> A ++ owners Q assign q (map fst (rem (gs (ss_stack st)))) = os ->
    WS proof (List.length (ss_usage st)) (ss_stack st) -> Winv proof (fun w => owned w A G) (ss_loads st) (ss_stack st) ->
    users A (ss_stack st) -> Uinv proof n (ss_loads st) (ss_usage st) -> (forall w, In w A -> w < n) ->
    List.length (ss_usage st) = List.length (ctx_ids G) ->
    (sched_loop Q assign fuel q st = RPanic /\ exists w, In w os /\ owned w os all = []) \/
    (exists st', sched_loop Q assign fuel q st = ROk st' /\ Fin proof n (fun w => owned w os all) (ss_loads st') (ss_usage st')).
  Proof.
    induction fuel as [|fuel IH]; intros q [loads stk usage] G A Hf Hq HG HA Hos HWS HW Hus HU Hlt HLu; cbn [ss_loads ss_stack ss_usage] in *;
      cbn [sched_loop ss_loads ss_stack ss_usage];
      destruct (close_all_spec proof n (fun w => owned w A G) A Hlt stk loads usage HWS HW Hus HU) as
        [[E [Er (w & Hw & Ho)]]|(stk' & loads' & usage' & E & Er & [[-> HF]|(top & out & -> & Hi & HWS1 & HW1 & Hus1 & HU1 & HL1)])];
      rewrite E; cbn [obind fst snd].
    1,4: left; split; [reflexivity|]; exists w; rewrite Er in HG, Hos; cbn [map owners] in Hos; rewrite app_nil_r in HG, Hos; subst A G; auto.
    1,3: right; eexists; split; [reflexivity|]; cbn [ss_loads ss_usage]; rewrite <- Er in HG, Hos; cbn [map owners gs rem] in HG, Hos;
      rewrite app_nil_r in HG, Hos; subst A G; exact HF.
    - (* no fuel *)
      exfalso. rewrite <- Er in Hf. 
      assert (Hc : exists c, nth_error (lv_cmds top) (lv_id top) = Some c).
      { pose proof (WS_id _ _ _ _ HWS1). destruct (nth_error (lv_cmds top) (lv_id top)) eqn:En; [eauto|]. apply nth_error_None in En. lia. }
      destruct Hc as [c Hc]. unfold gs in Hf. cbn [map] in Hf. rewrite (rem_next _ _ _ _ Hc) in Hf. cbn [List.length] in Hf. lia.
    - assert (Hc : exists c, nth_error (lv_cmds top) (lv_id top) = Some c).
      { pose proof (WS_id _ _ _ _ HWS1). destruct (nth_error (lv_cmds top) (lv_id top)) eqn:En; [eauto|]. apply nth_error_None in En. lia. }
      destruct Hc as [c Hc]. rewrite Hc. cbn [unwrap obind].
      destruct (assign_ok q (weight c) Hq) as (w & q' & Ea & Hw & Hq'). rewrite Ea. cbn [unwrap obind fst snd].
      destruct (HW1 w) as (cst & V & HR & Ha & HF).
      set (ns := enter c ((S (lv_id top), lv_cmds top) :: gs out)).
      assert (Erem : rem (gs (top :: out)) = (c, ns) :: rem ns) by (apply rem_next; exact Hc).
      destruct (give_spec proof n w loads' usage' (top :: out) cst V top out c Hw HWS1 eq_refl Ha HR HU1 Hc) as
        (loads2 & stk2 & usage2 & V2 & cst2 & E2 & Eg & HWS2 & HR2 & Ha2 & HF2 & HO2 & Hact2 & Hin2 & HL2 & HU2).
      { intros sub a id ->. rewrite HL1, HLu. rewrite <- Er, Erem in HG. unfold ids_ok in Hids. fold all in Hids. rewrite <- HG in Hids at 1.
        eapply ids_next. exact Hids. }
      rewrite E2. cbn [obind]. fold ns in Eg.
      assert (Ers : rem (gs stk2) = rem ns) by (rewrite Eg; reflexivity).
      rewrite <- Er, Erem in Hf, HG, Hos. cbn [List.length map fst owners] in Hf, Hos. rewrite Ea in Hos.
      apply (IH q' (mkS loads2 stk2 usage2) (G ++ [(c, ns)]) (A ++ [w])); cbn [ss_loads ss_stack ss_usage]; auto.
      + rewrite Ers. lia.
      + rewrite Ers, <- app_assoc. exact HG.
      + rewrite !app_length. cbn [List.length]. lia.
      + rewrite Ers, <- app_assoc. exact Hos.
      + intros w'. destruct (Nat.eq_dec w' w) as [->|Hn].
        * exists cst2, V2. split; [exact HR2|]. split; [exact Ha2|]. rewrite owned_app by auto. rewrite Nat.eqb_refl. cbn [andb].
          rewrite HF2, HF. f_equal.
        * destruct (HW1 w') as (cst' & V' & HR' & Ha' & HF'). exists cst', V'. rewrite HO2 by auto. split; [exact HR'|]. split; [auto|].
          rewrite owned_app by auto. destruct (Nat.eqb_spec w w'); [congruence|]. cbn [andb]. rewrite app_nil_r. exact HF'.
      + intros l w' Hl Hu. apply in_or_app. destruct (Nat.eq_dec w' w) as [->|Hn]; [right; left; auto|]. left.
        destruct (Hin2 w' l Hn Hl Hu) as (l0 & Hl0 & Hu0). apply (Hus1 l0 w' Hl0 Hu0).
      + intros w' Hw'. apply in_app_or in Hw'. destruct Hw' as [Hw'|[<-|[]]]; auto.
      + rewrite HL2, HL1, HLu, ctx_ids_app, app_length. f_equal. destruct c; reflexivity.
  Qed.

  (** The schedule gives every command, other than subproof openings, to exactly the worker that the queue
      chose for it; if the scheduler panics, some worker was chosen for subproof openings only. *)
  Theorem schedule_spec : QI q0 ->
    (schedule Q assign q0 proof = RPanic /\ exists w, In w os /\ owned w os all = []) \/
    (exists loads usage, schedule Q assign q0 proof = ROk (loads, usage) /\
      (forall w, exists V, sched_iter (loads w) [(0, proof)] = Some V /\ filter leaf V = owned w os all) /\
      (forall k, nth k usage 0 = total (fun w => match sched_iter (loads w) [(0, proof)] with Some V => ocount k V | None => 0 end) n)).
  Proof.
    intros Hq. unfold schedule.
    destruct (sched_loop_spec (cmds_size proof) q0 (mkS (fun _ => []) [mkLv 0 proof None []] []) [] []) as [[E H]|(st' & E & [HF HU])];
      cbn [ss_loads ss_stack ss_usage gs map lv_id lv_cmds rem skipn]; rewrite ?app_nil_r; auto.
    - rewrite visits_list_size. auto.
    - constructor; [constructor|]. cbn [List.length]. lia.
    - intros w. exists [(0, proof)], []. split; [constructor|]. split; [|reflexivity].
      exists [], [mkLv 0 proof None []]. split; [reflexivity|]. split; [split; [|intros l []]|].
      + exists 0, (mkLv 0 proof None []), []. split; [reflexivity|]. split; [reflexivity|]. intros l [].
      + intros l [<-|[]] Hp. cbn [lv_pre] in Hp. congruence.
    - intros l w [<-|[]] [].
    - intros k. replace (nth k [] 0) with 0 by (destruct k; reflexivity). symmetry.
      unfold total. change (fun w : nat => _) with (fun w : nat => 0). generalize (seq 0 n). clear.
      induction l as [|x l IH]; [reflexivity|]. cbn [map]. rewrite list_sum_cons, IH. reflexivity.
    - intros w [].
    - left. rewrite E. auto.
    - right. rewrite E. cbn [obind]. eexists _, _. split; [reflexivity|]. split; [exact HF|].
      intros k. rewrite (HU k). apply total_ext. intros w _. unfold vis. destruct (sched_iter _ _); reflexivity.
  Qed.
End Loop.

(** Every command that is not a subproof opening is given to exactly one worker. *)
From Coq Require Import Permutation.
Lemma flat_map_cons_one {A} (f g : nat -> list A) w v : forall n s, s <= w < s + n ->
  (forall i, i <> w -> f i = g i) -> f w = v :: g w ->
  Permutation (flat_map f (seq s n)) (v :: flat_map g (seq s n)).
Proof.
  induction n as [|n IH]; intros s Hs Hne Hw; [lia|]. cbn [seq flat_map].
  destruct (Nat.eq_dec s w) as [->|Hn].
  - rewrite Hw. cbn [app]. constructor. apply Permutation_app_head.
    assert (E : flat_map f (seq (S w) n) = flat_map g (seq (S w) n)); [|rewrite E; apply Permutation_refl].
    rewrite !flat_map_concat_map. f_equal. apply map_ext_in. intros a Ha. apply in_seq in Ha. apply Hne. lia.
  - rewrite (Hne s Hn). etransitivity; [apply Permutation_app_head, IH; auto; lia|].
    apply Permutation_sym, Permutation_middle.
Qed.
Lemma owned_perm n : forall os vs, List.length os = List.length vs -> (forall w, In w os -> w < n) ->
  Permutation (flat_map (fun w => owned w os vs) (seq 0 n)) (filter leaf vs).
Proof.
  induction os as [|o os IH]; intros [|v vs] HL Hlt; try discriminate.
  - cbn [filter]. assert (E : flat_map (fun w => owned w [] []) (seq 0 n) = []).
    { generalize (seq 0 n). induction l; auto. } rewrite E. constructor.
  - injection HL as HL. specialize (IH vs HL (fun w Hw => Hlt w (or_intror Hw))).
    unfold owned. cbn [combine filter fst snd]. destruct (leaf v) eqn:El.
    + etransitivity; [|constructor; exact IH].
      apply (flat_map_cons_one _ (fun w => owned w os vs) o).
      * specialize (Hlt o (or_introl eq_refl)). lia.
      * intros i Hi. destruct (Nat.eqb_spec o i); [congruence|]. reflexivity.
      * rewrite Nat.eqb_refl. reflexivity.
    + etransitivity; [|exact IH]. match goal with |- Permutation ?a ?b => replace a with b; [apply Permutation_refl|] end.
      rewrite !flat_map_concat_map. f_equal. apply map_ext. intros w. rewrite andb_false_r. reflexivity.
Qed.
Lemma owners_ok Q assign (QI : Q -> Prop) n :
  (forall q wt, QI q -> exists w q', assign q wt = Some (w, q') /\ w < n /\ QI q') ->
  forall cs q, QI q -> List.length (owners Q assign q cs) = List.length cs /\ (forall w, In w (owners Q assign q cs) -> w < n).
Proof.
  intros Ha. induction cs as [|c cs IH]; intros q Hq; [split; [reflexivity|intros w []]|].
  cbn [owners]. destruct (Ha q (weight c) Hq) as (w & q' & E & Hw & Hq'). rewrite E. destruct (IH q' Hq') as [H1 H2].
  cbn [List.length]. split; [congruence|]. intros w' [<-|Hw']; auto.
Qed.

(** ** The binary heap always yields one of the [n] workers *)
Definition heap_ok (n : nat) (h : list aload) : Prop := List.length h = n /\ Forall (fun x => snd x < n) h.
Lemma hset_len h : forall i x, List.length (hset h i x) = List.length h.
Proof. induction h as [|y h IH]; intros [|i] x; cbn [hset List.length]; auto. Qed.
Lemma hset_Forall (P : aload -> Prop) h : forall i x, Forall P h -> P x -> Forall P (hset h i x).
Proof. induction h as [|y h IH]; intros [|i] x H Hx; cbn [hset]; auto; inversion H; subst; constructor; auto. Qed.
Lemma hget_P (P : aload -> Prop) h i : Forall P h -> P (0%N, 0) -> P (hget h i).
Proof.
  intros H H0. unfold hget. destruct (nth_in_or_default i h (0%N, 0)) as [Hi| -> ]; auto. rewrite Forall_forall in H. auto.
Qed.
Lemma sift_up_ok (P : aload -> Prop) (P0 : P (0%N, 0)) fuel : forall h pos x, Forall P h -> P x ->
  Forall P (sift_up fuel h pos x) /\ List.length (sift_up fuel h pos x) = List.length h.
Proof.
  induction fuel as [|f IH]; intros h pos x H Hx.
  - cbn [sift_up]. destruct pos; split; auto using hset_Forall, hset_len.
  - destruct pos as [|pos]; [cbn [sift_up]; split; auto using hset_Forall, hset_len|].
    unfold sift_up; fold sift_up. destruct (aload_le _ _); [split; auto using hset_Forall, hset_len|].
    destruct (IH (hset h (S pos) (hget h (Nat.div2 (S pos - 1)))) (Nat.div2 (S pos - 1)) x) as [A B]; [apply hset_Forall; [auto|apply (hget_P P); auto]|auto|].
    rewrite B, hset_len. auto.
Qed.
Lemma sift_bottom_ok (P : aload -> Prop) (P0 : P (0%N, 0)) fuel : forall h pos x, Forall P h -> P x ->
  Forall P (sift_bottom fuel h pos x) /\ List.length (sift_bottom fuel h pos x) = List.length h.
Proof.
  induction fuel as [|f IH]; intros h pos x H Hx.
  - cbn [sift_bottom]. split; auto using hset_Forall, hset_len.
  - cbn [sift_bottom]. destruct (Nat.leb _ _).
    + set (ch := if aload_le _ _ then _ else _).
      destruct (IH (hset h pos (hget h ch)) ch x) as [A B]; [apply hset_Forall; [auto|apply (hget_P P); auto]|auto|]. rewrite B, hset_len. auto.
    + destruct (Nat.eqb _ _).
      * destruct (sift_up_ok P P0 f (hset h pos (hget h (2 * pos + 1))) (2 * pos + 1) x) as [A B]; [apply hset_Forall; [auto|apply (hget_P P); auto]|auto|].
        rewrite B, hset_len. auto.
      * apply sift_up_ok; auto.
Qed.
Lemma heap_push_ok (P : aload -> Prop) (P0 : P (0%N, 0)) h x : Forall P h -> P x ->
  Forall P (heap_push h x) /\ List.length (heap_push h x) = S (List.length h).
Proof.
  intros H Hx. unfold heap_push. destruct (sift_up_ok P P0 (List.length (h ++ [x])) (h ++ [x]) (List.length h) x) as [A B]; [apply Forall_app; split; [auto|constructor; auto]|auto|].
  split; [exact A|]. rewrite B, app_length. cbn [List.length]. lia.
Qed.
Lemma heap_assign_ok n h wt : 0 < n -> heap_ok n h ->
  exists w h', heap_assign h wt = Some (w, h') /\ w < n /\ heap_ok n h'.
Proof.
  intros Hn [HL HF]. unfold heap_assign, heap_pop.
  assert (HFr : Forall (fun x => snd x < n) (rev h)) by (apply Forall_rev; auto).
  assert (HLr : List.length (rev h) = n) by (rewrite rev_length; auto).
  destruct (rev h) as [|x r]; [cbn [List.length] in HLr; lia|]. inversion HFr as [|? ? Hx Hr]; subst x0 l.
  assert (HFrr : Forall (fun x => snd x < n) (rev r)) by (apply Forall_rev; auto).
  pose proof (rev_length r) as HLrr. destruct (rev r) as [|y r'] eqn:Er.
  - destruct x as [l w]. exists w. eexists. split; [reflexivity|]. split; [exact Hx|]. cbn [List.length] in *.
    destruct (heap_push_ok (fun x => snd x < n) Hn [] ((l + wt)%N, w)) as [A B]; auto. split; [rewrite B; cbn [List.length]; lia|auto].
  - destruct y as [l w]. inversion HFrr as [|? ? Hy Hr']; subst x0 l0.
    destruct (sift_bottom_ok (fun x => snd x < n) Hn (S (List.length ((l, w) :: r'))) ((l, w) :: r') 0 x) as [A B]; auto.
    set (h' := sift_bottom _ _ _ _) in *.
    destruct (heap_push_ok (fun x => snd x < n) Hn h' ((l + wt)%N, w)) as [C D]; auto.
    exists w. eexists. split; [reflexivity|]. split; [exact Hy|]. split; [rewrite D, B; cbn [List.length] in *; lia|auto].
Qed.
Lemma heap_init_ok n : heap_ok n (heap_init n).
Proof.
  destruct n as [|n]; [split; [reflexivity|constructor]|].
  unfold heap_init.
  assert (H : forall l (h : list aload), Forall (fun x => snd x < S n) h -> (forall i, In i l -> i < S n) ->
    Forall (fun x => snd x < S n) (fold_left heap_push (map (fun i => (0%N, i)) l) h) /\
    List.length (fold_left heap_push (map (fun i => (0%N, i)) l) h) = List.length h + List.length l).
  { induction l as [|i l IH]; intros h Hh Hl; cbn [map fold_left List.length]; [split; [auto|rewrite Nat.add_0_r; reflexivity]|].
    destruct (heap_push_ok (fun x => snd x < S n) (Nat.lt_0_succ n) h (0%N, i)) as [A B]; auto; [apply (Hl i); left; auto|].
    destruct (IH (heap_push h (0%N, i))) as [C D]; auto; [intros j Hj; apply Hl; right; auto|]. split; [auto|]. rewrite D, B. lia. }
  destruct (H (seq 0 (S n)) []) as [A B]; [constructor|intros i Hi; apply in_seq in Hi; lia|].
  split; [rewrite B, seq_length; reflexivity|exact A].
Qed.
