(** What a slice keeps: proofs with distinct ids whose subproofs begin with their assumptions and discharge exactly those. *)
From Coq Require Import List String ZArith Bool Arith Lia.
From Verif Require Import Base Term Rules Utils Checker CheckerSound Parser ParserSound Nodes Slice.
Import ListNotations.

(** ** Specification *)
(** every id of a command; the id of a subproof is that of its last step and counts once *)
Fixpoint all_ids (c : command) : list string :=
  match c with CAssume i _ => [i] | CStep s => [s_id s] | CSub cs _ _ => flat_map all_ids cs end.
Definition is_nil {A} (l : list A) : bool := match l with [] => true | _ => false end.
(** all steps, each with the commands completed before it (per open scope, outermost first) and whether it closes a subproof *)
Definition place : Type := step * (bool * list (list command)).
Fixpoint flat_cmd (c : command) (e : bool) (sc : list (list command)) {struct c} : list place :=
  match c with
  | CAssume _ _ => []
  | CStep s => [(s, (e, sc))]
  | CSub cs _ _ =>
      (fix go (l pre : list command) {struct l} : list place :=
         match l with [] => [] | x :: r => flat_cmd x (is_nil r) (sc ++ [pre]) ++ go r (pre ++ [x]) end) cs []
  end.
Fixpoint flat_list (sub : bool) (sc : list (list command)) (l pre : list command) : list place :=
  match l with [] => [] | x :: r => flat_cmd x (sub && is_nil r) (sc ++ [pre]) ++ flat_list sub sc r (pre ++ [x]) end.
Lemma flat_sub cs a k e sc : flat_cmd (CSub cs a k) e sc = flat_list true sc cs [].
Proof.
  assert (H : forall l pre, (fix go (l pre : list command) {struct l} : list place :=
         match l with [] => [] | x :: r => flat_cmd x (is_nil r) (sc ++ [pre]) ++ go r (pre ++ [x]) end) l pre = flat_list true sc l pre).
  { induction l as [|x r IH]; intros pre; [reflexivity|]. cbn [flat_list andb]. rewrite IH. reflexivity. }
  cbn [flat_cmd]. apply H.
Qed.
(** the ids a step depends on: its premises, the assumptions it discharges and, if it closes a subproof, the command before it *)
Definition named_refs (sc : list (list command)) (ps : list (nat * nat)) : list string :=
  flat_map (fun p => match ref_name sc p with Some i => [i] | None => [] end) ps.
Definition deps (x : place) : list string :=
  let '(s, (e, sc)) := x in
  named_refs sc (s_prems s) ++ named_refs sc (s_disch s) ++
  (if e then match cmd_id (last (last sc []) (CAssume "" tTrue)) with Some i => [i] | None => [] end else []).
(** step [i] depends on [j] through [n] references *)
Inductive needs (proof : list command) : nat -> string -> string -> Prop :=
| needs_0 i : needs proof 0 i i
| needs_S n i k j x : In x (flat_list false [] proof []) -> s_id (fst x) = i -> In k (deps x) -> needs proof n k j -> needs proof (S n) i j.
(** subproofs begin with their assumptions; the last step has no premises and discharges exactly these; other steps discharge nothing. [d]: the
    depth of the command *)
Fixpoint lead (l : list command) : nat := match l with CAssume _ _ :: r => S (lead r) | _ => 0 end.
Definition pair_eqb (a b : nat * nat) : bool := Nat.eqb (fst a) (fst b) && Nat.eqb (snd a) (snd b).
Definition closes (d n : nat) (c : command) : bool :=
  match c with
  | CStep s => is_nil (s_prems s) && forallb (fun p => Nat.eqb (fst p) d && Nat.ltb (snd p) n) (s_disch s)
               && forallb (fun i => memb pair_eqb (d, i) (s_disch s)) (seq 0 n)
  | _ => false
  end.
Fixpoint tidy (d : nat) (c : command) : bool :=
  match c with
  | CAssume _ _ => true
  | CStep s => is_nil (s_disch s)
  | CSub cs _ _ =>
      forallb (fun x => negb (is_assume x)) (skipn (lead cs) cs) &&
      (fix go (l : list command) : bool :=
         match l with [] => true | x :: r => match r with [] => closes (S d) (lead cs) x | _ => tidy (S d) x && go r end end) cs
  end.
(** the slice is the text with lines left out and steps replaced by holes *)
Inductive cut : list raw -> list raw -> Prop :=
| cut_nil : cut [] []
| cut_drop r a b : cut a b -> cut (r :: a) b
| cut_keep r a b : cut a b -> cut (r :: a) (r :: b)
| cut_hole i cl rule ps args ds ps' a b : cut a b ->
    cut (RwStep i cl rule ps args ds :: a) (RwStep i cl "hole" ps' [trust] [] :: b).
Definition raw_id (r : raw) : option string :=
  match r with RwAssume i _ => Some i | RwStep i _ _ _ _ _ => Some i | RwAnchor i _ => Some i | RwDefine => None end.
(** the line, or for a step a step with the same id and clause *)
Definition present (r : raw) (lines : list raw) : Prop :=
  match r with
  | RwStep i cl _ _ _ _ => exists rule ps args ds, In (RwStep i cl rule ps args ds) lines
  | RwAssume _ _ => In r lines
  | _ => True
  end.

(** ** Trees *)
Lemma cut_app a b a' b' : cut a b -> cut a' b' -> cut (a ++ a') (b ++ b').
Proof. induction 1; intros; cbn [app]; [assumption|constructor 2; auto|constructor 3; auto|constructor 4; auto]. Qed.
Lemma cut_none a : cut a [].
Proof. induction a; constructor; auto. Qed.
Lemma shape_list cs a k : shape_ok (CSub cs a k) = true -> exists b s, cs = b ++ [CStep s] /\ b <> [] /\ forallb shape_ok b = true.
Proof.
  cbn [shape_ok]. rewrite !andb_true_iff. intros [[H1 H2] H3]. apply Nat.leb_le in H1.
  exists (removelast cs). destruct (last cs (CAssume "" tTrue)) as [|s|] eqn:E; try discriminate. exists s.
  assert (Hc : cs = removelast cs ++ [CStep s]). { rewrite <- E. apply list_last. lia. }
  split; [exact Hc|]. split.
  - intros Hn. rewrite Hn in Hc. rewrite Hc in H1. cbn in H1. lia.
  - rewrite Hc in H3. rewrite forallb_app in H3. apply andb_true_iff in H3. apply H3.
Qed.
Lemma shape_id c : shape_ok c = true -> exists i, cmd_id c = Some i /\ In i (all_ids c).
Proof.
  destruct c as [i t|s|cs a k]; intros H; [exists i; cbn; auto|exists (s_id s); cbn; auto|].
  destruct (shape_list _ _ _ H) as [b [s [-> _]]]. exists (s_id s). rewrite sub_id. split; [reflexivity|].
  cbn [all_ids]. rewrite flat_map_app, in_app_iff. right. cbn. auto.
Qed.
Lemma names_ids l : forallb shape_ok l = true -> forall i, In i (names l) -> In i (flat_map all_ids l).
Proof.
  intros H i Hi. unfold names in Hi. apply in_flat_map in Hi. destruct Hi as [c [Hc Hi]]. apply in_flat_map. exists c. split; [exact Hc|].
  rewrite forallb_forall in H. destruct (shape_id c (H c Hc)) as [j [Hj Hin]]. rewrite Hj in Hi. destruct Hi as [<-|[]]. exact Hin.
Qed.
Lemma NoDup_app_iff' {A} (l m : list A) : NoDup (l ++ m) <-> NoDup l /\ NoDup m /\ (forall x, In x l -> ~ In x m).
Proof.
  induction l as [|a l IH]; cbn [app].
  - split; [intros H; repeat split; auto; constructor|tauto].
  - rewrite !NoDup_cons_iff, IH, in_app_iff. split.
    + intros [H1 [H2 [H3 H4]]]. repeat split; auto. intros x [<-|Hx]; auto.
    + intros [[H1 H2] [H3 H4]]. repeat split; auto. intros [H|H]; [auto|]. exact (H4 a (or_introl eq_refl) H). intros x Hx. apply H4. right. exact Hx.
Qed.
Lemma flat_ids c : forall e sc x, In x (flat_cmd c e sc) -> In (s_id (fst x)) (all_ids c).
Proof.
  induction c as [i t|s|cs a k IH] using command_ind'; intros e sc x Hx.
  - destruct Hx.
  - destruct Hx as [<-|[]]. left. reflexivity.
  - rewrite flat_sub in Hx. cbn [all_ids]. revert Hx. generalize (@nil command) as pre. induction IH as [|c l Hc Hl IHl]; intros pre Hx; [destruct Hx|].
    cbn [flat_list flat_map] in *. apply in_app_iff in Hx. apply in_app_iff. destruct Hx as [Hx|Hx]; [left; eauto|right; eauto].
Qed.
Lemma flat_list_ids sub sc l : forall pre x, In x (flat_list sub sc l pre) -> In (s_id (fst x)) (flat_map all_ids l).
Proof.
  induction l as [|c l IH]; intros pre x Hx; [destruct Hx|]. cbn [flat_list flat_map] in *. apply in_app_iff in Hx. apply in_app_iff.
  destruct Hx as [Hx|Hx]; [left; eapply flat_ids; eauto|right; eauto].
Qed.
Lemma flat_list_app sub sc l1 : forall l2 pre, l2 <> [] -> flat_list sub sc (l1 ++ l2) pre =
  flat_list false sc l1 pre ++ flat_list sub sc l2 (pre ++ l1).
Proof.
  induction l1 as [|c l IH]; intros l2 pre H2; cbn [app flat_list]; [rewrite app_nil_r; reflexivity|].
  assert (Hn : is_nil (l ++ l2) = false) by (destruct l, l2; auto; contradiction). rewrite Hn, andb_false_r. cbn [andb].
  rewrite IH by exact H2. rewrite <- !app_assoc. reflexivity.
Qed.
Fixpoint subs_cmd (c : command) : list (list command) := match c with CSub cs _ _ => cs :: flat_map subs_cmd cs | _ => [] end.
Definition subid (cs : list command) : option string := cmd_id (CSub cs [] 0).
Definition inner (cs : list command) : list string := flat_map all_ids (removelast cs).
Lemma subid_eq cs a k : cmd_id (CSub cs a k) = subid cs.
Proof. reflexivity. Qed.
Lemma removelast_snoc {A} (l : list A) x : removelast (l ++ [x]) = l.
Proof. rewrite removelast_app by discriminate. cbn. apply app_nil_r. Qed.
Lemma subs_shape c : shape_ok c = true -> forall cs, In cs (subs_cmd c) ->
  (exists b s, cs = b ++ [CStep s] /\ b <> [] /\ forallb shape_ok b = true) /\ (forall i, In i (flat_map all_ids cs) -> In i (all_ids c)).
Proof.
  induction c as [i t|s|l a k IH] using command_ind'; intros Hs cs Hcs; [destruct Hcs|destruct Hcs|].
  destruct Hcs as [<-|Hcs].
  - split; [eapply shape_list; eauto|]. intros i Hi. exact Hi.
  - cbn [shape_ok] in Hs. apply andb_true_iff in Hs. destruct Hs as [_ Hs].
    apply in_flat_map in Hcs. destruct Hcs as [x [Hx Hcs]]. rewrite Forall_forall in IH. rewrite forallb_forall in Hs.
    destruct (IH x Hx (Hs x Hx) cs Hcs) as [Ha Hb]. split; [exact Ha|]. intros i Hi. cbn [all_ids]. apply in_flat_map. eauto.
Qed.
Lemma inner_sub cs i : In i (inner cs) -> In i (flat_map all_ids cs).
Proof.
  unfold inner. intros H. apply in_flat_map in H. destruct H as [x [Hx Hi]]. apply in_flat_map. exists x. split; [|exact Hi].
  destruct cs as [|c0 r0]; [destruct Hx|]. rewrite (app_removelast_last c0) by discriminate. apply in_app_iff. auto.
Qed.
Lemma NoDup_flat_In (l : list command) c : NoDup (flat_map all_ids l) -> In c l -> NoDup (all_ids c).
Proof.
  intros H Hc. apply in_split in Hc. destruct Hc as [a [b ->]]. rewrite flat_map_app in H. cbn [flat_map] in H.
  apply NoDup_app_iff' in H. destruct H as [_ [H _]]. apply NoDup_app_iff' in H. apply H.
Qed.
(** the id of a command is not inside one of its subproofs *)
Lemma own_id c : shape_ok c = true -> NoDup (all_ids c) -> forall cs i, In cs (subs_cmd c) -> cmd_id c = Some i -> ~ In i (inner cs).
Proof.
  destruct c as [j t|s|l a k]; intros Hs Hn cs i Hcs Hi Hin; [destruct Hcs|destruct Hcs|].
  destruct (shape_list _ _ _ Hs) as [b [s [-> [Hb Hsb]]]]. rewrite sub_id in Hi. injection Hi as <-.
  cbn [all_ids] in Hn. rewrite flat_map_app in Hn. apply NoDup_app_iff' in Hn. destruct Hn as [Hn1 [_ Hn]].
  destruct Hcs as [<-|Hcs].
  - unfold inner in Hin. rewrite removelast_snoc in Hin. apply (Hn _ Hin). cbn. auto.
  - rewrite flat_map_app in Hcs. apply in_app_iff in Hcs. destruct Hcs as [Hcs|Hcs]; [|destruct Hcs].
    apply in_flat_map in Hcs. destruct Hcs as [x [Hx Hcs]]. rewrite forallb_forall in Hsb.
    destruct (subs_shape x (Hsb x Hx) cs Hcs) as [_ H]. apply (Hn (s_id s)); [|cbn; auto]. apply in_flat_map. exists x. split; [exact Hx|].
    apply H. apply inner_sub. exact Hin.
Qed.

(** ** References stay in scope *)
Definition vis (sc : list (list command)) : list string := flat_map names sc.
Lemma ref_vis sc p i : ref_name sc p = Some i -> In i (vis sc).
Proof.
  unfold ref_name, lookup. destruct (nth_error sc (fst p)) as [l|] eqn:E1; [|discriminate]. destruct (nth_error l (snd p)) as [c|] eqn:E2; [|discriminate].
  intros H. apply in_flat_map. exists l. split; [eapply nth_error_In; eauto|]. apply names_In. eauto.
Qed.
Lemma refs_vis sc ps i : In i (named_refs sc ps) -> In i (vis sc).
Proof.
  unfold named_refs. intros H. apply in_flat_map in H. destruct H as [p [_ H]]. destruct (ref_name sc p) eqn:E; [|destruct H].
  destruct H as [<-|[]]. eapply ref_vis; eauto.
Qed.
Lemma vis_snoc sc l i : In i (vis (sc ++ [l])) <-> In i (vis sc) \/ In i (names l).
Proof. unfold vis. rewrite flat_map_app, in_app_iff. cbn. rewrite app_nil_r. reflexivity. Qed.
Lemma last_names l i : cmd_id (last l (CAssume "" tTrue)) = Some i -> l <> [] -> In i (names l).
Proof.
  intros H Hl. apply names_In. destruct (exists_last Hl) as [l' [x ->]]. rewrite last_last in H. exists (List.length l'), x.
  rewrite nth_error_app2, Nat.sub_diag by lia. auto.
Qed.
(** [e = true] only for the last of at least two commands *)
Lemma deps_vis s (e : bool) sc i : (e = true -> last sc [] <> []) -> In i (deps (s, (e, sc))) -> In i (vis sc).
Proof.
  intros He. unfold deps. rewrite !in_app_iff. intros [H|[H|H]]; [eapply refs_vis; eauto|eapply refs_vis; eauto|].
  destruct e; [|destruct H]. specialize (He eq_refl).
  destruct (cmd_id (last (last sc []) (CAssume "" tTrue))) as [j|] eqn:E; [|destruct H]. destruct H as [<-|[]].
  apply last_names in E; [|exact He]. unfold vis. apply in_flat_map. exists (last sc []). split; [|exact E].
  destruct sc as [|a r]; [cbn in He; contradiction|]. rewrite (app_removelast_last (l := a :: r) []) at 2 by discriminate. apply in_app_iff. right. left. reflexivity.
Qed.
Lemma flat_vis c : shape_ok c = true -> forall (e : bool) sc x i, (e = true -> last sc [] <> []) ->
  In x (flat_cmd c e sc) -> In i (deps x) -> In i (vis sc) \/ In i (all_ids c).
Proof.
  induction c as [j t|s|cs a k IH] using command_ind'; intros Hs e sc x i He Hx Hi.
  - destruct Hx.
  - destruct Hx as [<-|[]]. left. eapply deps_vis; eauto.
  - rewrite flat_sub in Hx. cbn [all_ids]. pose proof Hs as Hs0. cbn [shape_ok] in Hs. apply andb_true_iff in Hs. destruct Hs as [Hs1 Hs]. apply andb_true_iff in Hs1. destruct Hs1 as [Hs1 _]. apply Nat.leb_le in Hs1.
    assert (G : forall l pre, Forall (fun c => shape_ok c = true -> forall (e : bool) sc x i, (e = true -> last sc [] <> []) ->
        In x (flat_cmd c e sc) -> In i (deps x) -> In i (vis sc) \/ In i (all_ids c)) l -> forallb shape_ok l = true -> 2 <= List.length (pre ++ l) ->
        In x (flat_list true sc l pre) -> In i (vis sc) \/ In i (names pre) \/ In i (flat_map all_ids l)).
    { induction l as [|c l IHl]; intros pre Hf Hsl Hlen Hin; [destruct Hin|]. inversion Hf as [|? ? Hc Hf']; subst. cbn [forallb] in Hsl. apply andb_true_iff in Hsl. destruct Hsl as [Hsc Hsl].
      cbn [flat_list flat_map] in *. rewrite in_app_iff. apply in_app_iff in Hin. destruct Hin as [Hin|Hin].
      - destruct (Hc Hsc (true && is_nil l) (sc ++ [pre]) x i) as [H|H]; auto.
        + rewrite last_last. destruct l; [|discriminate]. intros _ ->. cbn in Hlen. lia.
        + apply vis_snoc in H. tauto.
      - destruct (IHl (pre ++ [c]) Hf' Hsl) as [H|[H|H]]; auto.
        + rewrite <- app_assoc. exact Hlen.
        + unfold names in H. rewrite flat_map_app, in_app_iff in H. destruct H as [H|H]; [auto|].
          right. right. left. destruct (shape_id c Hsc) as [q [Hq Hq']]. cbn in H. rewrite Hq, app_nil_r in H. destruct H as [<-|[]]. exact Hq'. }
    destruct (G cs [] IH Hs Hs1 Hx) as [H|[H|H]]; auto. destruct H.
Qed.
Lemma list_vis sub sc l : forall pre x i, forallb shape_ok l = true -> (sub = true -> 2 <= List.length (pre ++ l)) ->
  In x (flat_list sub sc l pre) -> In i (deps x) -> In i (vis sc) \/ In i (names pre) \/ In i (flat_map all_ids l).
Proof.
  induction l as [|c l IHl]; intros pre x i Hsl Hlen Hin Hi; [destruct Hin|]. cbn [forallb] in Hsl. apply andb_true_iff in Hsl. destruct Hsl as [Hsc Hsl].
  cbn [flat_list flat_map] in *. rewrite in_app_iff. apply in_app_iff in Hin. destruct Hin as [Hin|Hin].
  - destruct (flat_vis c Hsc (sub && is_nil l) (sc ++ [pre]) x i) as [H|H]; auto.
    + rewrite last_last. intros E ->. apply andb_true_iff in E. destruct E as [E1 E2]. destruct l; [|discriminate]. specialize (Hlen E1). cbn in Hlen. lia.
    + apply vis_snoc in H. tauto.
  - destruct (IHl (pre ++ [c]) x i Hsl) as [H|[H|H]]; auto.
    + rewrite <- app_assoc. exact Hlen.
    + unfold names in H. rewrite flat_map_app, in_app_iff in H. destruct H as [H|H]; [auto|].
      right. right. left. destruct (shape_id c Hsc) as [q [Hq Hq']]. cbn in H. rewrite Hq, app_nil_r in H. destruct H as [<-|[]]. exact Hq'.
Qed.
(** what depends on the inside of a subproof belongs to the subproof *)
Definition scoping (l : list place) (cs : list command) : Prop :=
  forall x i, In x l -> In i (deps x) -> In i (inner cs) -> In (s_id (fst x)) (flat_map all_ids cs).
Lemma scope_list (Q : command -> Prop) sub sc cs :
  (forall c, Q c -> shape_ok c = true -> NoDup (all_ids c) -> forall (e : bool) sc, (e = true -> last sc [] <> []) -> In cs (subs_cmd c) ->
     (forall i, In i (vis sc) -> ~ In i (inner cs)) -> scoping (flat_cmd c e sc) cs) ->
  forall l pre, Forall Q l -> forallb shape_ok l = true -> NoDup (flat_map all_ids l) -> (sub = true -> 2 <= List.length (pre ++ l)) ->
  In cs (flat_map subs_cmd l) -> (forall i, In i (vis sc) \/ In i (names pre) -> ~ In i (inner cs)) -> scoping (flat_list sub sc l pre) cs.
Proof.
  intros HQ. induction l as [|c l IH]; intros pre Hf Hs Hn Hlen Hcs Hd x i Hx Hi Hin; [destruct Hx|].
  inversion Hf as [|? ? Hc Hf']; subst. cbn [forallb] in Hs. apply andb_true_iff in Hs. destruct Hs as [Hsc Hsl].
  cbn [flat_list flat_map] in *. apply NoDup_app_iff' in Hn. destruct Hn as [Hnc [Hnl Hn]].
  assert (He : sub && is_nil l = true -> last (sc ++ [pre]) [] <> []).
  { rewrite last_last. intros E ->. apply andb_true_iff in E. destruct E as [E1 E2]. destruct l; [|discriminate]. specialize (Hlen E1). cbn in Hlen. lia. }
  destruct (shape_id c Hsc) as [q [Hq Hq']].
  apply in_app_iff in Hcs. apply in_app_iff in Hx. destruct Hcs as [Hcs|Hcs].
  - destruct (subs_shape c Hsc cs Hcs) as [_ Hsub]. destruct Hx as [Hx|Hx].
    + apply (HQ c Hc Hsc Hnc _ _ He Hcs) with (i := i); auto. intros j Hj. apply vis_snoc in Hj. apply Hd. exact Hj.
    + exfalso. destruct (list_vis sub sc l (pre ++ [c]) x i Hsl) as [H|[H|H]]; auto.
      * rewrite <- app_assoc. exact Hlen.
      * exact (Hd i (or_introl H) Hin).
      * unfold names in H. rewrite flat_map_app, in_app_iff in H. destruct H as [H|H]; [exact (Hd i (or_intror H) Hin)|].
        cbn in H. rewrite Hq, app_nil_r in H. destruct H as [<-|[]]. exact (own_id c Hsc Hnc cs q Hcs Hq Hin).
      * exact (Hn i (Hsub i (inner_sub _ _ Hin)) H).
  - assert (Hsub : forall j, In j (inner cs) -> In j (flat_map all_ids l)).
    { intros j Hj. apply in_flat_map in Hcs. destruct Hcs as [y [Hy Hcs]]. rewrite forallb_forall in Hsl.
      destruct (subs_shape y (Hsl y Hy) cs Hcs) as [_ H]. apply in_flat_map. exists y. split; [exact Hy|]. apply H. apply inner_sub. exact Hj. }
    destruct Hx as [Hx|Hx].
    + exfalso. destruct (flat_vis c Hsc _ _ x i He Hx Hi) as [H|H].
      * apply vis_snoc in H. exact (Hd i H Hin).
      * exact (Hn i H (Hsub i Hin)).
    + apply (IH (pre ++ [c]) Hf' Hsl Hnl) with (i := i); auto.
      * rewrite <- app_assoc. exact Hlen.
      * intros j [Hj|Hj]; [apply Hd; auto|]. unfold names in Hj. rewrite flat_map_app, in_app_iff in Hj. destruct Hj as [Hj|Hj]; [apply Hd; auto|].
        cbn in Hj. rewrite Hq, app_nil_r in Hj. destruct Hj as [<-|[]]. intros Hj. exact (Hn q Hq' (Hsub q Hj)).
Qed.
Lemma scope_cmd cs c : shape_ok c = true -> NoDup (all_ids c) -> forall (e : bool) sc, (e = true -> last sc [] <> []) -> In cs (subs_cmd c) ->
     (forall i, In i (vis sc) -> ~ In i (inner cs)) -> scoping (flat_cmd c e sc) cs.
Proof.
  induction c as [j t|s|l a k IH] using command_ind'; intros Hs Hn e sc He Hcs Hd; [destruct Hcs|destruct Hcs|].
  destruct Hcs as [<-|Hcs].
  - intros x i Hx _ _. apply (flat_ids (CSub l a k) e sc x Hx).
  - rewrite flat_sub. cbn [shape_ok] in Hs. rewrite !andb_true_iff in Hs. destruct Hs as [[Hs1 _] Hs]. apply Nat.leb_le in Hs1.
    apply (scope_list _ true sc cs (fun c H => H) l [] IH Hs Hn); auto. intros i [Hi|Hi]; [auto|destruct Hi].
Qed.
Lemma scope_top cs l : forallb shape_ok l = true -> NoDup (flat_map all_ids l) -> In cs (flat_map subs_cmd l) -> scoping (flat_list false [] l []) cs.
Proof.
  intros Hs Hn Hcs. apply (scope_list (fun _ => True) false [] cs); auto.
  - intros c _ H1 H2 e sc He H3 H4. apply scope_cmd; auto.
  - apply Forall_forall. auto.
  - discriminate.
  - intros i [Hi|Hi]; destruct Hi.
Qed.

(** ** The map of premises *)
Notation sget := (im_get String.eqb).
Lemma sget_insert {V} (m : list (string * V)) k v k' : sget (im_insert String.eqb m k v) k' = if String.eqb k' k then Some v else sget m k'.
Proof. apply im_get_insert. intros a b. apply String.eqb_eq. Qed.
Definition ext (sc F : list (list command)) : Prop := Forall2 (fun a b => exists r, b = a ++ r) sc F.
Lemma ext_nth sc F : ext sc F -> forall d a, nth_error sc d = Some a -> exists r, nth_error F d = Some (a ++ r).
Proof.
  induction 1 as [|a b sc F [r ->] H IH]; intros [|d] x Hx; cbn in *; try discriminate; [|auto].
  injection Hx as <-. eauto.
Qed.
Lemma ref_ext sc F p i : ext sc F -> ref_name sc p = Some i -> ref_name F p = Some i.
Proof.
  intros He. unfold ref_name, lookup. destruct (nth_error sc (fst p)) as [a|] eqn:E; [|discriminate].
  destruct (ext_nth _ _ He _ _ E) as [r ->]. destruct (nth_error a (snd p)) as [c|] eqn:E2; [|discriminate].
  rewrite nth_error_app1 by (apply nth_error_Some; congruence). rewrite E2. auto.
Qed.
Lemma mapo_names sc ps ns : mapo (ref_name sc) ps = Some ns -> named_refs sc ps = ns.
Proof.
  revert ns. induction ps as [|p r IH]; intros ns H; cbn [mapo] in H; [injection H as <-; reflexivity|].
  unfold named_refs. cbn [flat_map]. destruct (ref_name sc p) as [i|]; [|discriminate]. destruct (mapo (ref_name sc) r) as [ys|]; [|discriminate].
  injection H as <-. fold (named_refs sc r). rewrite (IH _ eq_refl). reflexivity.
Qed.
Lemma names_full sc F ps ns : ext sc F -> mapo (ref_name sc) ps = Some ns -> omap (name_of F) ps = ROk ns.
Proof.
  intros He. revert ns. induction ps as [|p r IH]; intros ns H; cbn [mapo omap] in *; [injection H as <-; reflexivity|].
  destruct (ref_name sc p) as [i|] eqn:E; [|discriminate]. destruct (mapo (ref_name sc) r) as [ys|]; [|discriminate].
  injection H as <-. unfold name_of at 1. rewrite (ref_ext _ _ _ _ He E). cbn [unwrap obind]. rewrite (IH _ eq_refl). reflexivity.
Qed.
Definition has_edges (m : emap) (x : place) : Prop :=
  let '(s, (e, sc)) := x in
  exists es ps, sget m (s_id s) = Some es /\ map fst es = deps x /\ mapo (ref_name sc) (s_prems s) = Some ps /\ map fst (filter is_premise es) = ps.
Lemma has_edges_ext m m' x : sget m' (s_id (fst x)) = sget m (s_id (fst x)) -> has_edges m x -> has_edges m' x.
Proof. destruct x as [s [e sc]]. cbn [fst has_edges]. intros ->. auto. Qed.
Definition prev_ok (e : bool) (sc F : list (list command)) : Prop :=
  e = true -> exists p, penult (last F []) = ROk p /\ cmd_id (last (last sc []) (CAssume "" tTrue)) = Some p.
Lemma map_fst_tag (l : list string) (t : ptype) : map fst (map (fun i => (i, t)) l) = l.
Proof. rewrite map_map. cbn. apply map_id. Qed.
Lemma filter_tag (l : list string) : filter is_premise (map (fun i => (i, PtPremise)) l) = map (fun i => (i, PtPremise)) l.
Proof. induction l as [|a l IH]; [reflexivity|]. cbn. rewrite IH. reflexivity. Qed.
Lemma filter_tag' (l : list string) : filter is_premise (map (fun i => (i, PtDischarge)) l) = [].
Proof. induction l as [|a l IH]; [reflexivity|]. exact IH. Qed.
Lemma step_edges_ok e sc F s ns ds : ext sc F -> prev_ok e sc F -> mapo (ref_name sc) (s_prems s) = Some ns -> mapo (ref_name sc) (s_disch s) = Some ds ->
  exists es, step_edges F e s = ROk es /\ map fst es = deps (s, (e, sc)) /\ map fst (filter is_premise es) = ns.
Proof.
  intros He Hp H1 H2. unfold step_edges. rewrite (names_full _ _ _ _ He H1), (names_full _ _ _ _ He H2). cbn [obind].
  unfold deps. rewrite (mapo_names _ _ _ H1), (mapo_names _ _ _ H2). destruct e.
  - destruct (Hp eq_refl) as [p [Hp1 Hp2]]. rewrite Hp1, Hp2. cbn [obind]. eexists. split; [reflexivity|].
    rewrite !map_app, !map_fst_tag, !filter_app, filter_tag, filter_tag'. split; [reflexivity|]. cbn. rewrite app_nil_r. apply map_fst_tag.
  - cbn [obind]. eexists. split; [reflexivity|].
    rewrite !map_app, !map_fst_tag, !filter_app, filter_tag, filter_tag'. split; [reflexivity|]. cbn. rewrite app_nil_r. apply map_fst_tag.
Qed.
Definition edges_spec (c : command) : Prop := forall e sc F m olines, ext sc F -> prev_ok e sc F -> print_cmd c sc = Some olines ->
  shape_ok c = true -> NoDup (all_ids c) ->
  exists m', edges_cmd c e F m = ROk m' /\ (forall i, ~ In i (all_ids c) -> sget m' i = sget m i) /\ (forall x, In x (flat_cmd c e sc) -> has_edges m' x) /\
    (forall i es, sget m' i = Some es -> sget m i = Some es \/ exists x, In x (flat_cmd c e sc) /\ s_id (fst x) = i).
Fixpoint edges_list (l : list command) (sub : bool) (F : list (list command)) (m : emap) : outcome emap :=
  match l with [] => ROk m | x :: r => do m <- edges_cmd x (sub && is_nil r) F m ; edges_list r sub F m end.
Lemma edges_sub cs a k e F m : edges_cmd (CSub cs a k) e F m = edges_list cs true (F ++ [cs]) m.
Proof.
  assert (H : forall l m, (fix go (l : list command) (m : emap) {struct l} : outcome emap :=
         match l with
         | [] => ROk m
         | x :: r => do m <- edges_cmd x (match r with [] => true | _ => false end) (F ++ [cs]) m ; go r m
         end) l m = edges_list l true (F ++ [cs]) m).
  { induction l as [|x r IH]; intros m0; [reflexivity|]. cbn [edges_list andb].
    replace (is_nil r) with (match r with [] => true | _ => false end) by (destruct r; reflexivity).
    destruct (edges_cmd x _ (F ++ [cs]) m0); cbn [obind]; auto. }
  cbn [edges_cmd]. apply H.
Qed.
Lemma edges_list_ok sub sc F L : ext sc F -> (sub = true -> 2 <= List.length L) -> forallb shape_ok L = true -> forall l pre rest m olines, Forall edges_spec l ->
  pre ++ l ++ rest = L -> (sub = true -> rest = []) -> print_list sc l pre = Some olines -> NoDup (flat_map all_ids l) ->
  exists m', edges_list l sub (F ++ [L]) m = ROk m' /\ (forall i, ~ In i (flat_map all_ids l) -> sget m' i = sget m i) /\
    (forall x, In x (flat_list sub sc l pre) -> has_edges m' x) /\
    (forall i es, sget m' i = Some es -> sget m i = Some es \/ exists x, In x (flat_list sub sc l pre) /\ s_id (fst x) = i).
Proof.
  intros He Hlen Hsh. induction l as [|c l IH]; intros pre rest m olines Hf HL Hrest Hp Hn.
  { exists m. cbn. split; [reflexivity|]. split; [auto|]. split; [tauto|]. intros i es H. auto. }
  inversion Hf as [|? ? Hc Hf']; subst. cbn [print_list] in Hp. destruct (print_cmd c (sc ++ [pre])) as [o1|] eqn:E1; [|discriminate].
  destruct (print_list sc l (pre ++ [c])) as [o2|] eqn:E2; [|discriminate].
  cbn [flat_map] in Hn. apply NoDup_app_iff' in Hn. destruct Hn as [Hn1 [Hn2 Hn3]].
  assert (Hsc : shape_ok c = true). { rewrite forallb_forall in Hsh. apply Hsh. rewrite !in_app_iff. right. left. left. reflexivity. }
  destruct (Hc (sub && is_nil l) (sc ++ [pre]) (F ++ [pre ++ (c :: l) ++ rest]) m o1) as [m1 [A1 [A2 [A3 A4]]]]; auto.
  { apply Forall2_app; [exact He|]. constructor; [eauto|constructor]. }
  { intros E. apply andb_true_iff in E. destruct E as [-> E]. destruct l; [|discriminate]. rewrite (Hrest eq_refl) in *. rewrite !last_last.
    specialize (Hlen eq_refl). cbn [app] in Hlen |- *. rewrite app_length in Hlen. cbn in Hlen.
    destruct pre as [|p0 pre0]; [cbn in Hlen; lia|]. assert (Hpre : p0 :: pre0 <> []) by discriminate. destruct (exists_last Hpre) as [q [y Hq]]. rewrite Hq in *.
    assert (Hy : shape_ok y = true). { rewrite forallb_forall in Hsh. apply Hsh. rewrite !in_app_iff. left. right. left. reflexivity. }
    destruct (shape_id y Hy) as [i [Hi _]]. exists i. rewrite last_last. split; [|exact Hi].
    unfold penult. rewrite !app_length. cbn [List.length]. replace (List.length q + 1 + 1 - 2) with (List.length q) by lia.
    destruct (Nat.ltb_spec (List.length q + 1 + 1) 2); [lia|]. rewrite <- app_assoc. rewrite nth_error_app2, Nat.sub_diag by lia. cbn. rewrite Hi. reflexivity. }
  destruct (IH (pre ++ [c]) rest m1 o2 Hf') as [m2 [B1 [B2 [B3 B4]]]]; auto.
  { rewrite <- app_assoc. reflexivity. }
  exists m2. cbn [edges_list]. rewrite A1. cbn [obind]. split; [exact B1|]. cbn [flat_map flat_list]. split; [|split].
  - intros i Hi. rewrite in_app_iff in Hi. rewrite B2 by tauto. apply A2. tauto.
  - intros x Hx. apply in_app_iff in Hx. destruct Hx as [Hx|Hx]; [|apply B3; exact Hx].
    apply has_edges_ext with m1; [|apply A3; exact Hx]. apply B2. apply Hn3. eapply flat_ids; eauto.
  - intros i es Hi. destruct (B4 i es Hi) as [H|[x [Hx Hxi]]].
    + destruct (A4 i es H) as [H'|[x [Hx Hxi]]]; [auto|]. right. exists x. rewrite in_app_iff. auto.
    + right. exists x. rewrite in_app_iff. auto.
Qed.
Lemma edges_spec_all c : edges_spec c.
Proof.
  induction c as [j t|s|cs a k IH] using command_ind'; intros e sc F m olines He Hp Hpr Hs Hn.
  - exists m. cbn. split; [reflexivity|]. split; [auto|]. split; [tauto|]. auto.
  - cbn [print_cmd] in Hpr. unfold print_step in Hpr. destruct (mapo (ref_name sc) (s_prems s)) as [ns|] eqn:E1; [|discriminate].
    destruct (mapo (ref_name sc) (s_disch s)) as [ds|] eqn:E2; [|discriminate].
    destruct (step_edges_ok e sc F s ns ds He Hp E1 E2) as [es [H1 [H2 H3]]]. exists (im_insert String.eqb m (s_id s) es).
    cbn [edges_cmd flat_cmd all_ids]. rewrite H1. cbn [obind]. split; [reflexivity|]. split; [|split].
    + intros i Hi. rewrite sget_insert. destruct (String.eqb_spec i (s_id s)) as [->|_]; [|reflexivity]. destruct Hi. left. reflexivity.
    + intros x [<-|[]]. cbn [has_edges]. exists es, ns. rewrite sget_insert, String.eqb_refl. auto.
    + intros i es' Hi. rewrite sget_insert in Hi. destruct (String.eqb_spec i (s_id s)) as [->|_]; [|auto]. right. exists (s, (e, sc)). cbn. auto.
  - rewrite print_sub in Hpr. destruct (cmd_id _) eqn:Eid; [|discriminate]. destruct (print_list sc cs []) as [o|] eqn:Ep; [|discriminate].
    pose proof Hs as Hs0. cbn [shape_ok] in Hs. rewrite !andb_true_iff in Hs. destruct Hs as [[Hs1 _] Hs]. apply Nat.leb_le in Hs1.
    rewrite edges_sub, flat_sub. cbn [all_ids].
    apply (edges_list_ok true sc F cs He (fun _ => Hs1) Hs cs [] [] m o IH); auto. cbn. apply app_nil_r.
Qed.
Lemma edges_top_ok proof id a c0 b olines : proof = a ++ c0 :: b -> forallb shape_ok proof = true -> NoDup (flat_map all_ids proof) ->
  print_proof proof = Some olines -> forallb (fun c => negb (has_target id c)) a = true -> has_target id c0 = true ->
  exists m, step_to_premises proof id = ROk m /\ (forall x, In x (flat_list false [] (a ++ [c0]) []) -> has_edges m x) /\
    (forall i es, sget m i = Some es -> exists x, In x (flat_list false [] (a ++ [c0]) []) /\ s_id (fst x) = i).
Proof.
  intros Hpf Hs Hn Hp Ha Hc0. unfold step_to_premises.
  assert (Hl : forall l m, forallb (fun c => negb (has_target id c)) l = true -> edges_top proof id (l ++ c0 :: b) m = edges_list (l ++ [c0]) false [proof] m).
  { induction l as [|x r IH]; intros m Hx; cbn [app edges_top edges_list andb].
    - destruct (edges_cmd c0 false [proof] m); cbn [obind]; auto. rewrite Hc0. reflexivity.
    - cbn [forallb] in Hx. apply andb_true_iff in Hx. destruct Hx as [Hx1 Hx2]. apply negb_true_iff in Hx1.
      destruct (edges_cmd x false [proof] m); cbn [obind]; auto. rewrite Hx1. apply IH. exact Hx2. }
  assert (Hst : edges_top proof id proof [] = edges_list (a ++ [c0]) false [proof] []) by (rewrite <- (Hl a [] Ha), <- Hpf; reflexivity).
  rewrite Hst. clear Hst.
  unfold print_proof in Hp. rewrite Hpf in Hp. replace (a ++ c0 :: b) with ((a ++ [c0]) ++ b) in Hp by (rewrite <- app_assoc; reflexivity).
  rewrite print_list_app in Hp. destruct (print_list [] (a ++ [c0]) []) as [o1|] eqn:E1; [|discriminate].
  destruct (edges_list_ok false [] [] proof (Forall2_nil _) ltac:(discriminate) Hs (a ++ [c0]) [] b [] o1) as [m [A1 [A2 [A3 A4]]]]; auto.
  - apply Forall_forall. intros c _. apply edges_spec_all.
  - cbn. rewrite Hpf, <- app_assoc. reflexivity.
  - discriminate.
  - rewrite Hpf in Hn. replace (a ++ c0 :: b) with ((a ++ [c0]) ++ b) in Hn by (rewrite <- app_assoc; reflexivity). rewrite flat_map_app in Hn.
    apply NoDup_app_iff' in Hn. apply Hn.
  - exists m. split; [exact A1|]. split; [exact A3|]. intros i es Hi. destruct (A4 i es Hi) as [H|H]; [discriminate|exact H].
Qed.

(** ** The breadth-first search *)
Inductive path (e : emap) : nat -> string -> string -> Prop :=
| path_0 i : path e 0 i i
| path_S n i k j : path e n i k -> In j (succs e k) -> path e (S n) i j.
Lemma path_cons e n k j : path e n k j -> forall i, In k (succs e i) -> path e (S n) i j.
Proof. induction 1; intros i0 Hi0; [econstructor; [constructor|exact Hi0]|]. econstructor; [apply IHpath; exact Hi0|assumption]. Qed.
Lemma path_uncons e n : forall i j, path e (S n) i j -> exists k, In k (succs e i) /\ path e n k j.
Proof.
  induction n as [|n IH]; intros i j H; inversion H as [|? ? k ? H1 H2]; subst.
  - inversion H1; subst. exists j. split; [exact H2|constructor].
  - destruct (IH _ _ H1) as [q [Hq1 Hq2]]. exists q. split; [exact Hq1|]. econstructor; eauto.
Qed.
Lemma kget_kset m i b j : kget (kset m i b) j = if String.eqb j i then Some b else kget m j.
Proof. apply sget_insert. Qed.
Definition old (m : kmap) (i : string) : bool := match kget m i with Some b => b | None => false end.
Lemma fold_get (keep : bool) level : forall m i,
  kget (fold_left (fun m i => kset m i (keep || match kget m i with Some b => b | None => false end)) level m) i =
  if memb String.eqb i level then Some (keep || old m i) else kget m i.
Proof.
  induction level as [|j l IH]; intros m i; [reflexivity|]. cbn [fold_left memb existsb]. rewrite IH. unfold old. rewrite kget_kset. unfold memb.
  destruct (String.eqb_spec i j) as [->|Hne]; cbn [orb].
  - destruct (existsb (String.eqb j) l); [|reflexivity]. destruct keep; reflexivity.
  - reflexivity.
Qed.
Lemma memb_str i l : memb String.eqb i l = true <-> In i l.
Proof. apply memb_In. intros a b. apply String.eqb_eq. Qed.
Lemma bfs_spec e d : forall level m i,
  (kget m i = Some true -> kget (bfs e d level m) i = Some true) /\ (kget m i <> None -> kget (bfs e d level m) i <> None) /\
  (forall n j, In j level -> path e n j i -> n < d -> kget (bfs e d level m) i = Some true) /\
  (forall n j, In j level -> path e n j i -> n <= d -> kget (bfs e d level m) i <> None) /\
  (kget (bfs e d level m) i <> None -> kget m i <> None \/ exists n j, In j level /\ path e n j i /\ n <= d) /\
  (kget (bfs e d level m) i = Some true -> kget m i = Some true \/ exists n j, In j level /\ path e n j i /\ n < d).
Proof.
  induction d as [|d IH]; intros level m i; cbn [bfs Nat.eqb negb].
  - rewrite fold_get. unfold old. cbn [orb].
    destruct (memb String.eqb i level) eqn:E.
    + apply memb_str in E. split; [intros ->; reflexivity|]. split; [discriminate|]. split; [lia|]. split; [discriminate|]. split; [intros _; right; exists 0, i; repeat split; auto; constructor|].
      destruct (kget m i) as [[|]|]; intros H; auto; discriminate.
    + assert (Hni : ~ In i level) by (intros H; apply memb_str in H; congruence).
      split; [auto|]. split; [auto|]. split; [lia|]. split; [|split; auto]. intros n j Hj Hp Hn. assert (n = 0) by lia. subst. inversion Hp; subst. contradiction.
  - set (m' := fold_left _ level m). destruct (IH (flat_map (succs e) level) m' i) as [H1 [H2 [H3 [H4 [H5 H6]]]]].
    assert (Hm : kget m' i = if memb String.eqb i level then Some true else kget m i) by (unfold m'; rewrite fold_get; reflexivity).
    assert (Hin : In i level -> kget m' i = Some true) by (intros H; apply memb_str in H; rewrite Hm, H; reflexivity).
    assert (Hor : In i level \/ kget m' i = kget m i).
    { destruct (memb String.eqb i level) eqn:E; [left; apply memb_str; exact E|right; rewrite Hm; reflexivity]. }
    split; [|split; [|split; [|split; [|split]]]].
    + intros H. apply H1. destruct Hor as [Ho|Ho]; [auto|congruence].
    + intros H. apply H2. destruct Hor as [Ho|Ho]; [rewrite (Hin Ho); discriminate|congruence].
    + intros [|n] j Hj Hp Hn.
      * inversion Hp; subst. auto.
      * apply path_uncons in Hp. destruct Hp as [k [Hk Hp]]. apply (H3 n k); [apply in_flat_map; eauto|exact Hp|lia].
    + intros [|n] j Hj Hp Hn.
      * inversion Hp; subst. apply H2. rewrite (Hin Hj). discriminate.
      * apply path_uncons in Hp. destruct Hp as [k [Hk Hp]]. apply (H4 n k); [apply in_flat_map; eauto|exact Hp|lia].
    + intros H. destruct (H5 H) as [H'|[n [j [Hj [Hp Hn]]]]].
      * destruct Hor as [Ho|Ho]; [right; exists 0, i; repeat split; auto; [constructor|lia]|left; congruence].
      * apply in_flat_map in Hj. destruct Hj as [k [Hk Hj]]. right. exists (S n), k. repeat split; auto; [eapply path_cons; eauto|lia].
    + intros H. destruct (H6 H) as [H'|[n [j [Hj [Hp Hn]]]]].
      * destruct Hor as [Ho|Ho]; [right; exists 0, i; repeat split; auto; [constructor|lia]|left; congruence].
      * apply in_flat_map in Hj. destruct Hj as [k [Hk Hj]]. right. exists (S n), k. repeat split; auto; [eapply path_cons; eauto|lia].
Qed.
Lemma transitive_spec e id D i :
  (forall n, path e n id i -> n <= D -> kget (transitive e id D) i = Some true) /\
  (forall n, path e n id i -> n <= S D -> kget (transitive e id D) i <> None) /\
  (kget (transitive e id D) i <> None -> exists n, path e n id i /\ n <= S D) /\
  (kget (transitive e id D) i = Some true -> exists n, path e n id i /\ n <= D).
Proof.
  unfold transitive. destruct (bfs_spec e (S D) [id] [] i) as [_ [_ [H3 [H4 [H5 H6]]]]]. split; [|split; [|split]].
  - intros n Hp Hn. apply (H3 n id); cbn; auto. lia.
  - intros n Hp Hn. apply (H4 n id); cbn; auto.
  - intros H. destruct (H5 H) as [H'|[n [j [[<-|[]] [Hp Hn]]]]]; [contradiction|eauto].
  - intros H. destruct (H6 H) as [H'|[n [j [[<-|[]] [Hp Hn]]]]]; [discriminate|]. exists n. split; [exact Hp|lia].
Qed.

(** ** The search for the step *)
Lemma target_id id c : has_target id c = true -> In id (all_ids c).
Proof.
  induction c as [j t|s|cs a k IH] using command_ind'; cbn [has_target all_ids]; intros H.
  - discriminate.
  - apply String.eqb_eq in H. left. exact H.
  - apply existsb_exists in H. destruct H as [x [Hx H]]. rewrite Forall_forall in IH. apply in_flat_map. eauto.
Qed.
Definition find_spec (id : string) (c : command) : Prop := forall encl, shape_ok c = true -> NoDup (all_ids c) ->
  (~ In id (all_ids c) -> find_cmd id c encl = None) /\
  (In id (all_ids c) -> exists from p, find_cmd id c encl = Some (from, encl ++ p) /\
     (forall S, In S p <-> In S (subs_cmd c) /\ In id (flat_map all_ids S)) /\ (has_target id c = true -> is_assume from = false)).
Lemma find_list_ok id l : Forall (find_spec id) l -> forallb shape_ok l = true -> NoDup (flat_map all_ids l) -> forall encl,
  (~ In id (flat_map all_ids l) -> find_list id l encl = None) /\
  (In id (flat_map all_ids l) -> exists from p, find_list id l encl = Some (from, encl ++ p) /\
     (forall S, In S p <-> In S (flat_map subs_cmd l) /\ In id (flat_map all_ids S)) /\ (existsb (has_target id) l = true -> is_assume from = false)).
Proof.
  induction l as [|c l IH]; intros Hf Hs Hn encl; [cbn; tauto|]. inversion Hf as [|? ? Hc Hf']; subst.
  cbn [forallb flat_map existsb find_list] in *. apply andb_true_iff in Hs. destruct Hs as [Hsc Hsl].
  apply NoDup_app_iff' in Hn. destruct Hn as [Hn1 [Hn2 Hn3]]. destruct (Hc encl Hsc Hn1) as [A B]. destruct (IH Hf' Hsl Hn2 encl) as [A' B'].
  rewrite in_app_iff. split.
  - intros H. rewrite A by tauto. apply A'. tauto.
  - intros H. destruct (in_dec string_dec id (all_ids c)) as [Hi|Hi].
    + destruct (B Hi) as [from [p [H1 [H2 H3]]]]. exists from, p. rewrite H1. split; [reflexivity|]. split.
      * intros S. rewrite H2, in_app_iff. split; [tauto|]. intros [[HS|HS] HI]; [auto|]. exfalso.
        apply in_flat_map in HS. destruct HS as [y [Hy HS]]. rewrite forallb_forall in Hsl. destruct (subs_shape y (Hsl y Hy) S HS) as [_ Hsub].
        apply (Hn3 id Hi). apply in_flat_map. eauto.
      * intros Ht. apply H3. apply orb_true_iff in Ht. destruct Ht as [Ht|Ht]; [exact Ht|]. exfalso.
        apply existsb_exists in Ht. destruct Ht as [y [Hy Ht]]. apply (Hn3 id Hi). apply in_flat_map. exists y. split; [exact Hy|apply target_id; exact Ht].
    + rewrite A by exact Hi. destruct H as [H|H]; [contradiction|]. destruct (B' H) as [from [p [H1 [H2 H3]]]]. exists from, p. split; [exact H1|]. split.
      * intros S. rewrite H2, in_app_iff. split; [tauto|]. intros [[HS|HS] HI]; [|auto]. exfalso. apply Hi.
        destruct (subs_shape c Hsc S HS) as [_ Hsub]. auto.
      * intros Ht. apply H3. apply orb_true_iff in Ht. destruct Ht as [Ht|Ht]; [|exact Ht]. exfalso. apply Hi. apply target_id. exact Ht.
Qed.
Lemma find_spec_all id c : find_spec id c.
Proof.
  induction c as [j t|s|cs a k IH] using command_ind'; intros encl Hs Hn.
  - cbn [all_ids find_cmd cmd_id In subs_cmd has_target]. destruct (String.eqb_spec j id) as [->|Hne].
    + split; [tauto|]. intros _. exists (CAssume id t), []. rewrite app_nil_r. split; [reflexivity|]. split; [cbn; tauto|discriminate].
    + split; [reflexivity|]. intros [H|[]]; contradiction.
  - cbn [all_ids find_cmd cmd_id In subs_cmd has_target]. destruct (String.eqb_spec (s_id s) id) as [E|Hne].
    + split; [tauto|]. intros _. exists (CStep s), []. rewrite app_nil_r. split; [reflexivity|]. split; [cbn; tauto|reflexivity].
    + split; [reflexivity|]. intros [H|[]]; contradiction.
  - destruct (shape_list _ _ _ Hs) as [b [s [Hcs [Hb Hsb]]]].
    assert (Hg : forall l encl, (fix go (l : list command) : option (command * list (list command)) :=
              match l with
              | [] => None
              | x :: r => match find_cmd id x encl with Some y => Some y | None => go r end
              end) l = find_list id l encl) by (induction l as [|x r IHl]; intros e0; [reflexivity|]; cbn [find_list]; rewrite IHl; reflexivity).
    assert (Hid : cmd_id (CSub cs a k) = Some (s_id s)) by (rewrite Hcs; apply sub_id).
    cbn [find_cmd]. rewrite Hg. rewrite Hid. cbn [all_ids subs_cmd has_target] in *.
    cbn [shape_ok] in Hs. apply andb_true_iff in Hs. destruct Hs as [_ Hs].
    destruct (find_list_ok id cs IH Hs Hn (encl ++ [cs])) as [A B].
    destruct (String.eqb_spec (s_id s) id) as [E|Hne].
    + subst id. assert (Hin : In (s_id s) (flat_map all_ids cs)) by (rewrite Hcs, flat_map_app, in_app_iff; cbn; auto).
      split; [tauto|]. intros _. exists (CSub cs a k), [cs]. split; [reflexivity|]. split; [|reflexivity].
      intros S. split; [intros [<-|[]]; split; [left; reflexivity|exact Hin]|]. intros [[<-|HS] HI]; [left; reflexivity|]. exfalso.
      rewrite Hcs, flat_map_app in HS. apply in_app_iff in HS. destruct HS as [HS|HS]; [|destruct HS].
      apply in_flat_map in HS. destruct HS as [y [Hy HS]]. rewrite forallb_forall in Hsb. destruct (subs_shape y (Hsb y Hy) S HS) as [_ Hsub].
      rewrite Hcs, flat_map_app in Hn. apply NoDup_app_iff' in Hn. destruct Hn as [_ [_ Hn]]. apply (Hn (s_id s)); [|cbn; auto].
      apply in_flat_map. eauto.
    + split; [exact A|]. intros HI. destruct (B HI) as [from [p [H1 [H2 H3]]]]. exists from, (cs :: p). rewrite H1, <- app_assoc. split; [reflexivity|].
      split; [|exact H3]. intros S. cbn [In]. rewrite H2. split; [|tauto]. intros [<-|H]; [|tauto]. auto.
Qed.

(** ** The context of the step *)
Fixpoint lead_ids (l : list command) : list string := match l with CAssume i _ :: r => i :: lead_ids r | _ => [] end.
Lemma lead_names l i : In i (lead_ids l) -> In i (names l).
Proof. induction l as [|[j t|s|cs a k] l IH]; cbn [lead_ids names flat_map cmd_id]; intros H; try destruct H; [left; exact H|]. apply in_app_iff. auto. Qed.
Lemma assumes_get l : forall m i, kget (keep_assumes l m) i = if memb String.eqb i (lead_ids l) then Some false else kget m i.
Proof.
  induction l as [|[j t|s|cs a k] l IH]; intros m i; cbn [keep_assumes lead_ids memb existsb]; try reflexivity.
  rewrite IH, kget_kset. unfold memb. destruct (String.eqb i j); cbn [orb]; [|reflexivity]. destruct (existsb (String.eqb i) (lead_ids l)); reflexivity.
Qed.
Lemma context_ok m cs b s : cs = b ++ [CStep s] -> b <> [] -> forallb shape_ok b = true -> exists m', keep_context m cs = ROk m' /\
  (forall i, kget m i <> None -> kget m' i <> None) /\ (forall i, kget m' i = Some true -> kget m i = Some true \/ subid cs = Some i) /\
  (forall i, kget m' i <> None -> kget m i <> None \/ In i (names cs)) /\ (forall i, In i (lead_ids cs) -> kget m' i <> None) /\
  (forall i, kget m i = Some true -> ~ In i (lead_ids cs) -> kget m' i = Some true) /\ (forall i, subid cs = Some i -> kget m' i = Some true).
Proof.
  intros -> Hb Hs. unfold keep_context. destruct (exists_last Hb) as [q [y ->]].
  assert (Hy : shape_ok y = true) by (rewrite forallb_forall in Hs; apply Hs; rewrite in_app_iff; right; left; reflexivity).
  destruct (shape_id y Hy) as [p [Hp _]].
  set (cs := (q ++ [y]) ++ [CStep s]).
  assert (Hpen : penult cs = ROk p).
  { unfold penult, cs. rewrite !app_length. cbn [List.length]. replace (List.length q + 1 + 1 - 2) with (List.length q) by lia.
    destruct (Nat.ltb_spec (List.length q + 1 + 1) 2); [lia|]. rewrite <- app_assoc. rewrite nth_error_app2, Nat.sub_diag by lia. cbn. rewrite Hp. reflexivity. }
  assert (Hult : nth_error cs (List.length cs - 1) = Some (CStep s)).
  { unfold cs. rewrite (app_length (q ++ [y])). cbn [List.length]. rewrite Nat.add_sub, nth_error_app2, Nat.sub_diag by lia. reflexivity. }
  assert (Hsid : subid cs = Some (s_id s)) by (apply sub_id).
  assert (Hpn : In p (names cs)). { unfold cs. unfold names. rewrite !flat_map_app, !in_app_iff. left. right. cbn. rewrite Hp. cbn. auto. }
  assert (Hsn : In (s_id s) (names cs)). { unfold cs. unfold names. rewrite !flat_map_app, !in_app_iff. right. cbn. auto. }
  rewrite Hpen, Hult. cbn [obind unwrap cmd_id]. eexists. split; [reflexivity|]. set (m1 := keep_assumes cs m).
  assert (Hm1 : forall i, kget m1 i = if memb String.eqb i (lead_ids cs) then Some false else kget m i) by (intros i; apply assumes_get).
  set (m2 := match kget m1 p with Some _ => m1 | None => kset m1 p false end).
  assert (Hm2 : forall i, kget m2 i = kget m1 i \/ (i = p /\ kget m1 p = None /\ kget m2 i = Some false)).
  { intros i. unfold m2. destruct (kget m1 p) eqn:E; [auto|]. rewrite kget_kset. destruct (String.eqb_spec i p) as [->|]; auto. }
  rewrite Hsid. repeat split.
  - intros i Hi. rewrite kget_kset. destruct (String.eqb i (s_id s)); [discriminate|].
    destruct (Hm2 i) as [-> | [_ [_ ->]]]; [|discriminate]. rewrite Hm1. destruct (memb String.eqb i (lead_ids cs)); [discriminate|exact Hi].
  - intros i. rewrite kget_kset. destruct (String.eqb_spec i (s_id s)) as [->|]; [auto|].
    destruct (Hm2 i) as [-> | [_ [_ ->]]]; [|discriminate]. rewrite Hm1. destruct (memb String.eqb i (lead_ids cs)); [discriminate|auto].
  - intros i. rewrite kget_kset. destruct (String.eqb_spec i (s_id s)) as [->|]; [auto|].
    destruct (Hm2 i) as [-> | [-> _]]; [|auto]. rewrite Hm1. destruct (memb String.eqb i (lead_ids cs)) eqn:E; [|auto].
    intros _. right. apply lead_names. apply memb_str. exact E.
  - intros i Hi. rewrite kget_kset. destruct (String.eqb i (s_id s)); [discriminate|].
    destruct (Hm2 i) as [-> | [_ [_ ->]]]; [|discriminate]. rewrite Hm1. apply memb_str in Hi. rewrite Hi. discriminate.
  - intros i Hi Hni. rewrite kget_kset. destruct (String.eqb i (s_id s)); [reflexivity|].
    assert (E : kget m1 i = Some true). { rewrite Hm1. destruct (memb String.eqb i (lead_ids cs)) eqn:E; [|exact Hi]. apply memb_str in E. contradiction. }
    destruct (Hm2 i) as [-> | [-> [H _]]]; [exact E|congruence].
  - intros i Hi. injection Hi as <-. rewrite kget_kset, String.eqb_refl. reflexivity.
Qed.
Lemma contexts_ok encl : (forall cs, In cs encl -> exists b s, cs = b ++ [CStep s] /\ b <> [] /\ forallb shape_ok b = true) ->
  (forall i, (exists cs, In cs encl /\ subid cs = Some i) -> forall cs, In cs encl -> ~ In i (lead_ids cs)) -> forall m,
  exists m', keep_contexts encl m = ROk m' /\
  (forall i, kget m i <> None -> kget m' i <> None) /\
  (forall i, kget m' i = Some true -> kget m i = Some true \/ exists cs, In cs encl /\ subid cs = Some i) /\
  (forall i, kget m' i <> None -> kget m i <> None \/ exists cs, In cs encl /\ In i (names cs)) /\
  (forall i cs, In cs encl -> In i (lead_ids cs) -> kget m' i <> None) /\
  (forall i, kget m i = Some true -> (forall cs, In cs encl -> ~ In i (lead_ids cs)) -> kget m' i = Some true) /\
  (forall i cs, In cs encl -> subid cs = Some i -> kget m' i = Some true).
Proof.
  induction encl as [|cs r IH]; intros Hsh Hne m.
  - exists m. cbn. split; [reflexivity|]. repeat split; auto; intros; contradiction.
  - cbn [keep_contexts]. destruct (Hsh cs (or_introl eq_refl)) as [b [s [Hcs [Hb Hs]]]].
    destruct (context_ok m cs b s Hcs Hb Hs) as [m1 [E1 [A1 [A2 [A3 [A4 [A5 A6]]]]]]].
    destruct (IH (fun c Hc => Hsh c (or_intror Hc))) with (m := m1) as [m2 [E2 [B1 [B2 [B3 [B4 [B5 B6]]]]]]].
    { intros i [c [Hc Hi]] c' Hc'. apply Hne; [exists c; split; [right; exact Hc|exact Hi]|right; exact Hc']. }
    exists m2. rewrite E1. cbn [obind]. split; [exact E2|]. repeat split.
    + auto.
    + intros i Hi. destruct (B2 i Hi) as [H|[c [Hc H]]]; [|right; exists c; split; [right; exact Hc|exact H]].
      destruct (A2 i H) as [H'|H']; [auto|right; exists cs; split; [left; reflexivity|exact H']].
    + intros i Hi. destruct (B3 i Hi) as [H|[c [Hc H]]]; [|right; exists c; split; [right; exact Hc|exact H]].
      destruct (A3 i H) as [H'|H']; [auto|right; exists cs; split; [left; reflexivity|exact H']].
    + intros i c [<-|Hc] Hi; [apply B1; apply A4; exact Hi|eapply B4; eauto].
    + intros i Hi Hn. apply B5; [apply A5; [exact Hi|apply Hn; left; reflexivity]|]. intros c Hc. apply Hn. right. exact Hc.
    + intros i c [<-|Hc] Hi; [|eapply B6; eauto]. apply B5; [apply A6; exact Hi|]. intros c' Hc'. apply Hne; [|right; exact Hc'].
      exists cs. split; [left; reflexivity|exact Hi].
Qed.
