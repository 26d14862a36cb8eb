(** The references of a parsed proof (C27), and printing a parsed proof and parsing it again (C37). *)
From Coq Require Import List String ZArith Bool Arith Lia.
From Verif Require Import Base Term Utils Rules Checker CheckerSound CheckerSem Parser.
Import ListNotations.
Local Open Scope list_scope.

Definition scopes (fs : list frame) : list (list command) := map f_cmds (rev fs).
Lemma scopes_cons f out : scopes (f :: out) = scopes out ++ [f_cmds f].
Proof. unfold scopes. cbn [rev]. rewrite map_app. reflexivity. Qed.
Lemma scopes_length fs : List.length (scopes fs) = List.length fs.
Proof. unfold scopes. rewrite map_length, rev_length. reflexivity. Qed.
Lemma lookup_last sc l i : lookup (sc ++ [l]) (List.length sc, i) = nth_error l i.
Proof. unfold lookup. cbn [fst snd]. rewrite nth_error_app2, Nat.sub_diag by lia. reflexivity. Qed.
Lemma lookup_outer sc l p : fst p < List.length sc -> lookup (sc ++ [l]) p = lookup sc p.
Proof. intros H. unfold lookup. rewrite nth_error_app1 by lia. reflexivity. Qed.
Lemma lookup_bound sc p c : lookup sc p = Some c -> fst p < List.length sc.
Proof.
  unfold lookup. destruct (nth_error sc (fst p)) eqn:E; [|discriminate]. intros _. apply nth_error_Some. congruence.
Qed.
Lemma lookup_cases sc l p c : lookup (sc ++ [l]) p = Some c ->
  (fst p < List.length sc /\ lookup sc p = Some c) \/ (fst p = List.length sc /\ nth_error l (snd p) = Some c).
Proof.
  intros H. pose proof (lookup_bound _ _ _ H) as Hb. rewrite app_length in Hb. cbn in Hb.
  destruct (Nat.eq_dec (fst p) (List.length sc)) as [He|Hne].
  - right. split; auto. destruct p as [d i]. cbn in He. subst. rewrite lookup_last in H. exact H.
  - left. split; [lia|]. rewrite lookup_outer in H by lia. exact H.
Qed.

(** ** The map of ids describes exactly the commands of the open scopes *)
Definition agree (f : frame) (m : list (string * nat)) : Prop :=
  forall id i, im_get String.eqb m id = Some i <-> exists c, nth_error (f_cmds f) i = Some c /\ cmd_id c = Some id.
Definition uniq_refs (sc : list (list command)) : Prop :=
  forall p q id, ref_name sc p = Some id -> ref_name sc q = Some id -> p = q.
Lemma Forall2_len {A B} (R : A -> B -> Prop) l m : Forall2 R l m -> List.length l = List.length m.
Proof. induction 1; cbn; congruence. Qed.
Lemma depth_name fs ids : Forall2 agree fs ids -> forall id p,
  hs_get_depth String.eqb ids id = Some p -> ref_name (scopes fs) p = Some id.
Proof.
  induction 1 as [|f m fs ids Ha Hf IH]; intros id p Hd; [discriminate|]. cbn [hs_get_depth] in Hd.
  rewrite scopes_cons. unfold ref_name. destruct (im_get String.eqb m id) as [i|] eqn:E.
  - injection Hd as <-. apply Ha in E. destruct E as [c [Hc Hi]].
    rewrite <- (Forall2_len _ _ _ Hf), <- (scopes_length fs), lookup_last, Hc. exact Hi.
  - pose proof (IH _ _ Hd) as Hn. unfold ref_name in Hn. destruct (lookup (scopes fs) p) eqn:El; [|discriminate].
    rewrite lookup_outer by (eapply lookup_bound; eauto). rewrite El. exact Hn.
Qed.
Lemma name_depth fs ids : Forall2 agree fs ids -> forall id p,
  ref_name (scopes fs) p = Some id -> exists q, hs_get_depth String.eqb ids id = Some q.
Proof.
  induction 1 as [|f m fs ids Ha Hf IH]; intros id p Hn.
  - unfold ref_name, lookup, scopes in Hn. cbn in Hn. destruct (fst p); discriminate.
  - cbn [hs_get_depth]. destruct (im_get String.eqb m id) as [i|] eqn:E; [eauto|].
    rewrite scopes_cons in Hn. unfold ref_name in Hn. destruct (lookup (scopes fs ++ [f_cmds f]) p) as [c|] eqn:El; [|discriminate].
    apply lookup_cases in El. destruct El as [[_ El]|[_ El]].
    + apply (IH id p). unfold ref_name. rewrite El. exact Hn.
    + exfalso. assert (im_get String.eqb m id = Some (snd p)) by (apply Ha; eauto). congruence.
Qed.
Lemma hs_get_none (ids : list (list (string * nat))) id :
  hs_get String.eqb ids id = None <-> hs_get_depth String.eqb ids id = None.
Proof.
  induction ids as [|m r IH]; cbn [hs_get hs_get_depth]; [tauto|]. destruct (im_get String.eqb m id); [split; discriminate|exact IH].
Qed.
Lemma fresh_names fs ids id : Forall2 agree fs ids ->
  (hs_get String.eqb ids id = None <-> forall p, ref_name (scopes fs) p <> Some id).
Proof.
  intros Ha. rewrite hs_get_none. split.
  - intros Hn p Hp. destruct (name_depth _ _ Ha _ _ Hp) as [q Hq]. congruence.
  - intros Hn. destruct (hs_get_depth String.eqb ids id) as [p|] eqn:E; auto. exfalso. exact (Hn p (depth_name _ _ Ha _ _ E)).
Qed.
Lemma name_depth_uniq fs ids id p : Forall2 agree fs ids -> uniq_refs (scopes fs) ->
  ref_name (scopes fs) p = Some id -> hs_get_depth String.eqb ids id = Some p.
Proof.
  intros Ha Hu Hn. destruct (name_depth _ _ Ha _ _ Hn) as [q Hq].
  rewrite (Hu p q id Hn (depth_name _ _ Ha _ _ Hq)). exact Hq.
Qed.

Lemma agree_push f m c id : agree f m -> cmd_id c = Some id -> im_get String.eqb m id = None ->
  agree (push_cmd f c) (im_insert String.eqb m id (List.length (f_cmds f ++ [c]) - 1)).
Proof.
  intros Ha Hc Hn id' i. rewrite (im_get_insert String.eqb String.eqb_eq). rewrite app_length. cbn [List.length push_cmd f_cmds].
  replace (List.length (f_cmds f) + 1 - 1) with (List.length (f_cmds f)) by lia.
  destruct (String.eqb_spec id' id) as [->|Hne].
  - split.
    + intros H. injection H as <-. exists c. rewrite nth_error_app2, Nat.sub_diag by lia. auto.
    + intros [c' [H1 H2]]. destruct (Nat.lt_ge_cases i (List.length (f_cmds f))) as [Hl|Hl].
      * rewrite nth_error_app1 in H1 by auto. assert (im_get String.eqb m id = Some i) by (apply Ha; eauto). congruence.
      * rewrite nth_error_app2 in H1 by auto. destruct (i - List.length (f_cmds f)) as [|k] eqn:Ek;
          [f_equal; lia|destruct k; discriminate].
  - rewrite (Ha id' i). split; intros [c' [H1 H2]]; exists c'; (split; [|exact H2]).
    + rewrite nth_error_app1; auto. apply nth_error_Some. congruence.
    + destruct (Nat.lt_ge_cases i (List.length (f_cmds f))) as [Hl|Hl]; [rewrite nth_error_app1 in H1 by auto; auto|].
      rewrite nth_error_app2 in H1 by auto. destruct (i - List.length (f_cmds f)) as [|k] eqn:Ek; [|destruct k; discriminate].
      injection H1 as <-. congruence.
Qed.
Lemma ref_push sc l c p id : ref_name (sc ++ [l ++ [c]]) p = Some id ->
  ref_name (sc ++ [l]) p = Some id \/ (p = (List.length sc, List.length l) /\ cmd_id c = Some id).
Proof.
  unfold ref_name. destruct (lookup (sc ++ [l ++ [c]]) p) as [c'|] eqn:El; [|discriminate]. intros Hc.
  apply lookup_cases in El. destruct El as [[Hb El]|[Hb El]].
  - left. rewrite lookup_outer, El by auto. exact Hc.
  - destruct (Nat.lt_ge_cases (snd p) (List.length l)) as [Hl|Hl].
    + left. rewrite nth_error_app1 in El by auto. destruct p as [d i]. cbn in *. subst d. rewrite lookup_last, El. exact Hc.
    + right. rewrite nth_error_app2 in El by auto. destruct (snd p - List.length l) as [|k] eqn:Ek; [|destruct k; discriminate].
      injection El as <-. split; [|exact Hc]. destruct p as [d i]. cbn in *. f_equal; lia.
Qed.
Lemma uniq_push sc l c id : uniq_refs (sc ++ [l]) -> cmd_id c = Some id ->
  (forall p, ref_name (sc ++ [l]) p <> Some id) -> uniq_refs (sc ++ [l ++ [c]]).
Proof.
  intros Hu Hc Hn p q id' Hp Hq. apply ref_push in Hp. apply ref_push in Hq.
  destruct Hp as [Hp|[Hp Hp']], Hq as [Hq|[Hq Hq']];
    [eapply Hu; eauto|exfalso; apply (Hn p); congruence|exfalso; apply (Hn q); congruence|congruence].
Qed.
Lemma ref_outer sc l p id : ref_name sc p = Some id -> ref_name (sc ++ [l]) p = Some id.
Proof.
  unfold ref_name. destruct (lookup sc p) eqn:E; [|discriminate]. rewrite lookup_outer by (eapply lookup_bound; eauto). rewrite E. auto.
Qed.
Lemma uniq_outer sc l : uniq_refs (sc ++ [l]) -> uniq_refs sc.
Proof. intros Hu p q id Hp Hq. apply (Hu p q id); apply ref_outer; auto. Qed.
Lemma uniq_open sc : uniq_refs sc -> uniq_refs (sc ++ [[]]).
Proof.
  assert (H : forall p id, ref_name (sc ++ [[]]) p = Some id -> ref_name sc p = Some id).
  { intros p id. unfold ref_name. destruct (lookup (sc ++ [[]]) p) eqn:E; [|discriminate].
    apply lookup_cases in E. destruct E as [[_ E]|[_ E]]; [rewrite E; auto|destruct (snd p); discriminate]. }
  intros Hu p q id Hp Hq. eapply Hu; eauto.
Qed.

(** the part of the state's invariant that concerns the ids *)
Definition sinv (st : pstate) : Prop :=
  Forall2 agree (ps_frames st) (ps_ids st) /\ uniq_refs (scopes (ps_frames st)).
Lemma sinv0 : sinv ps0.
Proof.
  split.
  - constructor; [|constructor]. intros id i. split; [discriminate|]. intros [c [H _]]. destruct i; discriminate.
  - intros p q id H. exfalso. unfold ref_name, lookup in H. cbn in H. destruct (fst p) as [|[|k]]; cbn in H; try destruct (snd p); discriminate.
Qed.
Lemma sub_id cs c args k : cmd_id (CSub (cs ++ [c]) args k) = cmd_id c.
Proof.
  cbn [cmd_id]. induction cs as [|x r IH]; [reflexivity|]. cbn [app].
  destruct (r ++ [c]) eqn:E; [destruct r; discriminate|exact IH].
Qed.
Lemma agree_ext f f' m : f_cmds f = f_cmds f' -> agree f m -> agree f' m.
Proof. intros H Ha id i. rewrite <- H. apply Ha. Qed.

(** What adding a completed command does. *)
Lemma add_command_ok id c st st' : add_command id c st = ROk st' -> cmd_id c = Some id -> sinv st ->
  exists f out, ps_frames st = f :: out /\ ps_next st' = ps_next st /\ sinv st' /\
    (forall p, ref_name (scopes (f :: out)) p <> Some id) /\
    ((f_end f <> id /\ ps_frames st' = push_cmd f c :: out) \/
     (exists g out', f_end f = id /\ out = g :: out' /\ is_step c = true /\ 2 <= List.length (f_cmds f ++ [c]) /\
        ps_frames st' = push_cmd g (CSub (f_cmds f ++ [c]) (f_args f) (f_ctx f)) :: out')).
Proof.
  destruct st as [fs ids nx]. intros H Hc [Ha Hu]. unfold add_command in H. cbn [ps_frames ps_ids ps_next] in *.
  destruct (hs_get String.eqb ids id) eqn:Eg; [discriminate|].
  destruct fs as [|f out]; [discriminate|]. exists f, out. split; [reflexivity|].
  pose proof (proj1 (fresh_names _ _ id Ha) Eg) as Hfr.
  inversion Ha as [|f0 m fs0 ids0 Hf Hout]; subst. cbn [hs_get] in Eg.
  destruct (im_get String.eqb m id) eqn:Em; [discriminate|].
  destruct (String.eqb_spec (f_end f) id) as [He|Hne].
  - apply obind_ok in H. destruct H as [ids1 [Hp H]]. cbn [hs_pop] in Hp.
    destruct ids0 as [|m' ids0]; [discriminate|]. injection Hp as <-.
    apply obind_ok in H. destruct H as [[] [Hl H]]. apply rassert_ok in Hl. apply Nat.leb_le in Hl.
    apply obind_ok in H. destruct H as [[] [Hs H]]. apply rassert_ok in Hs.
    destruct out as [|g out']; [discriminate|]. cbn [hs_insert obind] in H. injection H as <-. cbn [ps_frames ps_next].
    inversion Hout as [|g0 m0 fs0 ids1 Hg Hout']; subst. cbn [hs_get] in Eg. destruct (im_get String.eqb m' (f_end f)) eqn:Em'; [discriminate|].
    assert (Hcs : cmd_id (CSub (f_cmds f ++ [c]) (f_args f) (f_ctx f)) = Some (f_end f)) by (rewrite sub_id; exact Hc).
    split; [reflexivity|]. split; [|split; [exact Hfr|]].
    + split; cbn [ps_frames ps_ids].
      * constructor; [|exact Hout']. apply (agree_push g m' (CSub (f_cmds f ++ [c]) (f_args f) (f_ctx f)) (f_end f)); auto.
      * rewrite scopes_cons in *. apply uniq_outer in Hu. rewrite scopes_cons in Hu. cbn [push_cmd f_cmds].
        apply (uniq_push _ _ _ (f_end f)); auto. intros p Hp. apply (Hfr p). apply ref_outer. rewrite scopes_cons. exact Hp.
    + right. exists g, out'. repeat split; auto.
  - cbn [hs_insert obind] in H. injection H as <-. cbn [ps_frames ps_next]. split; [reflexivity|]. split; [|split; [exact Hfr|]].
    + split; cbn [ps_frames ps_ids].
      * constructor; auto. apply (agree_push f m c id); auto.
      * rewrite scopes_cons in *. cbn [push_cmd f_cmds]. apply (uniq_push _ _ _ id); auto.
    + left. auto.
Qed.

(** ** The text printed from the open frames *)
Definition appo {A} (a b : option (list A)) : option (list A) :=
  match a, b with Some x, Some y => Some (x ++ y) | _, _ => None end.
Fixpoint rend (fs : list frame) : option (list raw) :=
  match fs with
  | [] => Some []
  | f :: out =>
      match out with
      | [] => print_list [] (f_cmds f) []
      | _ => appo (rend out) (match print_list (scopes out) (f_cmds f) [] with
                              | Some rs => Some (RwAnchor (f_end f) (f_args f) :: rs) | None => None end)
      end
  end.
Lemma print_list_app sc l1 : forall l2 pre, print_list sc (l1 ++ l2) pre = appo (print_list sc l1 pre) (print_list sc l2 (pre ++ l1)).
Proof.
  induction l1 as [|x r IH]; intros l2 pre; cbn [print_list app].
  - rewrite app_nil_r. destruct (print_list sc l2 pre); reflexivity.
  - rewrite IH, <- app_assoc. cbn [app]. destruct (print_cmd x (sc ++ [pre])); [|reflexivity].
    destruct (print_list sc r (pre ++ [x])); [|reflexivity]. cbn [appo].
    destruct (print_list sc l2 (pre ++ x :: r)); [|reflexivity]. rewrite app_assoc. reflexivity.
Qed.
Lemma print_list_snoc sc l c : print_list sc (l ++ [c]) [] = appo (print_list sc l []) (print_cmd c (sc ++ [l])).
Proof.
  rewrite print_list_app. cbn [print_list app]. destruct (print_list sc l []); [|reflexivity].
  destruct (print_cmd c (sc ++ [l])); [|reflexivity]. cbn [appo]. rewrite app_nil_r. reflexivity.
Qed.
Lemma appo_assoc {A} (a b c : option (list A)) : appo a (appo b c) = appo (appo a b) c.
Proof. destruct a, b, c; cbn; auto. rewrite app_assoc. reflexivity. Qed.
Lemma rend_push f out c : rend (push_cmd f c :: out) = appo (rend (f :: out)) (print_cmd c (scopes (f :: out))).
Proof.
  rewrite scopes_cons. destruct out as [|g out'].
  - cbn [rend push_cmd f_cmds]. rewrite print_list_snoc. reflexivity.
  - assert (E : forall f0, rend (f0 :: g :: out') = appo (rend (g :: out')) (match print_list (scopes (g :: out')) (f_cmds f0) [] with
                              | Some rs => Some (RwAnchor (f_end f0) (f_args f0) :: rs) | None => None end)) by reflexivity.
    rewrite !E. cbn [push_cmd f_cmds f_end f_args]. rewrite print_list_snoc, <- appo_assoc. f_equal.
    destruct (print_list (scopes (g :: out')) (f_cmds f) []); [|reflexivity].
    cbn [appo]. destruct (print_cmd c (scopes (g :: out') ++ [f_cmds f])); reflexivity.
Qed.
Lemma rend_close f g out c : cmd_id c = Some (f_end f) ->
  rend (push_cmd g (CSub (f_cmds f ++ [c]) (f_args f) (f_ctx f)) :: out) = rend (push_cmd f c :: g :: out).
Proof.
  intros Hc. rewrite rend_push, print_sub, sub_id, Hc.
  assert (E : forall f0, rend (f0 :: g :: out) = appo (rend (g :: out)) (match print_list (scopes (g :: out)) (f_cmds f0) [] with
                              | Some rs => Some (RwAnchor (f_end f0) (f_args f0) :: rs) | None => None end)) by reflexivity.
  rewrite E. reflexivity.
Qed.
Lemma rend_frames fs rs : rend fs = Some rs -> fs <> [] -> forall f out, fs = f :: out -> exists r, print_list (scopes out) (f_cmds f) [] = Some r.
Proof.
  intros H _ f out ->. destruct out as [|g out']; [cbn in H; eauto|].
  cbn [rend] in H. destruct (rend (g :: out')) eqn:E1.
  - cbn [rend] in E1. rewrite E1 in H. destruct (print_list (scopes (g :: out')) (f_cmds f) []); [eauto|discriminate].
  - cbn [rend] in E1. rewrite E1 in H. discriminate.
Qed.

Lemma premises_ok fs ids : Forall2 agree fs ids -> forall prems ps,
  omap (parse_premise ids) prems = ROk ps -> mapo (ref_name (scopes fs)) ps = Some prems.
Proof.
  intros Ha. induction prems as [|id r IH]; intros ps H; cbn [omap] in H; [injection H as <-; reflexivity|].
  apply obind_ok in H. destruct H as [p [Hp H]]. apply obind_ok in H. destruct H as [qs [Hq H]]. injection H as <-.
  cbn [mapo]. unfold parse_premise in Hp. apply ok_or_ok in Hp. rewrite (depth_name _ _ Ha _ _ Hp), (IH _ Hq). reflexivity.
Qed.
Lemma discharge_ok fs ids root : Forall2 agree fs ids -> forall disch ds,
  omap (parse_discharge ids root) disch = ROk ds ->
  exists names, mapo (ref_name (scopes fs)) ds = Some names /\
    Forall2 (fun d d' => d' = d \/ d' = absolute root d) disch names.
Proof.
  intros Ha. induction disch as [|id r IH]; intros ds H; cbn [omap] in H; [injection H as <-; exists []; split; [reflexivity|constructor]|].
  apply obind_ok in H. destruct H as [p [Hp H]]. apply obind_ok in H. destruct H as [qs [Hq H]]. injection H as <-.
  destruct (IH _ Hq) as [names [Hn Hf]]. cbn [mapo]. unfold parse_discharge in Hp.
  destruct (hs_get_depth String.eqb ids (absolute root id)) as [q|] eqn:E.
  - injection Hp as <-. exists (absolute root id :: names). rewrite (depth_name _ _ Ha _ _ E), Hn. auto.
  - apply ok_or_ok in Hp. exists (id :: names). rewrite (depth_name _ _ Ha _ _ Hp), Hn. auto.
Qed.

(** ** Visible ids *)
Definition names (l : list command) : list string := flat_map (fun c => match cmd_id c with Some i => [i] | None => [] end) l.
Lemma names_In l i : In i (names l) <-> exists k c, nth_error l k = Some c /\ cmd_id c = Some i.
Proof.
  unfold names. rewrite in_flat_map. split.
  - intros [c [Hc Hi]]. apply In_nth_error in Hc. destruct Hc as [k Hk]. exists k, c. split; auto.
    destruct (cmd_id c); [|destruct Hi]. destruct Hi as [->|[]]. reflexivity.
  - intros [k [c [Hk Hc]]]. exists c. split; [eapply nth_error_In; eauto|]. rewrite Hc. left. reflexivity.
Qed.
Definition all_names (fs : list frame) : list string := flat_map (fun f => names (f_cmds f)) fs.
Lemma all_names_ref fs i : In i (all_names fs) -> exists p, ref_name (scopes fs) p = Some i.
Proof.
  induction fs as [|f out IH]; cbn [all_names flat_map]; [intros []|]. rewrite in_app_iff, scopes_cons. intros [H|H].
  - apply names_In in H. destruct H as [k [c [Hk Hc]]]. exists (List.length (scopes out), k). unfold ref_name. rewrite lookup_last, Hk. exact Hc.
  - destruct (IH H) as [p Hp]. exists p. apply ref_outer. exact Hp.
Qed.
Lemma memb_ext v1 v2 (x : string) : (forall y, In y v1 <-> In y v2) -> memb String.eqb x v1 = memb String.eqb x v2.
Proof.
  intros H. destruct (memb String.eqb x v1) eqn:E1, (memb String.eqb x v2) eqn:E2; auto.
  - apply (memb_In String.eqb String.eqb_eq) in E1. apply H in E1. apply (memb_In String.eqb String.eqb_eq) in E1. congruence.
  - apply (memb_In String.eqb String.eqb_eq) in E2. apply H in E2. apply (memb_In String.eqb String.eqb_eq) in E2. congruence.
Qed.
Lemma fresh_ext c : forall v1 v2, (forall y, In y v1 <-> In y v2) -> ids_fresh c v1 = ids_fresh c v2.
Proof.
  induction c as [id t|s|cs args k IH] using command_ind'; intros v1 v2 H; cbn [ids_fresh]; try (f_equal; apply memb_ext; auto).
  revert v1 v2 H. induction IH as [|x r Hx Hr IHr]; intros v1 v2 H; [reflexivity|].
  rewrite (Hx v1 v2 H). destruct (cmd_id x); [|reflexivity]. f_equal. apply IHr. intros y. cbn. rewrite (H y). tauto.
Qed.
Lemma fresh_list_ext l v1 v2 : (forall y, In y v1 <-> In y v2) -> ids_fresh_list l v1 = ids_fresh_list l v2.
Proof. intros H. rewrite <- !(ids_fresh_sub l [] 0). apply fresh_ext. exact H. Qed.
Lemma fresh_list_snoc l c : forall v, ids_fresh_list (l ++ [c]) v =
  ids_fresh_list l v && ids_fresh c (names l ++ v) && (match cmd_id c with Some _ => true | None => false end).
Proof.
  induction l as [|x r IH]; intros v; cbn [ids_fresh_list app].
  - cbn [names flat_map app]. destruct (cmd_id c); rewrite ?andb_true_r; reflexivity.
  - unfold names. cbn [flat_map]. fold (names r). destruct (cmd_id x) as [i|]; [|rewrite !andb_false_r; reflexivity].
    rewrite IH. cbn [app]. rewrite !andb_assoc. do 2 f_equal. apply fresh_ext. intros y. cbn. rewrite !in_app_iff. cbn. tauto.
Qed.
Fixpoint frames_fresh (fs : list frame) : bool :=
  match fs with [] => true | f :: out => ids_fresh_list (f_cmds f) (all_names out) && frames_fresh out end.
(** the context ids handed out so far *)
Fixpoint frames_ctx (fs : list frame) : list nat :=
  match fs with
  | [] => []
  | f :: out => match out with [] => [] | _ => frames_ctx out ++ [f_ctx f] end ++ flat_map ctx_ids (f_cmds f)
  end.
(** in a subproof no assumption follows a step *)
Fixpoint order_list (l : list command) (stepped : bool) : bool :=
  match l with
  | [] => true
  | CAssume _ _ :: r => negb stepped && order_list r stepped
  | CStep _ :: r => order_list r true
  | CSub _ _ _ :: r => order_list r stepped
  end.
Fixpoint order_ok (c : command) : bool :=
  match c with CSub cs _ _ => order_list cs false && forallb order_ok cs | _ => true end.
Definition has_step (l : list command) : bool := existsb is_step l.
Lemma order_list_snoc l c : forall b, order_list (l ++ [c]) b =
  order_list l b && (match c with CAssume _ _ => negb (b || has_step l) | _ => true end).
Proof.
  induction l as [|x r IH]; intros b; cbn [app order_list has_step existsb].
  - destruct c; cbn; rewrite ?orb_false_r, ?andb_true_r; reflexivity.
  - destruct x; cbn [order_list is_step orb]; rewrite IH; unfold has_step.
    + destruct c; rewrite ?andb_true_r; auto. rewrite andb_assoc. reflexivity.
    + destruct c; auto. rewrite orb_true_r. reflexivity.
    + reflexivity.
Qed.
Fixpoint frames_order (fs : list frame) : bool :=
  match fs with
  | [] => true
  | f :: out => (match out with [] => true | _ => order_list (f_cmds f) false && (implb (has_step (f_cmds f)) (f_stepped f)) end)
                && forallb order_ok (f_cmds f) && frames_order out
  end.

(** ** The invariant *)
Definition no_defs (rs : list raw) : list raw := filter (fun r => negb (is_define r)) rs.
Record inv (done : list raw) (st : pstate) : Prop := mkInv {
  i_ids : sinv st;
  i_ne : ps_frames st <> [];
  i_text : exists rs, rend (ps_frames st) = Some rs /\ Forall2 same_raw (no_defs done) rs;
  i_shape : Forall (fun f => forallb shape_ok (f_cmds f) = true) (ps_frames st);
  i_fresh : frames_fresh (ps_frames st) = true;
  i_ctx : frames_ctx (ps_frames st) = seq 0 (ps_next st);
  i_order : frames_order (ps_frames st) = true }.
Lemma inv0 : inv [] ps0.
Proof.
  constructor; cbn; auto; try discriminate; [exact sinv0|].
  exists []. split; [reflexivity|constructor].
Qed.
Lemma shape_sub cs c args k : forallb shape_ok cs = true -> is_step c = true -> 2 <= List.length (cs ++ [c]) ->
  shape_ok (CSub (cs ++ [c]) args k) = true.
Proof.
  intros Hs Hc Hl. cbn [shape_ok]. rewrite last_last, forallb_app, Hs. apply Nat.leb_le in Hl. rewrite Hl.
  destruct c; try discriminate. reflexivity.
Qed.
Lemma order_sub cs c args k : order_list cs false = true -> forallb order_ok cs = true -> is_step c = true ->
  order_ok (CSub (cs ++ [c]) args k) = true.
Proof.
  intros Ho Hs Hc. cbn [order_ok]. rewrite order_list_snoc, forallb_app, Ho, Hs. destruct c; try discriminate. reflexivity.
Qed.
(** Adding a command whose printed form [r] corresponds to the text [r0] keeps the invariant. *)
Lemma add_inv done st id c r0 r st' : inv done st -> is_define r0 = false -> same_raw r0 r ->
  cmd_id c = Some id -> (forall cs a k, c <> CSub cs a k) ->
  print_cmd c (scopes (ps_frames st)) = Some [r] ->
  (match c, ps_frames st with
   | CAssume _ _, f :: _ :: _ => f_stepped f = false
   | CStep _, f :: _ => f_stepped f = true
   | _, _ => True end) ->
  add_command id c st = ROk st' -> inv (done ++ [r0]) st'.
Proof.
  intros [Hids Hne Htx Hsh Hfr Hcx Hor] Hd Hr0 Hc Hnc Hpr Hst H.
  destruct (add_command_ok _ _ _ _ H Hc Hids) as [f [out [Ef [Enx [Hids' [Hfresh Hcase]]]]]]. rewrite Ef in *.
  destruct Htx as [rs [Hrs Hsame]].
  assert (Htx' : rend (push_cmd f c :: out) = Some (rs ++ [r])) by (rewrite rend_push, Hrs, Hpr; reflexivity).
  assert (Hsame' : Forall2 same_raw (no_defs (done ++ [r0])) (rs ++ [r])).
  { unfold no_defs. rewrite filter_app. cbn [filter]. rewrite Hd. cbn. apply Forall2_app; auto. }
  assert (Hmem : memb String.eqb id (names (f_cmds f) ++ all_names out) = false).
  { destruct (memb String.eqb id (names (f_cmds f) ++ all_names out)) eqn:E; auto. exfalso.
    apply (memb_In String.eqb String.eqb_eq) in E. change (In id (all_names (f :: out))) in E.
    destruct (all_names_ref _ _ E) as [p Hp]. exact (Hfresh p Hp). }
  assert (Hfc : ids_fresh c (names (f_cmds f) ++ all_names out) = true).
  { destruct c; cbn [ids_fresh cmd_id] in *; [| |exfalso; eapply Hnc; eauto]; injection Hc as ->; rewrite Hmem; reflexivity. }
  cbn [frames_fresh] in Hfr. apply andb_true_iff in Hfr. destruct Hfr as [Hfr1 Hfr2].
  assert (Hfl : ids_fresh_list (f_cmds f ++ [c]) (all_names out) = true) by (rewrite fresh_list_snoc, Hfr1, Hfc, Hc; reflexivity).
  inversion Hsh as [|f1 out1 Hsf Hso]; subst.
  assert (Hsc : shape_ok c = true) by (destruct c; auto; exfalso; eapply Hnc; eauto).
  assert (Hctx : ctx_ids c = []) by (destruct c; auto; exfalso; eapply Hnc; eauto).
  assert (Hoc : order_ok c = true) by (destruct c; auto; exfalso; eapply Hnc; eauto).
  cbn [frames_order] in Hor. rewrite !andb_true_iff in Hor. destruct Hor as [[Hor1 Hor2] Hor3].
  destruct Hcase as [[Hend Hst']|[g [out' [Hend [-> [Hstep [Hlen Hst']]]]]]]; rewrite ?Hst', ?Enx; constructor; rewrite ?Hst', ?Enx; auto; try discriminate.
  - eauto.
  - constructor; auto. cbn [push_cmd f_cmds]. rewrite forallb_app, Hsf. cbn. rewrite Hsc. reflexivity.
  - cbn [frames_fresh push_cmd f_cmds]. rewrite Hfl. exact Hfr2.
  - rewrite <- Hcx. cbn [frames_ctx push_cmd f_cmds f_ctx]. rewrite flat_map_app. cbn [flat_map]. rewrite Hctx, !app_nil_r. reflexivity.
  - cbn [frames_order push_cmd f_cmds f_stepped]. rewrite forallb_app, Hor2, Hor3. cbn [forallb]. rewrite Hoc, !andb_true_r.
    destruct out as [|g out']; auto. apply andb_true_iff in Hor1. destruct Hor1 as [Ho1 Ho2].
    rewrite order_list_snoc, Ho1. unfold has_step in *. rewrite existsb_app. cbn [existsb].
    destruct c; cbn [is_step] in *; [| |exfalso; eapply Hnc; eauto].
    + rewrite Hst in *. destruct (existsb is_step (f_cmds f)); [discriminate|]. reflexivity.
    + rewrite Hst. destruct (existsb is_step (f_cmds f)); reflexivity.
  - exists (rs ++ [r]). split; auto. rewrite rend_close; auto. rewrite Hc, Hend. reflexivity.
  - inversion Hso as [|g1 out1 Hsg Hso']; subst. constructor; auto. cbn [push_cmd f_cmds]. rewrite forallb_app, Hsg.
    cbn [forallb]. rewrite shape_sub; auto.
  - cbn [frames_fresh push_cmd f_cmds]. cbn [frames_fresh] in Hfr2. apply andb_true_iff in Hfr2. destruct Hfr2 as [Hg1 Hg2].
    rewrite Hg2, andb_true_r, fresh_list_snoc, Hg1, sub_id, Hc, ids_fresh_sub. cbn [all_names flat_map] in Hfl.
    fold (all_names out') in Hfl. rewrite Hfl. reflexivity.
  - rewrite <- Hcx. cbn [frames_ctx push_cmd f_cmds f_ctx]. rewrite flat_map_app. cbn [flat_map ctx_ids].
    rewrite flat_map_app. cbn [flat_map]. rewrite Hctx, !app_nil_r.
    destruct out'; cbn [frames_ctx]; rewrite <- ?app_assoc; reflexivity.
  - cbn [frames_order push_cmd f_cmds f_stepped]. cbn [frames_order] in Hor3. rewrite !andb_true_iff in Hor3. destruct Hor3 as [[Hg1 Hg2] Hg3].
    apply andb_true_iff in Hor1. destruct Hor1 as [Ho1 Ho2].
    rewrite forallb_app, Hg2, Hg3. cbn [forallb]. rewrite order_sub by auto. rewrite !andb_true_r.
    destruct out' as [|g2 out2]; auto. apply andb_true_iff in Hg1. destruct Hg1 as [Ho3 Ho4].
    rewrite order_list_snoc, Ho3. unfold has_step in *. rewrite existsb_app. cbn [existsb is_step]. rewrite !orb_false_r. exact Ho4.
Qed.
Lemma cmd_inv done st r st' : inv done st -> parse_cmd st r = ROk st' -> inv (done ++ [r]) st'.
Proof.
  intros Hi H. pose proof Hi as [Hids Hne Htx Hsh Hfr Hcx Hor]. unfold parse_cmd in H.
  destruct (ps_frames st) as [|f out] eqn:Ef; [discriminate|]. destruct r as [id t|id cl rule prems args disch|e args|].
  - destruct (f_stepped f && negb (List.length (f :: out) =? 1)) eqn:Es; [discriminate|].
    apply (add_inv done st id (CAssume id t) _ (RwAssume id t) st'); auto; try reflexivity; try discriminate.
    rewrite Ef. destruct out; auto. cbn in Es. rewrite andb_true_r in Es. exact Es.
  - apply obind_ok in H. destruct H as [ps [Hp H]]. apply obind_ok in H. destruct H as [ds [Hd H]].
    destruct Hids as [Ha Hu]. rewrite Ef in Ha, Hu. pose proof (premises_ok _ _ Ha _ _ Hp) as Hp'.
    destruct (discharge_ok _ _ id Ha _ _ Hd) as [names [Hd' Hdn]].
    eapply (add_inv done _ id _ _ (RwStep id cl rule prems args names) st'); [..|exact H]; cbn [ps_frames]; auto; try reflexivity; try discriminate.
    + constructor; cbn [ps_frames ps_ids ps_next]; auto; try discriminate.
      * split; cbn [ps_frames ps_ids]; [|rewrite scopes_cons in *; exact Hu]. inversion Ha; subst. constructor; auto.
      * inversion Hsh; subst. constructor; auto.
      * rewrite <- Hor. cbn [frames_order set_stepped f_cmds f_stepped]. destruct out; auto. do 3 f_equal.
        cbn [frames_order] in Hor. rewrite !andb_true_iff in Hor. destruct Hor as [[[_ Hor] _] _]. rewrite Hor.
        destruct (has_step (f_cmds f)); reflexivity.
    + cbn. repeat split; auto.
    + assert (E : scopes (set_stepped f :: out) = scopes (f :: out)) by (rewrite !scopes_cons; reflexivity).
      rewrite E. cbn [print_cmd]. unfold print_step. cbn [s_prems s_disch s_id s_clause s_rule s_args]. rewrite Hp', Hd'. reflexivity.
  - injection H as <-. destruct Htx as [rs [Hrs Hsame]]. destruct Hids as [Ha Hu]. rewrite Ef in Ha, Hu.
    constructor; cbn [ps_frames ps_ids ps_next]; auto; try discriminate.
    + split; cbn [ps_frames ps_ids].
      * constructor; auto. intros id i. split; [discriminate|]. intros [c [Hc _]]. destruct i; discriminate.
      * rewrite (scopes_cons (mkFr [] args (ps_next st) e false)). apply uniq_open. exact Hu.
    + exists (rs ++ [RwAnchor e args]). split.
      * assert (E : rend (mkFr [] args (ps_next st) e false :: f :: out) = appo (rend (f :: out)) (Some [RwAnchor e args])) by reflexivity.
        rewrite E, Hrs. reflexivity.
      * unfold no_defs. rewrite filter_app. apply Forall2_app; auto. cbn. constructor; [reflexivity|constructor].
    + rewrite seq_S. cbn [Nat.add]. rewrite <- Hcx.
      assert (E : frames_ctx (mkFr [] args (ps_next st) e false :: f :: out) = (frames_ctx (f :: out) ++ [ps_next st]) ++ []) by reflexivity.
      rewrite E, app_nil_r. reflexivity.
  - injection H as <-. destruct Htx as [rs [Hrs Hsame]]. constructor; rewrite ?Ef; auto.
    exists rs. split; auto. unfold no_defs. rewrite filter_app. cbn. rewrite app_nil_r. exact Hsame.
Qed.
Lemma cmds_inv rs : forall done st st', inv done st -> parse_cmds st rs = ROk st' -> inv (done ++ rs) st'.
Proof.
  induction rs as [|r rs IH]; intros done st st' Hi H; cbn [parse_cmds] in H.
  - injection H as <-. rewrite app_nil_r. exact Hi.
  - apply obind_ok in H. destruct H as [st1 [H1 H]]. replace (done ++ r :: rs) with ((done ++ [r]) ++ rs) by (rewrite <- app_assoc; reflexivity).
    apply (IH _ st1); auto. eapply cmd_inv; eauto.
Qed.

(** ** Results about a parsed proof *)
Lemma parse_inv rs proof : parse_proof rs = ROk proof -> exists st f, ps_frames st = [f] /\ f_cmds f = proof /\ inv rs st.
Proof.
  intros H. unfold parse_proof in H. apply obind_ok in H. destruct H as [st [H1 H]].
  destruct (ps_frames st) as [|f [|g out]] eqn:Ef; try discriminate. injection H as <-. exists st, f.
  split; auto. split; auto. apply (cmds_inv rs [] ps0); auto. exact inv0.
Qed.
Theorem parse_print rs proof : parse_proof rs = ROk proof ->
  exists out, print_proof proof = Some out /\ same_text rs out.
Proof.
  intros H. destruct (parse_inv _ _ H) as [st [f [Ef [<- Hi]]]]. destruct (i_text _ _ Hi) as [out [Ho Hs]].
  rewrite Ef in Ho. exists out. split; [exact Ho|exact Hs].
Qed.
Theorem parse_shape rs proof : parse_proof rs = ROk proof -> forallb shape_ok proof = true.
Proof.
  intros H. destruct (parse_inv _ _ H) as [st [f [Ef [<- Hi]]]]. pose proof (i_shape _ _ Hi) as Hs. rewrite Ef in Hs.
  inversion Hs; auto.
Qed.
Theorem parse_fresh rs proof : parse_proof rs = ROk proof -> ids_fresh_list proof [] = true.
Proof.
  intros H. destruct (parse_inv _ _ H) as [st [f [Ef [<- Hi]]]]. pose proof (i_fresh _ _ Hi) as Hs. rewrite Ef in Hs.
  cbn in Hs. rewrite andb_true_r in Hs. exact Hs.
Qed.
Theorem parse_ctx rs proof : parse_proof rs = ROk proof ->
  flat_map ctx_ids proof = seq 0 (List.length (flat_map ctx_ids proof)).
Proof.
  intros H. destruct (parse_inv _ _ H) as [st [f [Ef [<- Hi]]]]. pose proof (i_ctx _ _ Hi) as Hs. rewrite Ef in Hs.
  cbn in Hs. rewrite Hs, seq_length. reflexivity.
Qed.
Theorem parse_order rs proof : parse_proof rs = ROk proof -> forallb order_ok proof = true.
Proof.
  intros H. destruct (parse_inv _ _ H) as [st [f [Ef [<- Hi]]]]. pose proof (i_order _ _ Hi) as Hs. rewrite Ef in Hs.
  cbn in Hs. rewrite !andb_true_r in Hs. exact Hs.
Qed.

(** ** Following the references of a printable proof *)
Definition pre (e : nat * list command) : list command := firstn (fst e - 1) (snd e).
Definition done_so_far (stk : stack) : list (list command) := map pre (rev stk).
Fixpoint good (stk : stack) : Prop :=
  match stk with
  | [] => True
  | (k, cs) :: out => (exists rs, print_list (done_so_far out) (skipn k cs) (firstn k cs) = Some rs) /\ good out
  end.
Lemma done_cons e out : done_so_far (e :: out) = done_so_far out ++ [pre e].
Proof. unfold done_so_far. cbn [rev]. rewrite map_app. reflexivity. Qed.
Lemma skipn_nth {A} (l : list A) : forall i x, nth_error l i = Some x -> skipn i l = x :: skipn (S i) l.
Proof.
  induction l as [|y r IH]; intros [|i] x H; try discriminate; [injection H as ->; reflexivity|]. cbn in *. apply IH. exact H.
Qed.
Lemma firstn_nth {A} (l : list A) : forall i x, nth_error l i = Some x -> firstn (S i) l = firstn i l ++ [x].
Proof.
  induction l as [|y r IH]; intros [|i] x H; try discriminate; [injection H as ->; reflexivity|].
  cbn [nth_error] in H. cbn [firstn app]. f_equal. apply IH. exact H.
Qed.
Lemma good_next stk : good stk -> forall c stk', iter_next stk = Some (c, stk') ->
  good stk' /\ match c with CStep s => exists r, print_step (done_so_far stk') s = Some r | _ => True end.
Proof.
  induction stk as [|[i cs] out IH]; intros Hg c stk' H; [discriminate|]. cbn [iter_next] in H.
  destruct Hg as [[rs Hr] Hg]. destruct (nth_error cs i) as [x|] eqn:En.
  - injection H as -> <-. rewrite (skipn_nth _ _ _ En) in Hr. cbn [print_list] in Hr.
    destruct (print_cmd c (done_so_far out ++ [firstn i cs])) as [a|] eqn:Ea; [|discriminate].
    destruct (print_list (done_so_far out) (skipn (S i) cs) (firstn i cs ++ [c])) as [b|] eqn:Eb; [|discriminate].
    rewrite <- (firstn_nth _ _ _ En) in Eb.
    assert (Hp : done_so_far ((S i, cs) :: out) = done_so_far out ++ [firstn i cs]).
    { rewrite done_cons. unfold pre. cbn [fst snd]. replace (S i - 1) with i by lia. reflexivity. }
    assert (Hg' : good ((S i, cs) :: out)) by (split; eauto).
    destruct c as [id t|s|sub args k]; (split; [|auto]).
    + exact Hg'.
    + exact Hg'.
    + rewrite Hp. cbn [print_cmd] in Ea. destruct (print_step (done_so_far out ++ [firstn i cs]) s); [eauto|discriminate].
    + split; [|exact Hg']. cbn [skipn firstn]. rewrite Hp. rewrite print_sub in Ea.
      destruct (cmd_id (CSub sub args k)); [|discriminate].
      destruct (print_list (done_so_far out ++ [firstn i cs]) sub []) as [rs'|] eqn:Ers; [exists rs'; reflexivity|discriminate].
  - destruct out as [|e out']; [discriminate|]. apply IH; auto.
Qed.
Lemma yields_good proof rs : print_proof proof = Some rs -> forall c stk, yields proof c stk ->
  good stk /\ match c with CStep s => exists r, print_step (done_so_far stk) s = Some r | _ => True end.
Proof.
  intros Hp c stk H. induction H as [c stk H|c stk c' stk' H IH Hn].
  - eapply good_next; [|exact H]. split; [|exact Logic.I]. exists rs. exact Hp.
  - eapply good_next; [|exact Hn]. apply IH.
Qed.
Lemma mapo_In {A B} (f : A -> option B) l : forall ys, mapo f l = Some ys -> forall x, In x l -> exists y, f x = Some y.
Proof.
  induction l as [|a r IH]; intros ys H x Hx; [destruct Hx|]. cbn [mapo] in H. destruct (f a) eqn:Ea; [|discriminate].
  destruct (mapo f r) eqn:Er; [|discriminate]. destruct Hx as [<-|Hx]; eauto.
Qed.
Lemma nth_error_firstn {A} (l : list A) : forall n i x, nth_error (firstn n l) i = Some x -> nth_error l i = Some x /\ i < n.
Proof.
  induction l as [|y r IH]; intros [|n] [|i] x H; cbn in H; try discriminate; [split; [exact H|lia]|].
  apply IH in H. cbn. destruct H. split; auto. lia.
Qed.
Lemma lookup_visible stk p c : lookup (done_so_far stk) p = Some c -> visible stk p = true /\ get_command stk p = ROk c.
Proof.
  unfold lookup, done_so_far, visible, get_command. rewrite nth_error_map. destruct (nth_error (rev stk) (fst p)) as [[k cs]|]; [|discriminate].
  cbn [option_map]. unfold pre. cbn [fst snd]. intros H. apply nth_error_firstn in H. destruct H as [H1 H2].
  cbn [unwrap obind snd]. rewrite H1. split; [apply Nat.ltb_lt; lia|reflexivity].
Qed.
Lemma id_clause c i : cmd_id c = Some i -> exists cl, cmd_clause c = Some cl.
Proof.
  induction c as [id t|s|cs args k IH] using command_ind'; cbn [cmd_id cmd_clause]; eauto.
  induction IH as [|x r Hx Hr IHr]; [discriminate|]. destruct r as [|y r']; [exact Hx|exact IHr].
Qed.
Theorem print_follow proof rs : print_proof proof = Some rs -> forall s stk, yields proof (CStep s) stk ->
  forall p, In p (s_prems s ++ s_disch s) ->
  visible stk p = true /\ exists c cl, get_command stk p = ROk c /\ get_premise stk p = ROk cl.
Proof.
  intros Hp s stk Hy p Hin. destruct (yields_good _ _ Hp _ _ Hy) as [_ [r Hr]]. unfold print_step in Hr.
  destruct (mapo (ref_name (done_so_far stk)) (s_prems s)) eqn:E1; [|discriminate].
  destruct (mapo (ref_name (done_so_far stk)) (s_disch s)) eqn:E2; [|discriminate].
  assert (Hn : exists n, ref_name (done_so_far stk) p = Some n).
  { apply in_app_iff in Hin. destruct Hin as [Hin|Hin]; [apply (mapo_In _ _ _ E1 _ Hin)|apply (mapo_In _ _ _ E2 _ Hin)]. }
  destruct Hn as [n Hn]. unfold ref_name in Hn. destruct (lookup (done_so_far stk) p) as [c|] eqn:El; [|discriminate].
  destruct (lookup_visible _ _ _ El) as [Hv Hc]. split; [exact Hv|]. destruct (id_clause _ _ Hn) as [cl Hcl].
  exists c, cl. split; auto. unfold get_premise. rewrite Hc. cbn [obind]. rewrite Hcl. reflexivity.
Qed.

(** ** Soundness of the checker for parsed proofs *)
Section Loose.
  Variable side : bool -> string -> rargs -> bool.
  (** the conditions of [wf_proof] without the visibility of the premises *)
  Definition loose_step (stk : stack) (cx : list (list anchor)) (s : step) : bool :=
    forallb (prem_closed stk cx) (s_prems s)
    && match mk_rargs stk cx s with ROk ra => side (is_end_step stk) (s_rule s) ra | _ => true end.
  Fixpoint loose_cmd (c : command) (stk : stack) (cx : list (list anchor)) {struct c} : bool :=
    match c with
    | CAssume _ _ => true
    | CStep s => loose_step stk cx s
    | CSub sub args _ =>
        (fix go (l : list command) (i : nat) {struct l} : bool :=
           match l with [] => true | x :: r => loose_cmd x ((S i, sub) :: stk) (args :: cx) && go r (S i) end) sub 0
    end.
  Fixpoint loose_list (sub : list command) (out : stack) (cx : list (list anchor)) (l : list command) (i : nat) : bool :=
    match l with [] => true | x :: r => loose_cmd x ((S i, sub) :: out) cx && loose_list sub out cx r (S i) end.
  Definition loose_proof (proof : list command) : bool := loose_list proof [] [] proof 0.
  Lemma loose_sub sub args k stk cx : loose_cmd (CSub sub args k) stk cx = loose_list sub stk (args :: cx) sub 0.
  Proof.
    cbn [loose_cmd]. generalize 0. assert (H : forall l n,
      (fix go (l : list command) (i : nat) {struct l} : bool :=
           match l with [] => true | x :: r => loose_cmd x ((S i, sub) :: stk) (args :: cx) && go r (S i) end) l n
      = loose_list sub stk (args :: cx) l n).
    { induction l as [|x r IH]; intros n; [reflexivity|]. cbn [loose_list]. f_equal. apply IH. }
    intros n. apply H.
  Qed.
  Lemma loose_wf_list (sub : list command) out cx l : Forall (fun c => forall stk cx rs,
      print_cmd c (done_so_far stk) = Some rs -> loose_cmd c stk cx = true -> wf_cmd side c stk cx = true) l ->
    forall l0 rs, sub = l0 ++ l -> print_list (done_so_far out) l l0 = Some rs ->
    loose_list sub out cx l (List.length l0) = true -> wf_list side sub out cx l (List.length l0) = true.
  Proof.
    induction 1 as [|x r Hx Hr IH]; intros l0 rs Hs Hp Hl; [reflexivity|]. cbn [print_list loose_list wf_list] in *.
    apply andb_true_iff in Hl. destruct Hl as [Hl1 Hl2].
    destruct (print_cmd x (done_so_far out ++ [l0])) as [a|] eqn:Ea; [|discriminate].
    destruct (print_list (done_so_far out) r (l0 ++ [x])) as [b|] eqn:Eb; [|discriminate].
    apply andb_true_iff. split.
    - eapply Hx; eauto. rewrite done_cons. unfold pre. cbn [fst snd]. replace (S (List.length l0) - 1) with (List.length l0) by lia.
      rewrite Hs, firstn_app, firstn_all, Nat.sub_diag. cbn [firstn]. rewrite app_nil_r. exact Ea.
    - assert (E : S (List.length l0) = List.length (l0 ++ [x])) by (rewrite app_length; cbn; lia).
      rewrite E in *. apply (IH (l0 ++ [x]) b); auto. rewrite <- app_assoc. exact Hs.
  Qed.
  Lemma loose_wf_cmd c : forall stk cx rs,
    print_cmd c (done_so_far stk) = Some rs -> loose_cmd c stk cx = true -> wf_cmd side c stk cx = true.
  Proof.
    induction c as [id t|s|sub args k IH] using command_ind'; intros stk cx rs Hp Hl; [reflexivity| |].
    - cbn [print_cmd loose_cmd wf_cmd] in *. destruct (print_step (done_so_far stk) s) as [r|] eqn:Er; [|discriminate].
      unfold loose_step in Hl. apply andb_true_iff in Hl. destruct Hl as [H1 H2]. unfold wf_step. rewrite H1, H2, !andb_true_r.
      unfold print_step in Er. destruct (mapo (ref_name (done_so_far stk)) (s_prems s)) eqn:E1; [|discriminate].
      apply forallb_forall. intros p Hin. destruct (mapo_In _ _ _ E1 _ Hin) as [n Hn]. unfold ref_name in Hn.
      destruct (lookup (done_so_far stk) p) as [c|] eqn:El; [|discriminate]. apply (lookup_visible _ _ _ El).
    - rewrite wf_sub. rewrite loose_sub in Hl. rewrite print_sub in Hp. destruct (cmd_id (CSub sub args k)); [|discriminate].
      destruct (print_list (done_so_far stk) sub []) as [r|] eqn:Er; [|discriminate].
      apply (loose_wf_list sub stk (args :: cx) sub IH [] r); auto.
  Qed.
  Theorem loose_wf proof rs : print_proof proof = Some rs -> loose_proof proof = true -> wf_proof side proof = true.
  Proof.
    intros Hp Hl. apply (loose_wf_list proof [] [] proof) with (l0 := []) (rs := rs); auto.
    apply Forall_forall. intros c _. apply loose_wf_cmd.
  Qed.
End Loose.

(** ** Printing a parsed proof and parsing the text again *)
Definition raw_ids (rs : list raw) : list string :=
  flat_map (fun r => match r with RwAssume id _ => [id] | RwStep id _ _ _ _ _ => [id] | _ => [] end) rs.
(** no discharged id, taken relative to the id of its step, is itself the id of a command *)
Definition unambiguous (rs : list raw) : Prop :=
  forall id cl rule ps args ds, In (RwStep id cl rule ps args ds) rs ->
  forall d, In d ds -> ~ In (absolute id d) (raw_ids rs).
Lemma raw_ids_app a b : raw_ids (a ++ b) = raw_ids a ++ raw_ids b.
Proof. apply flat_map_app. Qed.
Lemma unamb_app a b : unambiguous (a ++ b) -> unambiguous a.
Proof.
  intros H id cl rule ps args ds Hin d Hd Hn. apply (H id cl rule ps args ds) with (d := d); auto.
  - apply in_app_iff. auto.
  - rewrite raw_ids_app. apply in_app_iff. auto.
Qed.
Lemma parse_cmds_app a : forall st b, parse_cmds st (a ++ b) = do st' <- parse_cmds st a ; parse_cmds st' b.
Proof.
  induction a as [|r a IH]; intros st b; [reflexivity|]. cbn [parse_cmds app]. destruct (parse_cmd st r); cbn; auto.
Qed.
Definition inv2 (st : pstate) : Prop := exists rs, rend (ps_frames st) = Some rs /\
  (forall p id, ref_name (scopes (ps_frames st)) p = Some id -> In id (raw_ids rs)) /\
  (unambiguous rs -> parse_cmds ps0 rs = ROk st).
Lemma discharge_again fs ids root rsids : Forall2 agree fs ids -> uniq_refs (scopes fs) ->
  (forall p id, ref_name (scopes fs) p = Some id -> In id rsids) -> forall ds names,
  mapo (ref_name (scopes fs)) ds = Some names -> (forall d, In d names -> ~ In (absolute root d) rsids) ->
  omap (parse_discharge ids root) names = ROk ds.
Proof.
  intros Ha Hu Hids. induction ds as [|p ds IH]; intros ns H Hn; cbn [mapo] in H; [injection H as <-; reflexivity|].
  destruct (ref_name (scopes fs) p) as [x|] eqn:Ex; [|discriminate].
  destruct (mapo (ref_name (scopes fs)) ds) as [ys|] eqn:Ey; [|discriminate]. injection H as <-. cbn [omap].
  assert (Hx : parse_discharge ids root x = ROk p).
  { unfold parse_discharge. destruct (hs_get_depth String.eqb ids (absolute root x)) as [q|] eqn:Eq.
    - exfalso. apply (Hn x); [left; reflexivity|]. apply (Hids q). eapply depth_name; eauto.
    - rewrite (name_depth_uniq _ _ x p Ha Hu Ex). reflexivity. }
  rewrite Hx. cbn [obind]. rewrite (IH ys eq_refl) by (intros d Hd; apply Hn; right; exact Hd). reflexivity.
Qed.
Lemma add_inv2 id c st st' r rs : cmd_id c = Some id -> sinv st -> add_command id c st = ROk st' ->
  raw_ids [r] = [id] -> print_cmd c (scopes (ps_frames st)) = Some [r] ->
  rend (ps_frames st) = Some rs -> (forall p i, ref_name (scopes (ps_frames st)) p = Some i -> In i (raw_ids rs)) ->
  rend (ps_frames st') = Some (rs ++ [r]) /\
  (forall p i, ref_name (scopes (ps_frames st')) p = Some i -> In i (raw_ids (rs ++ [r]))).
Proof.
  intros Hc Hs H Hr Hp Hrs Hids. destruct (add_command_ok _ _ _ _ H Hc Hs) as [f [out [Ef [_ [_ [_ Hcase]]]]]]. rewrite Ef in *.
  assert (Hnew : forall p i, ref_name (scopes out ++ [f_cmds f ++ [c]]) p = Some i -> In i (raw_ids (rs ++ [r]))).
  { intros p i Hp'. rewrite raw_ids_app, Hr, in_app_iff. apply ref_push in Hp'. destruct Hp' as [Hp'|[_ Hp']].
    - left. apply (Hids p). rewrite scopes_cons. exact Hp'.
    - right. left. congruence. }
  destruct Hcase as [[_ ->]|[g [out' [He [-> [_ [_ ->]]]]]]].
  - split; [rewrite rend_push, Hrs, Hp; reflexivity|]. rewrite scopes_cons. exact Hnew.
  - split; [rewrite rend_close by congruence; rewrite rend_push, Hrs, Hp; reflexivity|].
    rewrite scopes_cons. cbn [push_cmd f_cmds]. intros p i Hp'. apply ref_push in Hp'. destruct Hp' as [Hp'|[_ Hp']].
    + rewrite raw_ids_app, in_app_iff. left. apply (Hids p). rewrite scopes_cons. apply ref_outer. rewrite scopes_cons. exact Hp'.
    + rewrite sub_id in Hp'. rewrite raw_ids_app, Hr, in_app_iff. right. left. congruence.
Qed.
Lemma cmd_inv2 st r st' : sinv st -> inv2 st -> parse_cmd st r = ROk st' -> inv2 st'.
Proof.
  intros Hs [rs [Hrs [Hids Hun]]] H. pose proof H as H0. unfold parse_cmd in H. unfold parse_cmd in H0.
  destruct (ps_frames st) as [|f out] eqn:Ef; [discriminate|]. destruct r as [id t|id cl rule prems args disch|e args|].
  - destruct (f_stepped f && negb (List.length (f :: out) =? 1)) eqn:Es; [discriminate|].
    destruct (add_inv2 id (CAssume id t) st st' (RwAssume id t) rs) as [H1 H2]; auto; try (rewrite Ef; auto).
    exists (rs ++ [RwAssume id t]). split; auto. split; auto. intros Hu. rewrite parse_cmds_app, (Hun (unamb_app _ _ Hu)).
    cbn [obind parse_cmds]. unfold parse_cmd. rewrite Ef, Es, H0. reflexivity.
  - apply obind_ok in H. destruct H as [ps [Hp H]]. apply obind_ok in H. destruct H as [ds [Hd H]]. clear H0.
    destruct Hs as [Ha Hu]. rewrite Ef in Ha, Hu. pose proof (premises_ok _ _ Ha _ _ Hp) as Hp'.
    destruct (discharge_ok _ _ id Ha _ _ Hd) as [names [Hd' Hdn]].
    set (c := CStep _) in H. set (st1 := mkPS _ _ _) in H. set (r := RwStep id cl rule prems args names).
    assert (Hsc : scopes (ps_frames st1) = scopes (f :: out)) by (unfold st1; cbn [ps_frames]; rewrite !scopes_cons; reflexivity).
    assert (Hs1 : sinv st1).
    { split; [|rewrite Hsc; exact Hu]. unfold st1. cbn [ps_frames ps_ids]. inversion Ha; subst. constructor; auto. }
    destruct (add_inv2 id c st1 st' r rs) as [H1 H2]; auto.
    { rewrite Hsc. unfold c. cbn [print_cmd]. unfold print_step. cbn [s_prems s_disch s_id s_clause s_rule s_args]. rewrite Hp', Hd'. reflexivity. }
    { rewrite Hsc. exact Hids. }
    exists (rs ++ [r]). split; auto. split; auto. intros Hunamb. rewrite parse_cmds_app, (Hun (unamb_app _ _ Hunamb)).
    cbn [obind parse_cmds]. unfold parse_cmd. rewrite Ef. unfold r. rewrite Hp. cbn [obind].
    rewrite (discharge_again (f :: out) (ps_ids st) id (raw_ids rs) Ha Hu Hids ds names Hd').
    + cbn [obind]. fold c st1. rewrite H. reflexivity.
    + intros d Hin Hn. apply (Hunamb id cl rule prems args names) with (d := d); auto.
      * apply in_app_iff. right. left. reflexivity.
      * rewrite raw_ids_app. apply in_app_iff. auto.
  - injection H as <-. unfold inv2. cbn [ps_frames]. exists (rs ++ [RwAnchor e args]). split; [|split].
    + assert (E : rend (mkFr [] args (ps_next st) e false :: f :: out) = appo (rend (f :: out)) (Some [RwAnchor e args])) by reflexivity.
      rewrite E, Hrs. reflexivity.
    + intros p i Hp. rewrite (scopes_cons (mkFr [] args (ps_next st) e false)) in Hp. cbn [f_cmds] in Hp. rewrite raw_ids_app. cbn. rewrite app_nil_r.
      apply (Hids p). unfold ref_name in *. destruct (lookup (scopes (f :: out) ++ [[]]) p) eqn:E; [|discriminate].
      apply lookup_cases in E. destruct E as [[_ E]|[_ E]]; [rewrite E; auto|destruct (snd p); discriminate].
    + intros Hu. rewrite parse_cmds_app, (Hun (unamb_app _ _ Hu)). cbn [obind parse_cmds]. unfold parse_cmd. rewrite Ef. reflexivity.
  - injection H as <-. exists rs. rewrite Ef. auto.
Qed.
Lemma inv2_0 : inv2 ps0.
Proof.
  exists []. split; [reflexivity|]. split; [|reflexivity]. intros p id H. exfalso. unfold ref_name, lookup in H. cbn in H.
  destruct (fst p) as [|[|k]]; cbn in H; try destruct (snd p); discriminate.
Qed.
Lemma cmds_inv2 rs : forall done st st', inv done st -> inv2 st -> parse_cmds st rs = ROk st' -> inv2 st'.
Proof.
  induction rs as [|r rs IH]; intros done st st' Hi Hi2 H; cbn [parse_cmds] in H; [injection H as <-; exact Hi2|].
  apply obind_ok in H. destruct H as [st1 [H1 H]]. apply (IH (done ++ [r]) st1); auto.
  - eapply cmd_inv; eauto.
  - eapply cmd_inv2; eauto. apply (i_ids _ _ Hi).
Qed.
Theorem print_parse rs0 proof : parse_proof rs0 = ROk proof ->
  exists rs, print_proof proof = Some rs /\ (unambiguous rs -> parse_proof rs = ROk proof).
Proof.
  intros H. unfold parse_proof in H. apply obind_ok in H. destruct H as [st [H1 H]].
  destruct (ps_frames st) as [|f [|g out]] eqn:Ef; try discriminate. injection H as <-.
  destruct (cmds_inv2 _ _ _ _ inv0 inv2_0 H1) as [rs [Hrs [_ Hu]]]. rewrite Ef in Hrs. exists rs. split; [exact Hrs|].
  intros Hun. unfold parse_proof. rewrite (Hu Hun). cbn [obind]. rewrite Ef. reflexivity.
Qed.

(** ** Panics of the parser's main loop *)
Definition cmd_named (r : raw) : bool :=
  match r with RwAssume id _ | RwStep id _ _ _ _ _ => negb (String.eqb id "") | _ => true end.
Definition frames_ok (st : pstate) : Prop :=
  List.length (ps_frames st) = List.length (ps_ids st) /\ (exists fs f, ps_frames st = fs ++ [f] /\ f_end f = ""%string).
Lemma omap_nopanic {A B} (f : A -> outcome B) l : (forall x, f x <> RPanic) -> omap f l <> RPanic.
Proof.
  intros H. induction l as [|x r IH]; cbn [omap]; [discriminate|]. specialize (H x). destruct (f x); cbn [obind]; try congruence.
  destruct (omap f r); cbn [obind]; congruence.
Qed.
Lemma add_command_frames id c st : id <> ""%string -> frames_ok st ->
  add_command id c st <> RPanic /\ forall st', add_command id c st = ROk st' -> frames_ok st'.
Proof.
  intros Hid [Hl [fs [f [Hf He]]]]. unfold add_command. destruct st as [frs ids nx]. cbn [ps_frames ps_ids ps_next] in *. subst frs.
  destruct (hs_get String.eqb ids id); [split; [discriminate|intros; discriminate]|].
  destruct fs as [|g fs]; cbn [app] in *.
  - rewrite He. destruct (String.eqb_spec "" id); [congruence|]. destruct ids as [|m [|? ?]]; cbn in Hl; try lia.
    cbn. split; [discriminate|]. intros st' H. injection H as <-. split; [reflexivity|]. exists [], (push_cmd f c). auto.
  - destruct ids as [|m ids]; [cbn in Hl; lia|]. cbn [List.length] in Hl. destruct (String.eqb (f_end g) id).
    + destruct ids as [|m' ids]; [rewrite app_length in Hl; cbn in Hl; lia|]. cbn [hs_pop obind].
      unfold rassert. destruct (2 <=? _); cbn [obind]; [|split; [discriminate|intros; discriminate]].
      destruct (is_step c); cbn [obind]; [|split; [discriminate|intros; discriminate]].
      destruct fs as [|h fs]; cbn [app hs_insert obind].
      * split; [discriminate|]. intros st' H. injection H as <-. split; [cbn in *; lia|]. cbn [ps_frames].
        exists [], (push_cmd f (CSub (f_cmds g ++ [c]) (f_args g) (f_ctx g))). auto.
      * split; [discriminate|]. intros st' H. injection H as <-. split; [cbn in *; lia|]. cbn [ps_frames].
        exists (push_cmd h (CSub (f_cmds g ++ [c]) (f_args g) (f_ctx g)) :: fs), f. auto.
    + cbn [hs_insert obind]. split; [discriminate|]. intros st' H. injection H as <-. split; [cbn in *; lia|]. cbn [ps_frames].
      exists (push_cmd g c :: fs), f. auto.
Qed.
Lemma parse_cmd_frames st r : frames_ok st -> cmd_named r = true ->
  parse_cmd st r <> RPanic /\ forall st', parse_cmd st r = ROk st' -> frames_ok st'.
Proof.
  intros Hf Hn. pose proof Hf as [Hl [fs [f [Hfs He]]]]. unfold parse_cmd.
  destruct (ps_frames st) as [|g out] eqn:Ef; [destruct fs; discriminate|].
  destruct r as [id t|id cl rule prems args disch|e args|]; cbn [cmd_named] in Hn.
  - destruct (f_stepped g && negb (List.length (g :: out) =? 1)); [split; [discriminate|intros; discriminate]|].
    apply add_command_frames; auto. destruct (String.eqb_spec id ""); [discriminate|auto].
  - assert (H1 : omap (parse_premise (ps_ids st)) prems <> RPanic).
    { apply omap_nopanic. intros x. unfold parse_premise, ok_or. destruct (hs_get_depth _ _ _); discriminate. }
    destruct (omap (parse_premise (ps_ids st)) prems) as [ps| |]; cbn [obind]; try congruence; [|split; [discriminate|intros; discriminate]].
    assert (H2 : omap (parse_discharge (ps_ids st) id) disch <> RPanic).
    { apply omap_nopanic. intros x. unfold parse_discharge, ok_or. destruct (hs_get_depth _ _ (absolute id x)); [discriminate|].
      destruct (hs_get_depth _ _ x); discriminate. }
    destruct (omap (parse_discharge (ps_ids st) id) disch) as [ds| |]; cbn [obind]; try congruence; [|split; [discriminate|intros; discriminate]].
    apply add_command_frames; [destruct (String.eqb_spec id ""); [discriminate|auto]|].
    split; cbn [ps_frames ps_ids]; [exact Hl|]. destruct fs as [|h fs]; cbn [app] in Hfs; injection Hfs as -> ->.
    + exists [], (set_stepped f). auto.
    + exists (set_stepped h :: fs), f. auto.
  - split; [discriminate|]. intros st' H. injection H as <-. split; cbn [ps_frames ps_ids List.length hs_push] in *; [lia|].
    rewrite Hfs. exists (mkFr [] args (ps_next st) e false :: fs), f. auto.
  - split; [discriminate|]. intros st' H. injection H as <-. exact Hf.
Qed.
Lemma parse_cmds_frames rs : forall st, frames_ok st -> forallb cmd_named rs = true ->
  parse_cmds st rs <> RPanic /\ forall st', parse_cmds st rs = ROk st' -> frames_ok st'.
Proof.
  induction rs as [|r rs IH]; intros st Hf Hn; cbn [parse_cmds].
  - split; [discriminate|]. intros st' H. injection H as <-. exact Hf.
  - cbn [forallb] in Hn. apply andb_true_iff in Hn. destruct Hn as [Hr Hn]. destruct (parse_cmd_frames st r Hf Hr) as [H1 H2].
    destruct (parse_cmd st r) as [st1| |]; cbn [obind]; [|split; [discriminate|intros; discriminate]|congruence].
    apply IH; auto.
Qed.
Theorem parse_no_panic rs : forallb cmd_named rs = true -> parse_proof rs <> RPanic.
Proof.
  intros Hn. unfold parse_proof. assert (H0 : frames_ok ps0) by (split; [reflexivity|exists [], (mkFr [] [] 0 "" false); auto]).
  destruct (parse_cmds_frames rs ps0 H0 Hn) as [H1 H2]. destruct (parse_cmds ps0 rs) as [st| |]; cbn [obind]; try congruence.
  specialize (H2 st eq_refl). destruct H2 as [_ [fs [f [Hf _]]]]. rewrite Hf. destruct fs as [|g [|h fs]]; cbn; discriminate.
Qed.
