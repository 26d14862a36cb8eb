(** slice.rs: the slice of a proof with unique ids and tidy subproofs contains what the step depends on, with intact references. *)
From Coq Require Import List String ZArith Bool Arith Lia.
From Verif Require Import Base Term Rules Utils Checker CheckerSound Parser ParserSound Nodes Slice SliceSound SliceCopy.
Import ListNotations.

(** ** Ids of assumptions and of steps *)
Fixpoint aids (c : command) : list string := match c with CAssume i _ => [i] | CStep _ => [] | CSub cs _ _ => flat_map aids cs end.
Fixpoint sids (c : command) : list string := match c with CAssume _ _ => [] | CStep s => [s_id s] | CSub cs _ _ => flat_map sids cs end.
Lemma aids_all c i : In i (aids c) -> In i (all_ids c).
Proof.
  induction c as [j t|s|cs a k IH] using command_ind'; cbn [aids all_ids]; auto; [intros []|].
  rewrite !in_flat_map. rewrite Forall_forall in IH. intros [x [Hx Hi]]. eauto.
Qed.
Lemma sids_all c i : In i (sids c) -> In i (all_ids c).
Proof.
  induction c as [j t|s|cs a k IH] using command_ind'; cbn [sids all_ids]; auto; [intros []|].
  rewrite !in_flat_map. rewrite Forall_forall in IH. intros [x [Hx Hi]]. eauto.
Qed.
Lemma same_cmd (l : list command) x y i : NoDup (flat_map all_ids l) -> In x l -> In y l -> In i (all_ids x) -> In i (all_ids y) -> x = y.
Proof.
  intros Hn Hx Hy Hi Hj. apply in_split in Hx. destruct Hx as [a [b ->]]. rewrite flat_map_app in Hn. cbn [flat_map] in Hn. apply NoDup_app_iff' in Hn.
  destruct Hn as [_ [Hn1 Hn2]]. apply NoDup_app_iff' in Hn1. destruct Hn1 as [_ [_ Hn3]]. apply in_app_iff in Hy. destruct Hy as [Hy|[Hy|Hy]]; auto.
  - exfalso. apply (Hn2 i); [apply in_flat_map; eauto|apply in_app_iff; auto].
  - exfalso. apply (Hn3 i Hi). apply in_flat_map. eauto.
Qed.
Lemma kinds c : NoDup (all_ids c) -> forall i, In i (aids c) -> In i (sids c) -> False.
Proof.
  induction c as [j t|s|cs a k IH] using command_ind'; cbn [aids sids]; intros Hn i H1 H2; try contradiction.
  apply in_flat_map in H1. destruct H1 as [x [Hx Hi]]. apply in_flat_map in H2. destruct H2 as [y [Hy Hj]].
  assert (x = y) by (eapply (same_cmd cs); eauto using aids_all, sids_all). subst y. rewrite Forall_forall in IH. apply (IH x Hx) with i; auto.
  eapply NoDup_flat_In; eauto.
Qed.
Lemma kinds_list l : NoDup (flat_map all_ids l) -> forall i, In i (flat_map aids l) -> In i (flat_map sids l) -> False.
Proof. intros Hn i H1 H2. apply (kinds (CSub l [] 0)) with i; auto. Qed.
Lemma target_sid id c : has_target id c = true -> In id (sids c).
Proof.
  induction c as [j t|s|cs a k IH] using command_ind'; cbn [has_target sids]; intros H; [discriminate|apply String.eqb_eq in H; left; exact H|].
  apply existsb_exists in H. destruct H as [x [Hx H]]. apply in_flat_map. exists x. split; [exact Hx|]. rewrite Forall_forall in IH. auto.
Qed.
Lemma sid_target id c : In id (sids c) -> has_target id c = true.
Proof.
  induction c as [j t|s|cs a k IH] using command_ind'; cbn [has_target sids]; intros H; [destruct H|destruct H as [->|[]]; apply String.eqb_refl|].
  apply in_flat_map in H. destruct H as [x [Hx H]]. apply existsb_exists. exists x. split; [exact Hx|]. rewrite Forall_forall in IH. auto.
Qed.
Lemma lead_aids l i : In i (lead_ids l) -> In i (flat_map aids l).
Proof. induction l as [|[j t|s|cs a k] l IH]; cbn; try tauto. Qed.
Lemma subs_trans c S : In S (subs_cmd c) -> forall i, (In i (flat_map aids S) -> In i (aids c)) /\ (In i (flat_map sids S) -> In i (sids c)).
Proof.
  induction c as [j t|s|cs a k IH] using command_ind'; cbn [subs_cmd]; intros HS i; try contradiction.
  destruct HS as [<-|HS]; [cbn; auto|]. apply in_flat_map in HS. destruct HS as [x [Hx HS]]. rewrite Forall_forall in IH. destruct (IH x Hx HS i) as [H1 H2].
  cbn [aids sids]. split; intros H; apply in_flat_map; exists x; auto.
Qed.

(** ** Places *)
Lemma place_uniq l : forall sub sc pre x y, NoDup (flat_map all_ids l) -> Forall (fun c => forall e sc x y, NoDup (all_ids c) -> In x (flat_cmd c e sc) -> In y (flat_cmd c e sc) -> s_id (fst x) = s_id (fst y) -> x = y) l ->
  In x (flat_list sub sc l pre) -> In y (flat_list sub sc l pre) -> s_id (fst x) = s_id (fst y) -> x = y.
Proof.
  induction l as [|c l IH]; intros sub sc pre x y Hn Hf Hx Hy He; [destruct Hx|]. cbn [flat_list flat_map] in *. inversion Hf as [|? ? Hf1 Hf2]; subst.
  apply NoDup_app_iff' in Hn. destruct Hn as [Hn1 [Hn2 Hn3]]. apply in_app_iff in Hx. apply in_app_iff in Hy. destruct Hx as [Hx|Hx], Hy as [Hy|Hy].
  - eapply Hf1; eauto.
  - exfalso. apply flat_ids in Hx. apply flat_list_ids in Hy. apply (Hn3 _ Hx). rewrite He. exact Hy.
  - exfalso. apply flat_ids in Hy. apply flat_list_ids in Hx. apply (Hn3 _ Hy). rewrite <- He. exact Hx.
  - eapply IH; eauto.
Qed.
Lemma place_uniq_cmd c : forall e sc x y, NoDup (all_ids c) -> In x (flat_cmd c e sc) -> In y (flat_cmd c e sc) -> s_id (fst x) = s_id (fst y) -> x = y.
Proof.
  induction c as [j t|s|cs a k IH] using command_ind'; intros e sc x y Hn Hx Hy He; [destruct Hx|destruct Hx as [<-|[]]; destruct Hy as [<-|[]]; reflexivity|].
  rewrite flat_sub in *. eapply place_uniq; eauto.
Qed.
Lemma place_uniq_top l x y : NoDup (flat_map all_ids l) -> In x (flat_list false [] l []) -> In y (flat_list false [] l []) -> s_id (fst x) = s_id (fst y) -> x = y.
Proof. intros Hn. apply place_uniq; auto. apply Forall_forall. intros c _. apply place_uniq_cmd. Qed.
(** the place of the last step of a subproof *)
Definition sub_place (S : list command) (places : list place) : Prop :=
  exists b s sc, S = b ++ [CStep s] /\ b <> [] /\ forallb shape_ok b = true /\ In (s, (true, sc ++ [b])) places /\ closes (List.length sc) (lead b) (CStep s) = true.
Lemma sub_place_list (Q : command -> Prop) S :
  (forall c, Q c -> forall e sc, shape_ok c = true -> tidy (List.length sc) c = true -> In S (subs_cmd c) -> forall pre, sub_place S (flat_cmd c e (sc ++ [pre]))) ->
  forall l, Forall Q l -> forall sub sc pre, forallb shape_ok l = true -> forallb (tidy (List.length sc)) l = true -> In S (flat_map subs_cmd l) -> sub_place S (flat_list sub sc l pre).
Proof.
  intros HQ l Hl. induction Hl as [|c l Hc Hl IH]; intros sub sc pre Hs Ht HS; [destruct HS|]. cbn [forallb flat_map flat_list] in *.
  apply andb_true_iff in Hs. destruct Hs as [Hs1 Hs2]. apply andb_true_iff in Ht. destruct Ht as [Ht1 Ht2]. apply in_app_iff in HS.
  assert (Hw : forall p q, sub_place S p \/ sub_place S q -> sub_place S (p ++ q)).
  { intros p q [H|H]; destruct H as [b [s [sc' [H1 [H2 [H3 [H4 H5]]]]]]]; exists b, s, sc'; rewrite in_app_iff; auto 10. }
  apply Hw. destruct HS as [HS|HS]; [left; apply HQ; auto|right; apply IH; auto].
Qed.
Lemma sub_place_cmd S c : forall e sc, shape_ok c = true -> tidy (List.length sc) c = true -> In S (subs_cmd c) -> forall pre, sub_place S (flat_cmd c e (sc ++ [pre])).
Proof.
  induction c as [j t|s|cs a k IH] using command_ind'; intros e sc Hs Ht HS pre; try contradiction.
  destruct (shape_list _ _ _ Hs) as [b [s [-> [Hb Hsb]]]]. rewrite tidy_sub in Ht. rewrite !andb_true_iff in Ht. destruct Ht as [_ [Ht1 Hcl]].
  destruct (lead_snoc b s) as [Hl1 Hl2]. rewrite Hl1 in Hcl.
  rewrite flat_sub, flat_snoc. destruct HS as [<-|HS].
  - exists b, s, (sc ++ [pre]). rewrite in_app_iff. repeat split; auto; [right; left; reflexivity|]. rewrite app_length. cbn [List.length]. rewrite Nat.add_1_r. exact Hcl.
  - rewrite flat_map_app in HS. cbn in HS. rewrite app_nil_r in HS. apply Forall_app in IH. destruct IH as [IH _].
    assert (H : sub_place S (flat_list false (sc ++ [pre]) b [])).
    { apply (sub_place_list (fun c => forall e sc, shape_ok c = true -> tidy (List.length sc) c = true -> In S (subs_cmd c) -> forall pre, sub_place S (flat_cmd c e (sc ++ [pre])))); auto.
      rewrite app_length. cbn [List.length]. rewrite Nat.add_1_r. exact Ht1. }
    destruct H as [b' [s' [sc' [H1 [H2 [H3 [H4 H5]]]]]]]; exists b', s', sc'; rewrite in_app_iff; auto 10.
Qed.
Lemma sub_place_top l S : forallb shape_ok l = true -> forallb (tidy 0) l = true -> In S (flat_map subs_cmd l) -> sub_place S (flat_list false [] l []).
Proof.
  intros Hs Ht HS. apply (sub_place_list (fun _ => True)); auto; [|apply Forall_forall; auto].
  intros c _ e sc H1 H2 H3 pre. apply sub_place_cmd; auto.
Qed.
Lemma closes_lead sc b s : closes (List.length sc) (lead b) (CStep s) = true -> forall i, In i (lead_ids b) -> In i (named_refs (sc ++ [b]) (s_disch s)).
Proof.
  intros Hc i Hi. cbn [closes] in Hc. rewrite !andb_true_iff in Hc. destruct Hc as [_ Hc]. rewrite forallb_forall in Hc.
  assert (H : exists j, j < lead b /\ match nth_error b j with Some c => cmd_id c = Some i | None => False end).
  { clear Hc. revert i Hi. induction b as [|[j t|s'|cs a k] b IH]; cbn [lead_ids lead]; intros i Hi; try contradiction. destruct Hi as [<-|Hi]; [exists 0; cbn; split; [lia|reflexivity]|].
    destruct (IH _ Hi) as [q [Hq1 Hq2]]. exists (S q). cbn. split; [lia|exact Hq2]. }
  destruct H as [j [Hj1 Hj2]]. assert (Hin : In j (seq 0 (lead b))) by (apply in_seq; lia). specialize (Hc _ Hin). apply existsb_exists in Hc. destruct Hc as [[d q] [Hp1 Hp2]].
  unfold pair_eqb in Hp2. cbn [fst snd] in Hp2. apply andb_true_iff in Hp2. destruct Hp2 as [Hd Hq]. apply Nat.eqb_eq in Hd, Hq. subst d q.
  unfold named_refs. apply in_flat_map. exists (List.length sc, j). split; [exact Hp1|]. unfold ref_name, lookup. cbn [fst snd]. rewrite nth_error_app2, Nat.sub_diag by lia. cbn [nth_error].
  destruct (nth_error b j); [|contradiction]. rewrite Hj2. left. reflexivity.
Qed.

(** ** Subproofs are nested or disjoint *)
Lemma laminar_list (Q : command -> Prop) l :
  (forall c, Q c -> shape_ok c = true -> NoDup (all_ids c) -> forall P S j id, In P (subs_cmd c) -> In S (subs_cmd c) -> In j (names P) -> In j (inner S) -> In id (flat_map all_ids P) -> In id (flat_map all_ids S)) ->
  Forall Q l -> forallb shape_ok l = true -> NoDup (flat_map all_ids l) -> forall P S j id, In P (flat_map subs_cmd l) -> In S (flat_map subs_cmd l) -> In j (names P) -> In j (inner S) ->
  In id (flat_map all_ids P) -> In id (flat_map all_ids S).
Proof.
  intros HQ Hl Hs Hn P S j id HP HS Hj1 Hj2 Hid. apply in_flat_map in HP. destruct HP as [x [Hx HP]]. apply in_flat_map in HS. destruct HS as [y [Hy HS]].
  rewrite forallb_forall in Hs. destruct (subs_shape x (Hs x Hx) P HP) as [[b [s [EP [Hb Hsb]]]] HPx]. destruct (subs_shape y (Hs y Hy) S HS) as [_ HSy].
  assert (x = y).
  { apply (same_cmd l x y j Hn Hx Hy).
    - apply HPx. apply names_ids; [|exact Hj1]. rewrite EP, forallb_app, Hsb. reflexivity.
    - apply HSy. apply inner_sub. exact Hj2. }
  subst y. rewrite Forall_forall in Hl. apply (HQ x (Hl x Hx) (Hs x Hx) (NoDup_flat_In l x Hn Hx) P S j id); auto.
Qed.
Lemma laminar_cmd c : shape_ok c = true -> NoDup (all_ids c) -> forall P S j id, In P (subs_cmd c) -> In S (subs_cmd c) -> In j (names P) -> In j (inner S) -> In id (flat_map all_ids P) -> In id (flat_map all_ids S).
Proof.
  induction c as [j0 t|s|cs a k IH] using command_ind'; intros Hs Hn P S j id HP HS Hj1 Hj2 Hid; try contradiction.
  assert (Hsl : forallb shape_ok cs = true) by (cbn [shape_ok] in Hs; apply andb_true_iff in Hs; apply Hs).
  destruct HS as [<-|HS]. { apply (subs_shape _ Hs P HP). exact Hid. }
  destruct HP as [<-|HP].
  - exfalso. apply in_flat_map in HS. destruct HS as [x [Hx HS]]. unfold names in Hj1. apply in_flat_map in Hj1. destruct Hj1 as [y [Hy Hj1]]. rewrite forallb_forall in Hsl.
    destruct (shape_id y (Hsl y Hy)) as [i [Hi Hin]]. rewrite Hi in Hj1. destruct Hj1 as [<-|[]].
    assert (x = y). { apply (same_cmd cs x y i Hn Hx Hy); [|exact Hin]. apply (subs_shape x (Hsl x Hx) S HS). apply inner_sub. exact Hj2. }
    subst y. exact (own_id x (Hsl x Hx) (NoDup_flat_In cs x Hn Hx) S i HS Hi Hj2).
  - apply (laminar_list (fun c => shape_ok c = true -> NoDup (all_ids c) -> forall P S j id, In P (subs_cmd c) -> In S (subs_cmd c) -> In j (names P) -> In j (inner S) -> In id (flat_map all_ids P) -> In id (flat_map all_ids S)) cs) with P j; auto.
Qed.
Lemma laminar l : forallb shape_ok l = true -> NoDup (flat_map all_ids l) -> forall P S j id, In P (flat_map subs_cmd l) -> In S (flat_map subs_cmd l) -> In j (names P) -> In j (inner S) ->
  In id (flat_map all_ids P) -> In id (flat_map all_ids S).
Proof. apply (laminar_list (fun _ => True)); [intros c _; apply laminar_cmd|apply Forall_forall; auto]. Qed.

Lemma first_target id l : existsb (has_target id) l = true -> exists a c b, l = a ++ c :: b /\ forallb (fun c => negb (has_target id c)) a = true /\ has_target id c = true.
Proof.
  induction l as [|c l IH]; cbn [existsb]; intros H; [discriminate|]. destruct (has_target id c) eqn:E.
  - exists [], c, l. auto.
  - destruct (IH H) as [a [c' [b [-> [H1 H2]]]]]. exists (c :: a), c', b. cbn [forallb app]. rewrite E, H1. auto.
Qed.
Lemma flat_top_app l1 l2 : flat_list false [] (l1 ++ l2) [] = flat_list false [] l1 [] ++ flat_list false [] l2 l1.
Proof. destruct l2 as [|c l2]; [cbn [flat_list]; rewrite !app_nil_r; reflexivity|]. apply flat_list_app. discriminate. Qed.

Lemma line_kind_list (l : list command) : Forall (fun c => forall sc ls r i, print_cmd c sc = Some ls -> shape_ok c = true -> In r ls -> raw_id r = Some i -> In i (sids c) \/ exists t, r = RwAssume i t) l ->
  forall sc pre ls r i, print_list sc l pre = Some ls -> forallb shape_ok l = true -> In r ls -> raw_id r = Some i -> In i (flat_map sids l) \/ exists t, r = RwAssume i t.
Proof.
  induction 1 as [|c l Hc Hl IH]; intros sc pre ls r i E Hs Hr Hi; cbn [print_list] in E; [injection E as <-; destruct Hr|].
  destruct (print_cmd c (sc ++ [pre])) as [o1|] eqn:E1; [|discriminate]. destruct (print_list sc l (pre ++ [c])) as [o2|] eqn:E2; [|discriminate]. injection E as <-.
  cbn [forallb flat_map] in *. apply andb_true_iff in Hs. rewrite in_app_iff. apply in_app_iff in Hr. destruct Hr as [Hr|Hr].
  - destruct (Hc _ _ _ _ E1 (proj1 Hs) Hr Hi); auto.
  - destruct (IH _ _ _ _ _ E2 (proj2 Hs) Hr Hi); auto.
Qed.
Lemma line_kind c : forall sc ls r i, print_cmd c sc = Some ls -> shape_ok c = true -> In r ls -> raw_id r = Some i -> In i (sids c) \/ exists t, r = RwAssume i t.
Proof.
  induction c as [j t|s|cs a k IH] using command_ind'; intros sc ls r i Hp Hs Hr Hi.
  - injection Hp as <-. destruct Hr as [<-|[]]. injection Hi as <-. right. eauto.
  - cbn [print_cmd] in Hp. unfold print_step in Hp. destruct (mapo _ (s_prems s)); [|discriminate]. destruct (mapo _ (s_disch s)); [|discriminate].
    injection Hp as <-. destruct Hr as [<-|[]]. injection Hi as <-. left. left. reflexivity.
  - destruct (shape_list _ _ _ Hs) as [b [s [Ecs _]]]. rewrite print_sub in Hp. destruct (cmd_id (CSub cs a k)) as [q|] eqn:Eq; [|discriminate].
    destruct (print_list sc cs []) as [rs|] eqn:E; [|discriminate]. injection Hp as <-. destruct Hr as [<-|Hr].
    + injection Hi as <-. left. rewrite Ecs, sub_id in Eq. injection Eq as <-. cbn [sids]. rewrite Ecs, flat_map_app, in_app_iff. right. left. reflexivity.
    + cbn [shape_ok] in Hs. apply andb_true_iff in Hs. eapply line_kind_list; eauto. apply Hs.
Qed.
Lemma line_kind_top l ls r i : print_proof l = Some ls -> forallb shape_ok l = true -> In r ls -> raw_id r = Some i -> In i (flat_map sids l) \/ exists t, r = RwAssume i t.
Proof. apply line_kind_list. apply Forall_forall. intros c _. apply line_kind. Qed.

Theorem slice_complete proof lines id D :
  forallb shape_ok proof = true -> print_proof proof = Some lines -> NoDup (flat_map all_ids proof) -> forallb (tidy 0) proof = true -> existsb (has_target id) proof = true ->
  exists sl asserts body i0, slice proof id D = ROk (Some (sl, asserts)) /\ print_proof sl = Some (body ++ [rw_end i0]) /\ cut lines body /\
    (forall n j r, needs proof n id j -> In r lines -> raw_id r = Some j -> (n <= D -> In r body) /\ (n <= S D -> present r body)) /\
    exists c, In c proof /\ has_target id c = true /\ cmd_id c = Some i0.
Proof.
  intros Hs Hpr Hn Ht Hid. destruct (first_target id proof Hid) as [a [c0 [b [Ep [Ha Hc0]]]]].
  destruct (edges_top_ok proof id a c0 b lines Ep Hs Hn Hpr Ha Hc0) as [m [Em [Hm1 Hm2]]].
  set (l1 := a ++ [c0]) in *. assert (Ep1 : proof = l1 ++ b) by (unfold l1; rewrite <- app_assoc; exact Ep).
  pose proof Hs as Hs'. rewrite Ep1, forallb_app in Hs'. apply andb_true_iff in Hs'. destruct Hs' as [Hs1 Hsb].
  pose proof Hn as Hn'. rewrite Ep1, flat_map_app in Hn'. apply NoDup_app_iff' in Hn'. destruct Hn' as [Hn1 [Hnb Hn1b]].
  pose proof Ht as Ht'. rewrite Ep1, forallb_app in Ht'. apply andb_true_iff in Ht'. destruct Ht' as [Ht1 _].
  assert (Hidc : In id (all_ids c0)) by (apply target_id; exact Hc0).
  assert (Hid1 : In id (flat_map all_ids l1)) by (unfold l1; rewrite flat_map_app; apply in_app_iff; right; cbn; rewrite app_nil_r; exact Hidc).
  assert (Hids : In id (flat_map sids proof)).
  { rewrite Ep. rewrite flat_map_app. apply in_app_iff. right. cbn [flat_map]. apply in_app_iff. left. apply target_sid. exact Hc0. }
  (* the search *)
  assert (Hfall : Forall (find_spec id) proof) by (apply Forall_forall; intros c _; apply find_spec_all).
  destruct (find_list_ok id proof Hfall Hs Hn []) as [_ Hfind]. destruct Hfind as [from [encl [Ef [Hencl Hfrom]]]].
  { rewrite Ep1, flat_map_app. apply in_app_iff. auto. }
  specialize (Hfrom Hid). cbn [app] in Ef.
  assert (Hen1 : forall P, In P encl -> In P (flat_map subs_cmd l1)).
  { intros P HP. apply Hencl in HP. destruct HP as [HP Hin]. apply in_flat_map in HP. destruct HP as [x [Hx HP]].
    assert (x = c0).
    { apply (same_cmd proof x c0 id Hn Hx); [rewrite Ep; apply in_app_iff; right; left; reflexivity| |exact Hidc]. rewrite forallb_forall in Hs. apply (subs_shape x (Hs x Hx) P HP). exact Hin. }
    subst x. unfold l1. rewrite flat_map_app. apply in_app_iff. right. cbn. rewrite app_nil_r. exact HP. }
  assert (Hsub_l1 : forall S, In S (flat_map subs_cmd l1) -> In S (flat_map subs_cmd proof)) by (intros S HS; rewrite Ep1, flat_map_app; apply in_app_iff; auto).
  assert (Hsubsh : forall S, In S (flat_map subs_cmd l1) -> (exists b s, S = b ++ [CStep s] /\ b <> [] /\ forallb shape_ok b = true) /\ (forall i, In i (flat_map all_ids S) -> In i (flat_map all_ids l1))).
  { intros S HS. apply in_flat_map in HS. destruct HS as [x [Hx HS]]. rewrite forallb_forall in Hs1. destruct (subs_shape x (Hs1 x Hx) S HS) as [H1 H2]. split; [exact H1|].
    intros i Hi. apply in_flat_map. eauto. }
  assert (Hlead : forall S i, In S (flat_map subs_cmd proof) -> In i (lead_ids S) -> In i (flat_map sids proof) -> False).
  { intros S i HS Hi Hi2. apply (kinds_list proof Hn i); [|exact Hi2]. apply in_flat_map in HS. destruct HS as [x [Hx HS]]. apply in_flat_map. exists x. split; [exact Hx|].
    apply (subs_trans x S HS). apply lead_aids. exact Hi. }
  assert (Hsubsid : forall S i, In S (flat_map subs_cmd proof) -> subid S = Some i -> In i (flat_map sids proof)).
  { intros S i HS Hi. apply in_flat_map in HS. destruct HS as [x [Hx HS]]. rewrite forallb_forall in Hs. destruct (subs_shape x (Hs x Hx) S HS) as [[b' [s [-> _]]] _].
    unfold subid in Hi. rewrite sub_id in Hi. injection Hi as <-. apply in_flat_map. exists x. split; [exact Hx|]. apply (subs_trans x _ HS). rewrite flat_map_app. apply in_app_iff. right. left. reflexivity. }
  destruct (contexts_ok encl) with (m := transitive m id D) as [keep [Ek [X1 [X2 [X3 [X4 [X5 X6]]]]]]].
  { intros cs Hcs. apply Hsubsh. auto. }
  { intros i [cs [Hcs Hi]] cs' Hcs' Hl. apply (Hlead cs' i); auto. apply (Hsubsid cs); auto. }
  assert (Htrue : forall n i, path m n id i -> n <= D -> In i (flat_map sids proof) -> kget keep i = Some true).
  { intros n i Hp Hle Hi. apply X5; [apply (transitive_spec m id D i) with n; auto|]. intros cs Hcs Hl. apply (Hlead cs i); auto. }
  assert (Hkept : forall n i, path m n id i -> n <= S D -> kget keep i <> None).
  { intros n i Hp Hle. apply X1. apply (transitive_spec m id D i) with n; auto. }
  (* the facts about [keep] *)
  assert (K1 : kget keep id = Some true) by (apply (Htrue 0); [constructor|lia|exact Hids]).
  assert (Hplace_sid : forall x, In x (flat_list false [] l1 []) -> has_edges m x) by exact Hm1.
  assert (Hsucc : forall x, In x (flat_list false [] l1 []) -> succs m (s_id (fst x)) = deps x).
  { intros [s [e sc]] Hx. destruct (Hm1 _ Hx) as [es [ps [H1 [H2 _]]]]. unfold succs. cbn [fst]. rewrite H1. exact H2. }
  assert (K2 : forall x, In x (flat_list false [] l1 []) -> stepH keep m x).
  { intros [s [e sc]] Hx Hk. destruct (Hm1 _ Hx) as [es [ps [H1 [H2 [H3 H4]]]]]. exists es, ps. split; [exact H1|]. split; [exact H3|]. split; [exact H4|].
    destruct (X2 _ Hk) as [Htr|[P [HP HPi]]].
    - destruct (transitive_spec m id D (s_id s)) as [_ [_ [_ Hp]]]. destruct (Hp Htr) as [n [Hp1 Hp2]]. apply Forall_forall. intros i Hi. unfold kept. apply (Hkept (S n)); [|lia].
      econstructor; [exact Hp1|]. unfold succs. rewrite H1. rewrite <- H4 in Hi. apply in_map_iff in Hi. destruct Hi as [y [<- Hy]]. apply filter_In in Hy. apply in_map. apply Hy.
    - destruct (sub_place_top l1 P Hs1 Ht1 (Hen1 P HP)) as [b' [s' [sc' [EP [_ [_ [Hpl Hcl]]]]]]].
      assert (Heq : (s, (e, sc)) = (s', (true, sc' ++ [b']))).
      { apply (place_uniq_top l1 _ _ Hn1 Hx Hpl). cbn [fst]. rewrite EP in HPi. unfold subid in HPi. rewrite sub_id in HPi. injection HPi as ->. reflexivity. }
      injection Heq as Hq1 Hq2 Hq3. subst s' e sc. cbn [closes] in Hcl. destruct (s_prems s); [|discriminate]. cbn in H3. injection H3 as <-. constructor. }
  assert (Hreach : forall n j, path m n id j -> In j (flat_map all_ids l1)).
  { intros n j Hp. inversion Hp as [|n' i' k' j' Hp' Hj]; subst; [exact Hid1|]. unfold succs in Hj. destruct (sget m k') as [es|] eqn:E; [|destruct Hj].
    destruct (Hm2 _ _ E) as [x [Hx <-]]. assert (Hj' : In j (deps x)) by (rewrite <- (Hsucc x Hx); unfold succs; rewrite E; exact Hj).
    assert (Hft : false = true -> 2 <= List.length (([] : list command) ++ l1)) by discriminate.
    destruct (list_vis false [] l1 [] x j Hs1 Hft Hx Hj') as [Hv|[Hv|Hv]]; [destruct Hv|destruct Hv|exact Hv]. }
  assert (K4 : forall i, kget keep i <> None -> In i (flat_map all_ids l1)).
  { intros i Hi. destruct (X3 i Hi) as [H|[P [HP HPi]]].
    - destruct (transitive_spec m id D i) as [_ [_ [Hp _]]]. destruct (Hp H) as [n [Hp1 _]]. eapply Hreach; eauto.
    - destruct (Hsubsh P (Hen1 P HP)) as [[b' [s' [EP [_ Hsh]]]] Hin]. apply Hin. apply names_ids; [|exact HPi]. rewrite EP, forallb_app, Hsh. reflexivity. }
  assert (K3 : forall S, In S (flat_map subs_cmd l1) -> subH keep S).
  { intros S HS i Hi. destruct (sub_place_top l1 S Hs1 Ht1 HS) as [b' [s' [sc' [ES [_ [_ [Hpl Hcl]]]]]]].
    assert (Ei : i = s_id s') by (rewrite ES in Hi; unfold subid in Hi; rewrite sub_id in Hi; injection Hi as <-; reflexivity).
    assert (Hl2 : lead_ids S = lead_ids b') by (rewrite ES; apply lead_snoc).
    assert (Hins : In id (flat_map all_ids S) -> kget keep i = Some true).
    { intros Hin. apply X6 with S; [|exact Hi]. apply Hencl. auto. }
    split.
    - intros Hk. destruct (X2 _ Hk) as [Htr|[P [HP HPi]]].
      + destruct (transitive_spec m id D i) as [_ [_ [_ Hp]]]. destruct (Hp Htr) as [n [Hp1 Hp2]]. apply Forall_forall. intros j Hj. apply (Hkept (Datatypes.S n)); [|lia].
        econstructor; [exact Hp1|]. rewrite Ei. rewrite (Hsucc _ Hpl : succs m (s_id s') = _). unfold deps. rewrite !in_app_iff. right. left. apply closes_lead; [exact Hcl|]. rewrite <- Hl2. exact Hj.
      + destruct (sub_place_top l1 P Hs1 Ht1 (Hen1 P HP)) as [b2 [s2 [sc2 [EP [_ [_ [Hpl2 Hcl2]]]]]]].
        assert (Heq : (s', (true, sc' ++ [b'])) = (s2, (true, sc2 ++ [b2]))).
        { apply (place_uniq_top l1 _ _ Hn1 Hpl Hpl2). cbn [fst]. rewrite EP in HPi. unfold subid in HPi. rewrite sub_id in HPi. injection HPi as HPi. congruence. }
        injection Heq as <- Heq. apply app_inj_tail in Heq. destruct Heq as [_ <-]. apply Forall_forall. intros j Hj. apply (X4 j P HP). rewrite EP, <- ES. exact Hj.
    - intros Hk j Hj. destruct (kget keep j) as [v|] eqn:Ekj; [|reflexivity]. exfalso. assert (Hkj : kget keep j <> None) by congruence.
      destruct (X3 j Hkj) as [Htr|[P [HP HPj]]].
      + destruct (transitive_spec m id D j) as [_ [_ [Hp _]]]. destruct (Hp Htr) as [n [Hp1 Hp2]].
        assert (HA : forall n j, path m n id j -> In j (inner S) -> In id (flat_map all_ids S) \/ exists n', n' < n /\ path m n' id i).
        { clear - Hm2 Hsucc Hs1 Hn1 HS Hi ES Ei. induction n as [|n IH]; intros j Hp Hj; inversion Hp as [|n' i' k' j' Hp' Hj']; subst.
          - left. apply inner_sub. exact Hj.
          - unfold succs in Hj'. destruct (sget m k') as [es|] eqn:E; [|destruct Hj']. destruct (Hm2 _ _ E) as [x [Hx <-]].
            assert (Hd : In j (deps x)) by (rewrite <- (Hsucc x Hx); unfold succs; rewrite E; exact Hj').
            pose proof (scope_top _ l1 Hs1 Hn1 HS x j Hx Hd Hj) as Hin. rewrite flat_map_app in Hin. apply in_app_iff in Hin. destruct Hin as [Hin|Hin].
            + destruct (IH _ Hp') as [H|[n2 [H1 H2]]]; [unfold inner; rewrite removelast_snoc; exact Hin|auto|]. right. exists n2. split; [lia|exact H2].
            + cbn in Hin. destruct Hin as [Hin|[]]. right. exists n. split; [lia|]. rewrite Hin. exact Hp'. }
        destruct (HA n j Hp1 Hj) as [H|[n' [H1 H2]]]; [auto|]. apply Hk. apply (Htrue n'); [exact H2|lia|]. apply (Hsubsid S); auto.
      + apply Hk. apply Hins. apply Hencl in HP as HP'. destruct HP' as [_ Hin]. apply (laminar l1 Hs1 Hn1 P S j id); auto. }
  (* copying *)
  pose proof Hpr as Hpr'. unfold print_proof in Hpr'. rewrite Ep1, print_list_app in Hpr'. unfold l1 in Hpr' at 1. rewrite print_list_app in Hpr'. cbn [app print_list] in Hpr'.
  destruct (print_list [] a []) as [la|] eqn:Ela; [|discriminate]. destruct (print_cmd c0 ([] ++ [a])) as [lc|] eqn:Elc; [|cbn in Elc; rewrite Elc in Hpr'; discriminate].
  cbn in Elc. rewrite Elc in Hpr'. cbn [appo] in Hpr'. destruct (print_list [] b l1) as [lb|] eqn:Elb; [|discriminate]. injection Hpr' as Hlines. rewrite app_nil_r in Hlines.
  unfold l1 in Hs1, Hn1, Ht1, K2, K3. rewrite forallb_app in Hs1, Ht1. rewrite flat_map_app in Hn1. cbn [forallb] in Hs1, Ht1. rewrite andb_true_r in Hs1, Ht1. cbn [flat_map] in Hn1. rewrite app_nil_r in Hn1.
  apply andb_true_iff in Hs1. destruct Hs1 as [Hsa Hsc]. apply andb_true_iff in Ht1. destruct Ht1 as [Hta Htc]. apply NoDup_app_iff' in Hn1. destruct Hn1 as [Hna [Hnc Hnac]].
  rewrite flat_list_app in K2 by discriminate. cbn [app flat_list] in K2. rewrite app_nil_r in K2.
  assert (Hmall : Forall (main keep m id) a) by (apply Forall_forall; intros c _; apply main_all; exact K1).
  assert (Hsubn : sub_ok None) by (intros cs Hcs; discriminate).
  destruct (main_list keep m id a Hmall None [] [] [] [] (mkC [] false None) la eq_refl Hsubn Hsa Hna Hta Ela) as [out1 [st1 [A1 [[lines1 [A2 [A3 [A4 [A5 [A6 [A7 A8]]]]]]] A9]]]].
  { intros x Hx. apply K2. apply in_app_iff. auto. }
  { intros S HS. apply K3. rewrite flat_map_app. apply in_app_iff. auto. }
  { reflexivity. }
  { intros i Hi. destruct Hi. }
  { intros Hc. discriminate. }
  cbn [app List.length] in *.
  destruct (main_all keep m id K1 c0 None [] a [] out1 st1 lc eq_refl Hsubn Hsc Hnc Htc Elc) as [out2 [st2 [B1 [[lines2 [B2 [B3 [B4 [B5 [B6 [B7 B8]]]]]]] B9]]]].
  { intros x Hx. apply K2. apply in_app_iff. auto. }
  { intros S HS. apply K3. rewrite flat_map_app. apply in_app_iff. right. cbn. rewrite app_nil_r. exact HS. }
  { intros i Hi. rewrite A5; [reflexivity|]. intros Hi'. exact (Hnac i Hi' Hi). }
  { exact A6. }
  { exact A7. }
  cbn [app List.length] in *. destruct (B9 Hc0) as [Hseen [Hch Hnm]].
  destruct (shape_id c0 Hsc) as [i0 [Hi0 _]].
  assert (Hnb' : forall i, In i (flat_map all_ids b) -> kget keep i = None).
  { intros i Hi. destruct (kget keep i) eqn:E; [|reflexivity]. exfalso. apply (Hn1b i); [|exact Hi]. apply K4. congruence. }
  assert (Hcopy : copy_list keep m id proof None 0 [] (mkC [] false None) = ROk (out1 ++ out2, st2)).
  { rewrite Ep1. unfold l1. rewrite !copy_list_app, A1. cbn [obind fst snd copy_list]. rewrite B1. cbn [obind fst snd]. apply noop_all; auto. }
  set (endc := CStep (end_step (0, List.length out1))).
  exists ((out1 ++ out2) ++ [endc]), (leading_assumes ((out1 ++ out2) ++ [endc])), (lines1 ++ lines2), i0.
  split; [|split; [|split; [|split]]].
  - unfold slice, slice_body. rewrite Ef, Em. cbn [obind]. destruct from; [discriminate| |]; cbn [obind]; rewrite Ek; cbn [obind]; rewrite Hcopy; cbn [obind fst snd]; rewrite Hch; reflexivity.
  - unfold print_proof. rewrite !print_list_app. cbn [app]. rewrite A2, B2. cbn [appo print_list print_cmd app endc]. unfold print_step, end_step. cbn [s_prems s_disch mapo s_id s_clause s_rule s_args].
    rewrite Hnm, Hi0. reflexivity.
  - rewrite <- Hlines, <- (app_nil_r (lines1 ++ lines2)). apply cut_app; [|apply cut_none]. apply cut_app; auto.
  - intros n j r Hnd Hr Hj.
    assert (Hneed : forall n i j, needs proof n i j -> In i (flat_map all_ids l1) -> path m n i j /\ (n <> 0 -> True)).
    { intros n0 i0' j0 Hnd0. induction Hnd0 as [i1|n1 i1 k1 j1 x Hx Hxi Hk Hnd1 IH]; intros Hi1; [split; [constructor|auto]|]. split; [|auto].
      rewrite Ep1, flat_top_app in Hx. apply in_app_iff in Hx. destruct Hx as [Hx|Hx].
      - assert (Hv : In k1 (flat_map all_ids l1)).
        { assert (Hft : false = true -> 2 <= List.length (([] : list command) ++ l1)) by discriminate.
          assert (Hsl : forallb shape_ok l1 = true) by (unfold l1; rewrite forallb_app, Hsa; cbn; rewrite Hsc; reflexivity).
          destruct (list_vis false [] l1 [] x k1 Hsl Hft Hx Hk) as [Hv|[Hv|Hv]]; [destruct Hv|destruct Hv|exact Hv]. }
        apply path_cons with k1; [apply IH; exact Hv|]. rewrite <- Hxi, (Hsucc x Hx). exact Hk.
      - exfalso. apply flat_list_ids in Hx. rewrite Hxi in Hx. exact (Hn1b _ Hi1 Hx). }
    destruct (Hneed n id j Hnd Hid1) as [Hp _].
    assert (Hj1 : In j (flat_map all_ids l1)) by (eapply Hreach; eauto).
    assert (Hin : In r (la ++ lc)).
    { rewrite <- Hlines in Hr. apply in_app_iff in Hr. destruct Hr as [Hr|Hr]; [exact Hr|]. exfalso. apply (Hn1b j Hj1). eapply print_ids_list; eauto. }
    assert (HG : (kget keep j = Some true -> In r (lines1 ++ lines2)) /\ (kept keep j -> present r (lines1 ++ lines2))).
    { assert (Hpr2 : forall l l' r, present r l \/ present r l' -> present r (l ++ l')).
      { intros l l' [i t|i cl ru ps ar ds|e ar|] Hp2; cbn [present] in *; auto; [apply in_app_iff; tauto|]. destruct Hp2 as [[ru' [ps' [ar' [ds' Hp2]]]]|[ru' [ps' [ar' [ds' Hp2]]]]]; exists ru', ps', ar', ds'; apply in_app_iff; auto. }
      apply in_app_iff in Hin. destruct Hin as [Hin|Hin]; [destruct (A4 r j Hin Hj) as [G1 G2]|destruct (B4 r j Hin Hj) as [G1 G2]]; (split; [intros Hk; apply in_app_iff; auto|intros Hk; apply Hpr2; auto]). }
    destruct HG as [G1 G2]. split; intros Hle.
    + destruct (in_dec string_dec j (flat_map sids proof)) as [Hsj|Hsj]; [apply G1; apply (Htrue n); auto|].
      (* an assumption *)
      assert (Hpres : present r (lines1 ++ lines2)) by (apply G2; apply (Hkept n); auto).
      assert (Hass : forall r j, In r lines -> raw_id r = Some j -> ~ In j (flat_map sids proof) -> exists t, r = RwAssume j t).
      { intros r' j' Hr' Hj' Hnot. destruct (line_kind_top proof lines r' j' Hpr Hs Hr' Hj') as [H|H]; [contradiction|exact H]. }
      destruct (Hass r j Hr Hj Hsj) as [t ->]. exact Hpres.
    + apply G2. apply (Hkept n); auto.
  - exists c0. split; [rewrite Ep; apply in_app_iff; right; left; reflexivity|]. auto.
Qed.
