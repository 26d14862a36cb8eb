(** Uncrowding preserves acceptance: the cuts, the partial steps and the final steps. *)
From Coq Require Import List String ZArith Bool Arith Lia Permutation Sorted.
From Verif Require Import Base Term Sem Rules R_Resolution R_Extras R_ResExact Utils Checker Elab ElabSound ElabFlip ElabRes ElabUncrowd ElabReorder.
Import ListNotations.
Open Scope string_scope.
Local Open Scope nat_scope.
Local Open Scope list_scope.

Lemma lit_eqb_rf x : lit_eqb x x = true. Proof. apply lit_eqb_eq. reflexivity. Qed.
Lemma memb_lit x l : memb lit_eqb x l = true <-> In x l. Proof. apply (memb_In _ lit_eqb_eq). Qed.
Lemma lit_dec (x y : lit) : x = y \/ x <> y.
Proof. destruct (lit_eqb x y) eqn:E; [left; apply lit_eqb_eq; exact E|right; intros ->; rewrite lit_eqb_rf in E; discriminate]. Qed.

(** ** Sorting the events *)
Definition ev_le (a b : ev) : Prop := ev_leb a b = true.
Ltac evl := unfold ev_le, ev_leb in *; repeat match goal with
  | H : context [?a <? ?b] |- _ => destruct (Nat.ltb_spec a b)
  | |- context [?a <? ?b] => destruct (Nat.ltb_spec a b)
  | H : context [?a =? ?b] |- _ => destruct (Nat.eqb_spec a b)
  | |- context [?a =? ?b] => destruct (Nat.eqb_spec a b)
  end; try lia; try congruence; auto.
Lemma ev_le_trans a b c : ev_le a b -> ev_le b c -> ev_le a c.
Proof. destruct a as [[x []] i], b as [[y []] j], c as [[z []] k]; cbn [fst snd]; evl. Qed.
Lemma ev_le_total a b : ev_leb a b = false -> ev_le b a.
Proof. destruct a as [[x []] i], b as [[y []] j]; cbn [fst snd]; evl. Qed.
Lemma ev_insert_perm a l : Permutation (a :: l) (ev_insert a l).
Proof.
  induction l as [|b l IH]; [reflexivity|]. cbn [ev_insert]. destruct (ev_leb a b); [reflexivity|]. etransitivity; [apply perm_swap|]. apply perm_skip, IH.
Qed.
Lemma ev_sort_perm l : Permutation l (ev_sort l).
Proof. induction l as [|a l IH]; [reflexivity|]. cbn [ev_sort]. etransitivity; [apply perm_skip, IH|]. apply ev_insert_perm. Qed.
Lemma ev_insert_sorted a l : StronglySorted ev_le l -> StronglySorted ev_le (ev_insert a l).
Proof.
  induction l as [|b l IH]; intros H; [repeat constructor|]. cbn [ev_insert]. destruct (ev_leb a b) eqn:E.
  - constructor; [exact H|]. constructor; [exact E|]. apply StronglySorted_inv in H. destruct H as [_ H]. rewrite Forall_forall in *.
    intros x Hx. apply (ev_le_trans a b x); [exact E|auto].
  - apply StronglySorted_inv in H. destruct H as [H1 H2]. constructor; [auto|]. rewrite Forall_forall in *. intros x Hx.
    apply (Permutation_in x (Permutation_sym (ev_insert_perm a l))) in Hx. destruct Hx as [<-|Hx]; [apply ev_le_total; exact E|auto].
Qed.
Lemma ev_sort_sorted l : StronglySorted ev_le (ev_sort l).
Proof. induction l as [|a l IH]; [constructor|]. cbn [ev_sort]. apply ev_insert_sorted, IH. Qed.

(** ** The contractions do not depend on the order of the hash map *)
Lemma memb_incl n n' x : (forall y, In y n <-> In y n') -> memb lit_eqb x n = memb lit_eqb x n'.
Proof. intros H. apply eq_true_iff_eq. rewrite !memb_lit. apply H. Qed.
Lemma contract_ext l : forall n n', (forall y, In y n <-> In y n') -> contract_at n l = contract_at n' l.
Proof.
  induction l as [|[[x []] i] l IH]; intros n n' H; cbn [contract_at]; [reflexivity| |].
  - rewrite (memb_incl n n' x H). destruct (memb lit_eqb x n'); [reflexivity|]. apply IH, H.
  - apply IH. intros y. cbn [In]. rewrite (H y). reflexivity.
Qed.
Definition same_key (a b : ev) : Prop := snd (fst a) = snd (fst b) /\ snd a = snd b.
Lemma contract_swap a b l n : same_key a b -> contract_at n (a :: b :: l) = contract_at n (b :: a :: l).
Proof.
  destruct a as [[x []] i], b as [[y []] j]; intros [H1 H2]; cbn [fst snd] in *; try discriminate; subst j; cbn [contract_at].
  - destruct (memb lit_eqb x n) eqn:Ex, (memb lit_eqb y n) eqn:Ey; reflexivity.
  - apply contract_ext. intros z. cbn [In]. tauto.
Qed.
Lemma contract_front u a v : forall n, Forall (same_key a) u -> contract_at n (u ++ a :: v) = contract_at n (a :: u ++ v).
Proof.
  assert (G : forall b w w' n, (forall n, contract_at n w = contract_at n w') -> contract_at n (b :: w) = contract_at n (b :: w')).
  { intros [[x []] i] w w' n H; cbn [contract_at]; [|apply H]. destruct (memb lit_eqb x n); [f_equal; apply H|apply H]. }
  induction u as [|b u IH]; intros n H; [reflexivity|]. inversion H as [|b' u' H1 H2]; subst. cbn [app].
  rewrite (contract_swap a b (u ++ v) n H1). apply G. intros m. apply IH, H2.
Qed.
Lemma ev_le_key a b : ev_le a b -> ev_le b a -> same_key a b.
Proof. destruct a as [[x []] i], b as [[y []] j]; unfold same_key; cbn [fst snd]; intros H1 H2; split; cbn [fst snd] in *; evl; cbn [fst snd] in *; lia. Qed.
Lemma sorted_mid u a v : StronglySorted ev_le (u ++ a :: v) -> StronglySorted ev_le (u ++ v) /\ Forall (fun b => ev_le b a) u.
Proof.
  induction u as [|b u IH]; cbn [app]; intros H; apply StronglySorted_inv in H; destruct H as [H1 H2].
  - split; [exact H1|constructor].
  - destruct (IH H1) as [IH1 IH2]. rewrite Forall_app in H2. destruct H2 as [H2 H3]. inversion H3; subst. split.
    + constructor; [exact IH1|]. apply Forall_app. split; auto.
    + constructor; auto.
Qed.
Lemma contract_perm l : forall l' n, StronglySorted ev_le l -> StronglySorted ev_le l' -> Permutation l l' -> contract_at n l = contract_at n l'.
Proof.
  induction l as [|a l IH]; intros l' n Hs Hs' HP.
  - apply Permutation_nil in HP. subst. reflexivity.
  - assert (Ha : In a l') by (apply (Permutation_in a HP); left; reflexivity). apply in_split in Ha. destruct Ha as (u & v & ->).
    destruct (sorted_mid u a v Hs') as [Hs2 Hu]. apply StronglySorted_inv in Hs. destruct Hs as [Hs Hf]. apply Permutation_cons_app_inv in HP.
    rewrite (contract_front u a v n).
    + destruct a as [[x []] i]; cbn [contract_at]; [|apply IH; auto]. destruct (memb lit_eqb x n); [f_equal|]; apply IH; auto.
    + rewrite Forall_forall in *. intros b Hb. apply ev_le_key; [|apply Hu, Hb]. apply Hf. apply (Permutation_in b (Permutation_sym HP)). apply in_or_app. left. exact Hb.
Qed.
Lemma filter_perm {A} (f : A -> bool) l l' : Permutation l l' -> Permutation (filter f l) (filter f l').
Proof.
  induction 1 as [|x l l' H IH|x y l|l1 l2 l3 H1 IH1 H2 IH2]; cbn [filter]; [reflexivity| | |etransitivity; eauto].
  - destruct (f x); [apply perm_skip|]; exact IH.
  - destruct (f x), (f y); try reflexivity. apply perm_swap.
Qed.
Theorem cuts_order infos infos' : Permutation infos infos' -> needed_contractions infos = needed_contractions infos'.
Proof.
  intros H. unfold needed_contractions. apply contract_perm; try apply ev_sort_sorted.
  etransitivity; [symmetry; apply ev_sort_perm|]. etransitivity; [|apply ev_sort_perm]. unfold events. apply Permutation_flat_map, filter_perm, H.
Qed.

(** ** Where the contractions are *)
Lemma li_elim_lt x i y j : ev_le (x, LastInclusion, i) (y, Elimination, j) -> i < j.
Proof. unfold ev_le, ev_leb; cbn [fst snd]. destruct (Nat.ltb_spec i j); [auto|]. destruct (i =? j); discriminate. Qed.
Lemma elim_li_le x i y j : ev_le (x, Elimination, i) (y, LastInclusion, j) -> i <= j.
Proof. unfold ev_le, ev_leb; cbn [fst snd]. destruct (Nat.ltb_spec i j); [lia|]. destruct (Nat.eqb_spec i j); [lia|discriminate]. Qed.
Lemma elim_elim_le x i y j : ev_le (x, Elimination, i) (y, Elimination, j) -> i <= j.
Proof. unfold ev_le, ev_leb; cbn [fst snd]. destruct (Nat.ltb_spec i j); [lia|]. destruct (Nat.eqb_spec i j); [lia|discriminate]. Qed.
Section Cuts.
  Variable k : lit -> nat.
  Definition li (x : lit) : ev := (x, LastInclusion, k x).
  Lemma contract_what l : forall n c, StronglySorted ev_le l -> (forall x i, In (x, LastInclusion, i) l -> i = k x) ->
    (forall x e, In x n -> In e l -> ev_le (li x) e) -> In c (contract_at n l) ->
    exists x, In (x, Elimination, c) l /\ k x < c /\ (In x n \/ In (li x) l).
  Proof.
    induction l as [|[[x e] i] l IH]; intros n c Hs Hk Hn Hc; [destruct Hc|]. apply StronglySorted_inv in Hs. destruct Hs as [Hs Hf]. rewrite Forall_forall in Hf.
    assert (Hk' : forall x i, In (x, LastInclusion, i) l -> i = k x) by (intros y j Hy; apply Hk; right; exact Hy).
    destruct e; cbn [contract_at] in Hc.
    - destruct (memb lit_eqb x n) eqn:Em.
      + apply memb_lit in Em. destruct Hc as [<-|Hc].
        * exists x. split; [left; reflexivity|]. split; [|left; exact Em]. apply (li_elim_lt x _ x). apply (Hn x _ Em). left. reflexivity.
        * destruct (IH [] c Hs Hk' (fun _ _ H => match H with end) Hc) as (y & Hy & Hy1 & Hy2). exists y. split; [right; exact Hy|]. split; [exact Hy1|].
          destruct Hy2 as [[]|Hy2]. right. right. exact Hy2.
      + destruct (IH n c Hs Hk' (fun y e Hy He => Hn y e Hy (or_intror He)) Hc) as (y & Hy & Hy1 & Hy2). exists y. split; [right; exact Hy|]. split; [exact Hy1|].
        destruct Hy2; [left|right; right]; auto.
    - assert (Ei : i = k x) by (apply Hk; left; reflexivity). subst i.
      destruct (IH (x :: n) c Hs Hk') with (2 := Hc) as (y & Hy & Hy1 & Hy2).
      { intros y e [<-|Hy] He; [apply Hf, He|apply Hn; [exact Hy|right; exact He]]. }
      exists y. split; [right; exact Hy|]. split; [exact Hy1|]. destruct Hy2 as [[<-|Hy2]|Hy2]; [right; left; reflexivity|left; exact Hy2|right; right; exact Hy2].
  Qed.
  Lemma contract_incr l : forall n, StronglySorted ev_le l -> (forall x i, In (x, LastInclusion, i) l -> i = k x) ->
    (forall x e, In x n -> In e l -> ev_le (li x) e) -> StronglySorted lt (contract_at n l).
  Proof.
    induction l as [|[[x e] i] l IH]; intros n Hs Hk Hn; [constructor|]. apply StronglySorted_inv in Hs. destruct Hs as [Hs Hf]. rewrite Forall_forall in Hf.
    assert (Hk' : forall x i, In (x, LastInclusion, i) l -> i = k x) by (intros y j Hy; apply Hk; right; exact Hy).
    destruct e; cbn [contract_at].
    - destruct (memb lit_eqb x n) eqn:Em; [|apply IH; auto; intros y e Hy He; apply Hn; [exact Hy|right; exact He]].
      constructor; [apply IH; auto; intros y e []|]. rewrite Forall_forall. intros c Hc.
      destruct (contract_what l [] c Hs Hk' (fun _ _ H => match H with end) Hc) as (y & _ & Hy1 & [[]|Hy2]).
      apply Hf in Hy2. apply elim_li_le in Hy2. lia.
    - assert (Ei : i = k x) by (apply Hk; left; reflexivity). subst i. apply IH; auto.
      intros y e [<-|Hy] He; [apply Hf, He|apply Hn; [exact Hy|right; exact He]].
  Qed.
  Lemma contract_covers l : forall n x j, StronglySorted ev_le l -> (forall x i, In (x, LastInclusion, i) l -> i = k x) ->
    (forall x e, In x n -> In e l -> ev_le (li x) e) -> In (x, Elimination, j) l -> In x n \/ In (li x) l -> k x < j ->
    exists c, In c (contract_at n l) /\ k x < c <= j.
  Proof.
    induction l as [|[[y e] i] l IH]; intros n x j Hs Hk Hn He Hx Hlt; [destruct He|]. apply StronglySorted_inv in Hs. destruct Hs as [Hs Hf]. rewrite Forall_forall in Hf.
    assert (Hk' : forall x i, In (x, LastInclusion, i) l -> i = k x) by (intros z m Hz; apply Hk; right; exact Hz).
    destruct e; cbn [contract_at].
    - assert (Hx' : In x n \/ In (li x) l) by (destruct Hx as [Hx|[Hx|Hx]]; [auto|discriminate|auto]).
      destruct (memb lit_eqb y n) eqn:Em.
      + destruct He as [He|He]; [injection He as -> ->; exists j; split; [left; reflexivity|lia]|].
        destruct Hx' as [Hx'|Hx'].
        * exists i. split; [left; reflexivity|]. split; [apply (li_elim_lt x _ y), Hn; [exact Hx'|left; reflexivity]|]. apply Hf in He. apply elim_elim_le in He. exact He.
        * destruct (IH [] x j Hs Hk' (fun _ _ H => match H with end) He (or_intror Hx') Hlt) as (c & Hc & Hc'). exists c. split; [right; exact Hc|exact Hc'].
      + destruct He as [He|He].
        * injection He as -> ->. destruct Hx' as [Hx'|Hx']; [apply memb_lit in Hx'; congruence|]. apply Hf in Hx'. apply elim_li_le in Hx'. lia.
        * apply IH; auto. intros z e Hz Hze. apply Hn; [exact Hz|right; exact Hze].
    - assert (Ei : i = k y) by (apply Hk; left; reflexivity). subst i. destruct He as [He|He]; [discriminate|].
      apply IH; auto.
      + intros z e [<-|Hz] Hze; [apply Hf, Hze|apply Hn; [exact Hz|right; exact Hze]].
      + destruct Hx as [Hx|[Hx|Hx]]; [left; right; exact Hx|injection Hx as ->; left; left; reflexivity|right; exact Hx].
  Qed.
End Cuts.

(** ** Naive resolution *)
Notation occl := (occ lit_eqb).
Lemma occl_pos x l : 0 < occl x l <-> In x l. Proof. apply (occ_pos lit_eqb lit_eqb_eq). Qed.
Lemma occl_0 x l : occl x l = 0 <-> ~ In x l.
Proof. rewrite <- occl_pos. lia. Qed.
Lemma occl_mid x y C1 C2 : occl x (C1 ++ y :: C2) = (if lit_eqb x y then 1 else 0) + occl x (C1 ++ C2).
Proof. rewrite !occ_app. cbn [occ]. lia. Qed.
Lemma rm1_spec x l r : rm1 x l = Some r <-> exists D1 D2, l = D1 ++ x :: D2 /\ ~ In x D1 /\ r = D1 ++ D2.
Proof.
  revert r. induction l as [|y l IH]; intros r; cbn [rm1].
  - split; [discriminate|]. intros (D1 & D2 & H & _). destruct D1; discriminate.
  - destruct (lit_eqb y x) eqn:E.
    + apply lit_eqb_eq in E. subst y. split.
      * intros H. injection H as <-. exists [], l. auto.
      * intros (D1 & D2 & H & Hn & ->). destruct D1 as [|z D1]; [injection H as ->; reflexivity|]. injection H as -> ->. exfalso. apply Hn. left. reflexivity.
    + assert (Hy : y <> x) by (intros ->; rewrite lit_eqb_rf in E; discriminate). destruct (rm1 x l) as [r'|] eqn:Er.
      * split.
        -- intros H. injection H as <-. destruct (proj1 (IH r') eq_refl) as (D1 & D2 & -> & Hn & ->). exists (y :: D1), D2.
           split; [reflexivity|]. split; [|reflexivity]. intros [H|H]; auto.
        -- intros (D1 & D2 & H & Hn & ->). destruct D1 as [|z D1]; [injection H as -> _; congruence|]. injection H as -> ->. cbn [app].
           assert (Hs : Some r' = Some (D1 ++ D2)) by (apply IH; exists D1, D2; split; [reflexivity|]; split; [intros Hx; apply Hn; right; exact Hx|reflexivity]).
           injection Hs as ->. reflexivity.
      * split; [discriminate|]. intros (D1 & D2 & H & Hn & ->). destruct D1 as [|z D1]; [injection H as -> _; congruence|]. injection H as -> ->.
        assert (Hs : None = Some (D1 ++ D2)) by (apply IH; exists D1, D2; split; [reflexivity|]; split; [intros Hx; apply Hn; right; exact Hx|reflexivity]). discriminate.
Qed.
(** naive resolution: one occurrence is dropped on either side *)
Inductive nchain : list lit -> list (clause * (lit * bool)) -> list lit -> Prop :=
| NC_nil C : nchain C [] C
| NC_cons C C' D D' p b l R : rm1 (pcur p b) C = Some C' -> rm1 (pnext p b) (lits D) = Some D' -> nchain (C' ++ D') l R -> nchain C ((D, (p, b)) :: l) R.
Notation pnode := (enode * (lit * bool))%type.
Definition rp (e : pnode) : rprem := mkRP (fst e) (lits (eclause (fst e))) (Some (snd e)).
Definition cst (e : pnode) : clause * (lit * bool) := (eclause (fst e), snd e).
Lemma naive_nchain L : forall C R, naive_run C (map rp L) = ROk R <-> nchain C (map cst L) R.
Proof.
  induction L as [|[n [p b]] L IH]; intros C R; cbn [map naive_run].
  - split; [intros H; injection H as ->; constructor|]. intros H. inversion H; subst; reflexivity.
  - cbn [rp cst fst snd rp_pivot rp_clause unwrap obind]. split.
    + intros H. destruct (rm1 (pcur p b) C) as [C'|] eqn:E1; [|discriminate]. cbn [unwrap obind] in H.
      destruct (rm1 (pnext p b) (lits (eclause n))) as [D'|] eqn:E2; [|discriminate]. cbn [unwrap obind] in H. econstructor; eauto. apply IH, H.
    + intros H. inversion H as [|? C' ? D' ? ? ? ? E1 E2 E3]; subst. rewrite E1. cbn [unwrap obind]. rewrite E2. cbn [unwrap obind]. apply IH, E3.
Qed.
Lemma rm1_ex x l : In x l -> exists r, rm1 x l = Some r.
Proof.
  induction l as [|y l IH]; intros H; [destruct H|]. cbn [rm1]. destruct (lit_eqb y x) eqn:E; [eauto|]. destruct H as [->|H]; [rewrite lit_eqb_rf in E; discriminate|].
  destruct (IH H) as [r ->]. eauto.
Qed.
Lemma rm1_In x l r y : rm1 x l = Some r -> In y l -> y <> x -> In y r.
Proof. intros H Hy Hn. apply rm1_spec in H. destruct H as (D1 & D2 & -> & _ & ->). rewrite in_app_iff in *. cbn [In] in Hy. destruct Hy as [Hy|[Hy|Hy]]; auto. congruence. Qed.
Lemma rm1_sub x l r y : rm1 x l = Some r -> In y r -> In y l.
Proof. intros H Hy. apply rm1_spec in H. destruct H as (D1 & D2 & -> & _ & ->). rewrite in_app_iff in *. cbn [In]. tauto. Qed.
Lemma rm1_occ x l r y : rm1 x l = Some r -> occl y l = (if lit_eqb y x then 1 else 0) + occl y r.
Proof. intros H. apply rm1_spec in H. destruct H as (D1 & D2 & -> & _ & ->). apply occl_mid. Qed.
(** a resolvent, with its second clause given by [rm1] *)
Lemma resolvent_rm1 C D p b R : resolvent C D p b R <->
  In (pcur p b) C /\ exists D', rm1 (pnext p b) D = Some D' /\ forall x, In x R <-> (In x C /\ x <> pcur p b) \/ In x D'.
Proof.
  unfold resolvent, pcur, pnext. split.
  - intros (H & D1 & D2 & HD & Hn & HR). split; [exact H|]. exists (D1 ++ D2). split; [apply rm1_spec; eauto|]. intros x. rewrite HR, in_app_iff. reflexivity.
  - intros (H & D' & HD & HR). split; [exact H|]. apply rm1_spec in HD. destruct HD as (D1 & D2 & HD & Hn & ->). exists D1, D2.
    split; [exact HD|]. split; [exact Hn|]. intros x. rewrite HR, in_app_iff. reflexivity.
Qed.
Lemma chain_same C C' l R : same C C' -> chain C l R -> chain C' l R.
Proof.
  intros H HC. inversion HC as [? ? HS|? D p b C1 l' ? HR HC']; subst.
  - constructor. intros x. rewrite <- (H x). apply HS.
  - econstructor; [|exact HC']. apply resolvent_rm1 in HR. apply resolvent_rm1. destruct HR as (Hin & D' & HD & HR). split; [apply H, Hin|].
    exists D'. split; [exact HD|]. intros x. rewrite HR, (H x). reflexivity.
Qed.
Lemma chain_same_r C l R R' : same R R' -> chain C l R -> chain C l R'.
Proof.
  intros H HC. induction HC as [C R HS|C D p b C1 l R HR HC IH].
  - constructor. intros x. rewrite (HS x). apply H.
  - econstructor; eauto.
Qed.
Lemma chain_nil_inv C R : chain C [] R -> same C R.
Proof. intros H. inversion H; subst. assumption. Qed.
Lemma chain_app C l1 R l2 T : chain C l1 R -> chain R l2 T -> chain C (l1 ++ l2) T.
Proof. induction 1 as [C R HS|C D p b C1 l R HR HC IH]; cbn [app]; intros H; [apply (chain_same R); [intros x; symmetry; apply HS|exact H]|]. econstructor; eauto. Qed.
Lemma nchain_ex C l T : chain C l T -> forall G, incl C G -> exists N, nchain G l N.
Proof.
  induction 1 as [C R HS|C D p b C1 l R HR HC IH]; intros G HG; [exists G; constructor|]. apply resolvent_rm1 in HR. destruct HR as (Hin & D' & HD & HR).
  destruct (rm1_ex _ _ (HG _ Hin)) as [G' EG]. destruct (IH (G' ++ D')) as [N HN].
  - intros x Hx. apply HR in Hx. apply in_or_app. destruct Hx as [[Hx Hn]|Hx]; [left|right; exact Hx]. apply (rm1_In _ _ _ _ EG); auto.
  - exists N. econstructor; eauto.
Qed.

(** no literal that has been resolved away occurs again *)
Fixpoint no_return (l : list (clause * (lit * bool))) : Prop :=
  match l with
  | [] => True
  | (D, (p, b)) :: r => (forall E, In E (D :: map fst r) -> ~ In (pcur p b) (lits E)) /\ no_return r
  end.
Lemma no_return_app l : forall l', no_return (l ++ l') -> no_return l'.
Proof. induction l as [|[D [p b]] l IH]; intros l' H; [exact H|]. apply IH. apply H. Qed.
Definition pcurs (l : list (clause * (lit * bool))) : list lit := map (fun e => pcur (fst (snd e)) (snd (snd e))) l.
Lemma never C l T x : chain C l T -> ~ In x C -> (forall E, In E (map fst l) -> ~ In x (lits E)) -> ~ In x (pcurs l) /\ ~ In x T.
Proof.
  induction 1 as [C R HS|C D p b C1 l R HR HC IH]; intros Hx HE; cbn [pcurs map].
  - split; [intros []|]. intros H. apply Hx, HS, H.
  - apply resolvent_rm1 in HR. destruct HR as (Hin & D' & HD & HR). destruct IH as [IH1 IH2].
    + intros H. apply HR in H. destruct H as [[H _]|H]; [auto|]. apply (rm1_sub _ _ _ _ HD) in H. apply (HE D); [left; reflexivity|exact H].
    + intros E H. apply HE. right. exact H.
    + split; [|exact IH2]. intros [H|H]; [|auto]. cbn [fst snd] in H. subst x. auto.
Qed.
Lemma nchain_keep C l N x : nchain C l N -> In x C -> ~ In x (pcurs l) -> In x N.
Proof.
  induction 1 as [C|C C' D D' p b l R E1 E2 HN IH]; intros Hx Hn; [exact Hx|]. cbn [pcurs map fst snd In] in Hn. apply IH; [|tauto].
  apply in_or_app. left. apply (rm1_In _ _ _ _ E1); auto.
Qed.
Lemma chain_keep C l T x : chain C l T -> In x C \/ (exists E, In E (map fst l) /\ In x (lits E)) -> forall G N, nchain G l N -> (In x G -> In x C) -> In x N -> ~ In x (pcurs l) -> In x T.
Proof.
  intros HC _. induction HC as [C R HS|C D p b C1 l R HR HC IH]; intros G N HN HG Hx Hn; inversion HN as [|? G' ? D1 ? ? ? ? E1 E2 HN']; subst.
  - apply HS, HG, Hx.
  - cbn [pcurs map fst snd In] in Hn. apply (IH (G' ++ D1) N HN'); auto. intros H. apply resolvent_rm1 in HR. destruct HR as (Hin & D' & HD & HR). apply HR.
    assert (D1 = D') by congruence. subst D1. apply in_app_or in H. destruct H as [H|H]; [left|right; exact H]. split; [apply HG, (rm1_sub _ _ _ _ E1), H|].
    intros ->. apply Hn. left. reflexivity.
Qed.

(** *** A segment *)
Lemma segment l1 : forall K G l2 T N, (forall x, occl x K <= occl x G) -> chain K (l1 ++ l2) T -> nchain G (l1 ++ l2) N -> no_return (l1 ++ l2) ->
  (forall a D p b r, l1 = a ++ (D, (p, b)) :: r -> In (pcur p b) N -> (forall E, In E (map fst a) -> ~ In (pcur p b) (lits E)) /\ occl (pcur p b) K <= 1) ->
  exists R G', nchain K l1 R /\ chain K l1 R /\ chain R l2 T /\ nchain G' l2 N /\ (forall x, occl x R <= occl x G').
Proof.
  induction l1 as [|[D [p b]] l1 IH]; intros K G l2 T N Ho HC HN Hnr H; cbn [app] in *.
  - exists K, G. repeat split; auto; constructor. intros x; tauto.
  - inversion HC as [|? ? ? ? C1 ? ? HR HC1]; subst. inversion HN as [|? G1 ? D1 ? ? ? ? E1 E2 HN1]; subst.
    apply resolvent_rm1 in HR. destruct HR as (Hin & D' & HD & HR). assert (D1 = D') by congruence. subst D1. destruct Hnr as [Hnr1 Hnr].
    assert (HpD : ~ In (pcur p b) (lits D)) by (apply Hnr1; left; reflexivity).
    assert (HpD' : ~ In (pcur p b) D') by (intros Hx; apply HpD, (rm1_sub _ _ _ _ HD), Hx).
    assert (Hone : occl (pcur p b) K = 1).
    { pose proof (proj2 (occl_pos (pcur p b) K) Hin). destruct (Nat.le_gt_cases (occl (pcur p b) K) 1); [lia|]. exfalso.
      assert (HiN : In (pcur p b) N).
      { apply (nchain_keep _ _ _ _ HN1).
        - apply in_or_app. left. apply occl_pos. pose proof (rm1_occ _ _ _ (pcur p b) E1) as Eo. rewrite lit_eqb_rf in Eo. specialize (Ho (pcur p b)). lia.
        - apply (never _ _ _ (pcur p b) HC1).
          + intros Hx. apply HR in Hx. destruct Hx as [[_ Hx]|Hx]; auto.
          + intros E HE. apply Hnr1. right. exact HE. }
      destruct (H [] D p b l1 eq_refl HiN) as [_ J1]. lia. }
    destruct (rm1_ex _ _ Hin) as [K' EK]. pose proof (fun y => rm1_occ _ _ _ y EK) as HoK. pose proof (fun y => rm1_occ _ _ _ y E1) as HoG.
    assert (HpK' : ~ In (pcur p b) K') by (apply occl_0; specialize (HoK (pcur p b)); rewrite lit_eqb_rf in HoK; lia).
    assert (HS : same C1 (K' ++ D')).
    { intros x. rewrite HR, in_app_iff. split; intros [Hx|Hx]; auto; left; [apply (rm1_In _ _ _ _ EK); tauto|].
      split; [apply (rm1_sub _ _ _ _ EK), Hx|]. intros ->. contradiction. }
    destruct (IH (K' ++ D') (G1 ++ D') l2 T N) as (R & G' & I1 & I2 & I3 & I4 & I5).
    + intros x. rewrite !occ_app. specialize (HoK x). specialize (HoG x). specialize (Ho x). lia.
    + apply (chain_same C1); [exact HS|exact HC1].
    + exact HN1.
    + exact Hnr.
    + intros a D2 p2 b2 r El HiN. destruct (H ((D, (p, b)) :: a) D2 p2 b2 r) as [J1 J2]; [rewrite El; reflexivity|exact HiN|]. split.
      * intros E HE. apply J1. right. exact HE.
      * assert (Hd : occl (pcur p2 b2) D' = 0). { apply occl_0. intros Hx. apply (J1 D); [left; reflexivity|]. apply (rm1_sub _ _ _ _ HD), Hx. }
        rewrite occ_app, Hd. specialize (HoK (pcur p2 b2)). lia.
    + exists R, G'. split; [econstructor; eauto|]. split; [|auto]. econstructor; [|exact I2]. apply resolvent_rm1. split; [exact Hin|]. exists D'. split; [exact HD|].
      intros x. rewrite <- (HS x). apply HR.
Qed.

(** ** Literals and clauses *)
Definition normal (x : lit) : Prop := remove_all_negations (literal_to_term x) = x.
Lemma ran_inner t : remove_all_negations (snd (remove_all_negations t)) = (0, snd (remove_all_negations t)) /\ literal_to_term (remove_all_negations t) = t.
Proof.
  induction t using term_ind'; try (split; reflexivity).
  destruct args as [|a [|b args]]; try (split; reflexivity). cbn [remove_all_negations]. destruct (op_eqb o ONot) eqn:Eo; [|split; [|reflexivity]].
  - apply op_eqb_eq in Eo. subst o. inversion H as [|? ? Ha _]; subst. destruct (remove_all_negations a) as [n u] eqn:Ea. cbn [snd] in *. destruct Ha as [H1 H2]. split; [exact H1|].
    change (tNot (literal_to_term (n, u)) = TOp ONot [a]). rewrite H2. reflexivity.
  - cbn [snd remove_all_negations]. rewrite Eo. reflexivity.
Qed.
Lemma l2t_ran t : literal_to_term (remove_all_negations t) = t. Proof. apply ran_inner. Qed.
Lemma ran_normal t : normal (remove_all_negations t). Proof. unfold normal. rewrite l2t_ran. reflexivity. Qed.
Lemma ran_inj t u : remove_all_negations t = remove_all_negations u -> t = u.
Proof. intros H. rewrite <- (l2t_ran t), H. apply l2t_ran. Qed.
Lemma lits_normal c : Forall normal (lits c).
Proof. unfold lits. induction c; constructor; auto. apply ran_normal. Qed.
Lemma lits_lits_clause R : Forall normal R -> lits (lits_clause R) = R.
Proof. induction 1 as [|x R Hx HR IH]; [reflexivity|]. cbn [lits lits_clause map] in *. rewrite Hx. f_equal. exact IH. Qed.
Lemma lits_In t c : In (remove_all_negations t) (lits c) <-> In t c.
Proof. unfold lits. rewrite in_map_iff. split; [intros (u & E & H); apply ran_inj in E; subst; exact H|eauto]. Qed.
Lemma lits_same c d : same (lits c) (lits d) -> same c d.
Proof. intros H t. rewrite <- !lits_In. apply H. Qed.
Lemma nchain_normal K l R : nchain K l R -> Forall normal K -> Forall normal R.
Proof.
  induction 1 as [C|C C' D D' p b l R E1 E2 HN IH]; intros H; [exact H|]. apply IH. apply Forall_app. rewrite !Forall_forall in *. split; intros x Hx.
  - apply H, (rm1_sub _ _ _ _ E1), Hx.
  - pose proof (lits_normal D) as HD. rewrite Forall_forall in HD. exact (HD x (rm1_sub _ _ _ _ E2 Hx)).
Qed.
Lemma dedup_occ x l : occl x (Utils.dedup lit_eqb l) <= occl x l.
Proof.
  pose proof (Utils.dedup_NoDup lit_eqb lit_eqb_eq l) as HN. destruct (Nat.eq_dec (occl x (Utils.dedup lit_eqb l)) 0) as [E|E]; [lia|].
  assert (Hin : In x (Utils.dedup lit_eqb l)) by (apply occl_pos; lia).
  assert (H1 : occl x (Utils.dedup lit_eqb l) <= 1).
  { revert HN. generalize (Utils.dedup lit_eqb l). clear. induction 1 as [|y l Hn HN IH]; cbn [occ]; [lia|]. destruct (lit_eqb x y) eqn:E; [|exact IH].
    apply lit_eqb_eq in E. subst y. apply occl_0 in Hn. lia. }
  apply (proj1 (Utils.dedup_In lit_eqb lit_eqb_eq l x)) in Hin. apply occl_pos in Hin. lia.
Qed.
Lemma nodup_occ x (l : list lit) : NoDup l -> occl x l <= 1.
Proof.
  induction 1 as [|y l Hn HN IH]; cbn [occ]; [lia|]. destruct (lit_eqb x y) eqn:E; [|exact IH]. apply lit_eqb_eq in E. subst y. apply occl_0 in Hn. lia.
Qed.
Lemma dedup_len {A} (eqb : A -> A -> bool) (Heq : forall a b, eqb a b = true <-> a = b) l :
  List.length (Utils.dedup eqb l) = List.length l -> NoDup l.
Proof.
  intros H. apply (@NoDup_incl_NoDup _ (Utils.dedup eqb l) l); [apply (Utils.dedup_NoDup eqb Heq)|lia|]. intros x Hx. apply (proj1 (Utils.dedup_In eqb Heq l x)) in Hx. exact Hx.
Qed.
Lemma lits_clause_nodup R : Forall normal R -> NoDup R -> NoDup (lits_clause R).
Proof. intros H HN. apply (NoDup_map_inv remove_all_negations). change (NoDup (lits (lits_clause R))). rewrite (lits_lits_clause R H). exact HN. Qed.
Definition norm_pivots (L : list pnode) : Prop := Forall (fun e : pnode => normal (fst (snd e))) L.
Lemma pivots_map L : norm_pivots L ->
  pivots (flat_map (fun pb : lit * bool => [literal_to_term (fst pb); if snd pb then tTrue else tFalse]) (map snd L)) (map snd L).
Proof.
  induction 1 as [|[n [p b]] L Hp HL IH]; cbn [map flat_map fst snd app]; [constructor|]. cbn [fst snd] in Hp. red in Hp.
  assert (E : forall u l v, pivots (literal_to_term p :: u :: l) ((remove_all_negations (literal_to_term p), b) :: v) -> pivots (literal_to_term p :: u :: l) ((p, b) :: v)) by (intros u l v; rewrite Hp; auto).
  apply E. destruct b; constructor; exact IH.
Qed.
Lemma omap_pivots L : omap (fun q => unwrap (rp_pivot q)) (map rp L) = ROk (map snd L).
Proof. induction L as [|e L IH]; [reflexivity|]. cbn [map omap rp rp_pivot unwrap obind]. rewrite IH. reflexivity. Qed.
Lemma map_rp_node L : map rp_node (map rp L) = map fst L. Proof. rewrite map_map. reflexivity. Qed.
Lemma cst_combine L : combine (map eclause (map fst L)) (map snd L) = map cst L.
Proof. induction L as [|[n pb] L IH]; [reflexivity|]. cbn [map combine fst snd cst]. rewrite IH. reflexivity. Qed.
Lemma list_eqb_t c d : list_eqb term_eqb c d = true <-> c = d. Proof. apply list_eqb_eq. apply term_eqb_eq. Qed.

(** *** naive resolution of literals and of terms *)
Lemma l2t_inj x y : normal x -> normal y -> literal_to_term x = literal_to_term y -> x = y.
Proof. unfold normal. intros Hx Hy H. rewrite <- Hx, H. exact Hy. Qed.
Lemma dedup_from_map seen l : Forall normal seen -> Forall normal l ->
  Utils.dedup_from term_eqb (lits_clause seen) (lits_clause l) = lits_clause (Utils.dedup_from lit_eqb seen l).
Proof.
  revert seen. induction l as [|x l IH]; intros seen Hs Hl; [reflexivity|]. inversion Hl as [|? ? Hx Hl']; subst. cbn [lits_clause map Utils.dedup_from].
  replace (existsb (term_eqb (literal_to_term x)) (lits_clause seen)) with (existsb (lit_eqb x) seen).
  - destruct (existsb (lit_eqb x) seen); [apply IH; auto|]. cbn [map]. f_equal. refine (eq_trans _ (IH (seen ++ [x]) _ Hl')); [|apply Forall_app; auto].
    unfold lits_clause. rewrite map_app. reflexivity.
  - apply eq_true_iff_eq. rewrite (memb_spec lit_eqb lit_eqb_eq), (memb_spec term_eqb term_eqb_eq). unfold lits_clause. rewrite in_map_iff. rewrite Forall_forall in Hs. split; [eauto|].
    intros (y & E & Hy). apply l2t_inj in E; auto. subst. exact Hy.
Qed.
Lemma dedup_map l : Forall normal l -> Utils.dedup term_eqb (lits_clause l) = lits_clause (Utils.dedup lit_eqb l).
Proof. intros H. apply (dedup_from_map []); auto. Qed.
Lemma lits_clause_lits c : lits_clause (lits c) = c.
Proof. unfold lits_clause, lits. rewrite map_map. rewrite <- (map_id c) at 2. apply map_ext. apply l2t_ran. Qed.
Lemma trm1_map x l r : normal x -> Forall normal l -> rm1 x l = Some r -> trm1 (literal_to_term x) (lits_clause l) = Some (lits_clause r).
Proof.
  intros Hx Hl. revert r. induction Hl as [|y l Hy Hl IH]; intros r; cbn [rm1 lits_clause map trm1]; [discriminate|].
  replace (term_eqb (literal_to_term y) (literal_to_term x)) with (lit_eqb y x).
  - destruct (lit_eqb y x); [intros H; injection H as <-; reflexivity|]. destruct (rm1 x l) as [r'|]; [|discriminate]. intros H. injection H as <-. fold (lits_clause l). rewrite (IH r' eq_refl). reflexivity.
  - apply eq_true_iff_eq. rewrite lit_eqb_eq, term_eqb_eq. split; [congruence|apply l2t_inj; auto].
Qed.
Lemma normal_pcur p b : normal p -> normal (pcur p b).
Proof. intros H. destruct b; [exact H|]. unfold normal in *. unfold pcur, neg_lit. destruct p as [n t]. cbn [fst snd] in *.
  change (remove_all_negations (TOp ONot [literal_to_term (n, t)]) = (S n, t)).
  assert (E : forall x, remove_all_negations (TOp ONot [x]) = let (k, u) := remove_all_negations x in (S k, u)) by reflexivity. rewrite E, H. reflexivity.
Qed.
Lemma normal_pnext p b : normal p -> normal (pnext p b).
Proof. intros H. change (pnext p b) with (if b then pcur p false else pcur p true). destruct b; apply normal_pcur, H. Qed.
Lemma l2t_pcur p b : literal_to_term (pcur p b) = tcur (literal_to_term p) b. Proof. destruct b, p; reflexivity. Qed.
Lemma l2t_pnext p b : literal_to_term (pnext p b) = tnext (literal_to_term p) b. Proof. destruct b, p; reflexivity. Qed.
Definition tst (e : clause * (lit * bool)) : clause * (term * bool) := (fst e, (literal_to_term (fst (snd e)), snd (snd e))).
Lemma nchain_tnaive K l R : nchain K l R -> Forall normal K -> Forall (fun e : clause * (lit * bool) => normal (fst (snd e))) l -> tnaive (lits_clause K) (map tst l) = ROk (lits_clause R).
Proof.
  induction 1 as [C|C C' D D' p b l R E1 E2 HN IH]; intros HK HL; [reflexivity|]. inversion HL as [|? ? Hp HL']; subst. cbn [fst snd] in Hp. cbn [map tst tnaive fst snd].
  pose proof (trm1_map _ _ _ (normal_pcur p b Hp) HK E1) as T1. pose proof (trm1_map _ _ _ (normal_pnext p b Hp) (lits_normal D) E2) as T2.
  rewrite l2t_pcur in T1. rewrite l2t_pnext, lits_clause_lits in T2. rewrite T1. cbn [unwrap obind]. rewrite T2. cbn [unwrap obind].
  replace (lits_clause C' ++ lits_clause D') with (lits_clause (C' ++ D')) by apply map_app. apply IH; [|exact HL']. apply Forall_app. rewrite Forall_forall in HK. split; apply Forall_forall; intros x Hx.
  - exact (HK x (rm1_sub _ _ _ _ E1 Hx)).
  - pose proof (lits_normal D) as HD. rewrite Forall_forall in HD. exact (HD x (rm1_sub _ _ _ _ E2 Hx)).
Qed.
Lemma term_pivots_map (pv : list (lit * bool)) : term_pivots (flat_map (fun pb : lit * bool => [literal_to_term (fst pb); if snd pb then tTrue else tFalse]) pv) =
  ROk (map (fun pb : lit * bool => (literal_to_term (fst pb), snd pb)) pv).
Proof. induction pv as [|[p b] pv IH]; [reflexivity|]. cbn [flat_map app term_pivots map fst snd]. rewrite IH. destruct b; reflexivity. Qed.
Lemma combine_tst L : combine (map eclause (map fst L)) (map (fun pb : lit * bool => (literal_to_term (fst pb), snd pb)) (map snd L)) = map tst (map cst L).
Proof. induction L as [|[n pb] L IH]; [reflexivity|]. cbn [map combine fst snd cst tst]. rewrite IH. reflexivity. Qed.

(** The steps are built by four rules; [P] is a property of nodes that these rules keep. *)
Section Uncrowd.
  Variable P : enode -> Prop.
  Hypothesis P_res : forall c ps args, Forall P ps -> r_resolution_with_args c (map eclause ps) args = ROk tt -> recompute_resolution (map eclause ps) args = ROk c -> P (EStep c "resolution" ps args).
  Hypothesis P_contraction : forall n, P n -> P (EStep (Utils.dedup term_eqb (eclause n)) "contraction" [n] []).
  Hypothesis P_weakening : forall n w, P n -> P (EStep (eclause n ++ w) "weakening" [n] []).
  Hypothesis P_reordering : forall n c, P n -> Permutation c (eclause n) -> P (EStep c "reordering" [n] []).
  (** *** a partial step *)
  Lemma partial_ok q L R target : P (rp_node q) -> Forall P (map fst L) -> L <> [] -> norm_pivots L ->
    lits (eclause (rp_node q)) = rp_clause q -> Forall normal (rp_clause q) ->
    nchain (rp_clause q) (map cst L) R -> chain (rp_clause q) (map cst L) R ->
    exists n K, partial_step (q :: map rp L) target = ROk (n, K) /\ P n /\ lits (eclause n) = K /\ same K R /\ Forall normal K /\
      (forall x, occl x K <= occl x R) /\ (eclause n = target \/ NoDup (eclause n) /\ NoDup K) /\ (lits_clause R <> target -> NoDup K) /\
      exists r ps args, n = EStep (eclause n) r ps args /\ In r ["resolution"; "contraction"].
  Proof.
    intros Ha HF Hne Hp HS Hq HN HC. pose proof (nchain_normal _ _ _ HN Hq) as HR. pose proof (lits_lits_clause R HR) as HL.
    assert (En : naive (q :: map rp L) = ROk R) by (destruct L as [|e L]; [congruence|]; apply naive_nchain; exact HN).
    unfold partial_step. rewrite En. cbn [obind tl]. rewrite omap_pivots. cbn [obind map]. rewrite map_rp_node.
    set (args := flat_map _ _). set (res := EStep (lits_clause R) "resolution" (rp_node q :: map fst L) args).
    assert (Hres : P res).
    { apply P_res.
      - constructor; [exact Ha|exact HF].
      - apply resolution_with_args_exact. destruct L as [|e L]; [congruence|]. exists (eclause (rp_node q)), (eclause (fst e)), (map eclause (map fst L)), (map snd (e :: L)).
        split; [reflexivity|]. split; [apply pivots_map, Hp|]. split; [cbn [map List.length]; rewrite !map_length; reflexivity|].
        change (eclause (fst e) :: map eclause (map fst L)) with (map eclause (map fst (e :: L))). rewrite cst_combine, HL, HS. exact HC.
      - unfold recompute_resolution, args. rewrite term_pivots_map. cbn [obind map]. destruct L as [|e L]; [congruence|].
        change (map eclause (map fst (e :: L))) with (eclause (fst e) :: map eclause (map fst L)).
        assert (EL : (List.length (map (fun pb : lit * bool => (literal_to_term (fst pb), snd pb)) (map snd (e :: L))) =? List.length (eclause (fst e) :: map eclause (map fst L))) = true).
        { apply Nat.eqb_eq. cbn [map List.length]. rewrite !map_length. reflexivity. }
        rewrite EL. cbn [passert obind]. change (eclause (fst e) :: map eclause (map fst L)) with (map eclause (map fst (e :: L))). rewrite combine_tst.
        rewrite <- (lits_clause_lits (eclause (rp_node q))), HS. apply nchain_tnaive; auto.
        clear -Hp. unfold norm_pivots in Hp. induction Hp as [|x l H1 H2 IH]; constructor; auto. }
    destruct (list_eqb term_eqb (lits_clause R) target) eqn:Et.
    - apply list_eqb_t in Et. exists res, R. split; [reflexivity|]. split; [exact Hres|]. cbn [eclause res]. split; [exact HL|]. split; [intros x; tauto|].
      split; [exact HR|]. split; [auto|]. split; [left; exact Et|]. split; [intros H; contradiction|]. do 3 eexists. split; [reflexivity|cbn; auto].
    - destruct (Nat.eqb_spec (List.length (Utils.dedup lit_eqb R)) (List.length R)) as [El|El]; cbn [negb].
      + apply (dedup_len lit_eqb lit_eqb_eq) in El. exists res, R. split; [reflexivity|]. split; [exact Hres|]. cbn [eclause res]. split; [exact HL|]. split; [intros x; tauto|].
        split; [exact HR|]. split; [auto|]. split; [right; split; [apply lits_clause_nodup; auto|exact El]|]. split; [auto|]. do 3 eexists. split; [reflexivity|cbn; auto].
      + assert (Hd : Forall normal (Utils.dedup lit_eqb R)). { rewrite Forall_forall in *; intros x Hx; apply HR; apply (proj1 (Utils.dedup_In lit_eqb lit_eqb_eq R x)) in Hx; exact Hx. }
        exists (EStep (Utils.dedup term_eqb (lits_clause R)) "contraction" [res] []), (Utils.dedup lit_eqb R). split; [reflexivity|]. split; [exact (P_contraction res Hres)|].
        cbn [eclause]. split; [rewrite dedup_map by exact HR; apply lits_lits_clause, Hd|].
        split; [intros x; apply (Utils.dedup_In lit_eqb lit_eqb_eq)|].
        split; [exact Hd|]. split; [intros x; apply dedup_occ|].
        split; [right; split; [apply (Utils.dedup_NoDup term_eqb term_eqb_eq)|apply (Utils.dedup_NoDup lit_eqb lit_eqb_eq)]|]. split; [intros _; apply (Utils.dedup_NoDup lit_eqb lit_eqb_eq)|].
        do 3 eexists. split; [reflexivity|cbn; auto].
  Qed.

  (** *** all the steps *)
  Lemma firstn_map_ {A B} (f : A -> B) n l : firstn n (map f l) = map f (firstn n l). Proof. apply firstn_map. Qed.
  Lemma skipn_map_ {A B} (f : A -> B) n l : skipn n (map f l) = map f (skipn n l). Proof. apply skipn_map. Qed.
  Lemma cuts_ok c N : forall cs L at_ q G,
    P (rp_node q) -> Forall P (map fst L) -> norm_pivots L ->
    lits (eclause (rp_node q)) = rp_clause q -> Forall normal (rp_clause q) ->
    (forall x, occl x (rp_clause q) <= occl x G) -> chain (rp_clause q) (map cst L) (lits c) -> nchain G (map cst L) N -> no_return (map cst L) ->
    StronglySorted lt (at_ + 1 :: cs) -> last cs 0 = at_ + List.length L + 1 -> cs <> [] ->
    (forall a D p b r, map cst L = a ++ (D, (p, b)) :: r -> In (pcur p b) N ->
       ((forall E, In E (map fst a) -> ~ In (pcur p b) (lits E)) /\ occl (pcur p b) (rp_clause q) <= 1) \/
       exists k, In k cs /\ k <= at_ + List.length a + 1 /\ forall E, In E (map fst (skipn (k - at_ - 1) a)) -> ~ In (pcur p b) (lits E)) ->
    exists n, run_cuts c at_ q (map rp L) cs = ROk n /\ P n /\ (eclause n = c \/ NoDup (eclause n) /\ same (eclause n) c) /\ exists r ps args, n = EStep (eclause n) r ps args /\ In r ["resolution"; "contraction"].
  Proof.
    induction cs as [|c1 cs IH]; intros L at_ q G Ha HF Hp HS Hq Ho HC HN Hnr Hs Hl Hne H; [congruence|]. clear Hne.
    apply StronglySorted_inv in Hs. destruct Hs as [Hs Hgt]. inversion Hgt as [|? ? Hgt1 _]; subst. cbn [run_cuts].
    set (k := c1 - at_ - 1). assert (Hk : 0 < k) by (unfold k; lia).
    assert (Hle : k <= List.length L).
    { assert (Hc1 : c1 <= last (c1 :: cs) 0).
      { apply StronglySorted_inv in Hs. destruct Hs as [_ Hs]. rewrite Forall_forall in Hs. destruct cs as [|c2 cs]; [cbn; lia|].
        change (c1 <= last (c2 :: cs) 0). apply Nat.lt_le_incl, Hs. clear. revert c2. induction cs as [|c3 cs IH]; intros c2; [left; reflexivity|]. right. apply IH. }
      unfold k. lia. }
    rewrite firstn_map_, skipn_map_. set (l1 := firstn k L). set (l2 := skipn k L). assert (EL : L = l1 ++ l2) by (symmetry; apply firstn_skipn).
    assert (Hl1 : List.length l1 = k) by (apply firstn_length_le; exact Hle).
    destruct (segment (map cst l1) (rp_clause q) G (map cst l2) (lits c) N) as (R & G' & S1 & S2 & S3 & S4 & S5); try (rewrite <- map_app, <- EL; assumption); try exact Ho.
    { intros a D p b r Ea HiN.
      assert (Hla : List.length a < k) by (apply (f_equal (@List.length _)) in Ea; rewrite map_length, app_length, Hl1 in Ea; cbn [List.length] in Ea; lia).
      destruct (H a D p b (r ++ map cst l2)) as [H1|(k1 & Hk1 & Hk2 & _)]; [rewrite EL, map_app, Ea, <- app_assoc; reflexivity|exact HiN|exact H1|].
      exfalso. assert (c1 <= k1). { destruct Hk1 as [->|Hk1]; [lia|]. apply StronglySorted_inv in Hs. destruct Hs as [_ Hs]. rewrite Forall_forall in Hs. apply Hs in Hk1. lia. }
      unfold k in Hla. lia. }
    assert (HF1 : Forall P (map fst l1)) by (rewrite EL, map_app in HF; apply Forall_app in HF; tauto).
    assert (HF2 : Forall P (map fst l2)) by (rewrite EL, map_app in HF; apply Forall_app in HF; tauto).
    assert (Hp1 : norm_pivots l1) by (unfold norm_pivots in *; rewrite EL in Hp; apply Forall_app in Hp; tauto).
    assert (Hp2 : norm_pivots l2) by (unfold norm_pivots in *; rewrite EL in Hp; apply Forall_app in Hp; tauto).
    assert (Hl1n : l1 <> []) by (intros E; rewrite E in Hl1; cbn in Hl1; lia).
    destruct (partial_ok q l1 R c Ha HF1 Hl1n Hp1 HS Hq S1 S2) as (n & K & Es & P1 & P2 & P3 & P4 & P5 & P6 & P7 & P8).
    rewrite Es. cbn [obind fst snd]. destruct cs as [|c2 cs].
    - cbn [run_cuts rp_node]. exists n. split; [reflexivity|]. split; [exact P1|]. cbn [last] in Hl.
      assert (E2 : l2 = []) by (unfold l2; apply skipn_all2; unfold k; lia). rewrite E2 in S3. cbn [map] in S3. apply chain_nil_inv in S3.
      split; [|exact P8]. destruct P6 as [P6|[P6 _]]; [left; exact P6|right]. split; [exact P6|]. apply lits_same. intros x. rewrite P2, (P3 x). apply S3.
    - assert (Hl2n : l2 <> []).
      { intros E. assert (Hkl : k = List.length L) by (rewrite EL, E, app_nil_r; lia). apply StronglySorted_inv in Hs. destruct Hs as [_ Hs]. rewrite Forall_forall in Hs.
        assert (Hlast : In (last (c2 :: cs) 0) (c2 :: cs)). { clear. revert c2. induction cs as [|c3 cs IH]; intros c2; [left; reflexivity|]. right. apply IH. }
        apply Hs in Hlast. change (last (c1 :: c2 :: cs) 0) with (last (c2 :: cs) 0) in Hl. unfold k in Hkl. lia. }
      assert (HNK : NoDup K).
      { apply P7. intros Ec. clearbody l1 l2. destruct l2 as [|[n2 [p2 b2]] l2'] eqn:El2; [congruence|]. cbn [map cst fst snd] in S3.
        inversion S3 as [|? ? ? ? C1 ? ? HR HC1]; subst. apply resolvent_rm1 in HR. destruct HR as (Hin & D' & HD & HR).
        assert (Hnr2 : no_return (map cst ((n2, (p2, b2)) :: l2'))).
        { apply (no_return_app (map cst l1)). rewrite <- map_app. exact Hnr. }
        cbn [map cst no_return fst snd] in Hnr2. destruct Hnr2 as [Hnr2 _].
        destruct (never _ _ _ (pcur p2 b2) HC1) as [_ Hnc].
        - intros Hx. apply HR in Hx. destruct Hx as [[_ Hx]|Hx]; [auto|]. apply (Hnr2 (eclause n2)); [left; reflexivity|]. apply (rm1_sub _ _ _ _ HD), Hx.
        - intros E HE. apply Hnr2. right. exact HE.
        - apply Hnc. rewrite <- (lits_lits_clause R) in Hin by (eapply nchain_normal; eauto). exact Hin. }
      apply (IH l2 (c1 - 1) (mkRP n K None) G'); cbn [rp_node rp_clause]; auto.
      + intros x. specialize (P5 x). specialize (S5 x). lia.
      + apply (chain_same R); [intros x; symmetry; apply P3|exact S3].
      + apply (no_return_app (map cst l1)). rewrite <- map_app, <- EL. exact Hnr.
      + replace (c1 - 1 + 1) with c1 by lia. exact Hs.
      + change (last (c1 :: c2 :: cs) 0) with (last (c2 :: cs) 0) in Hl. rewrite Hl. rewrite EL, app_length, Hl1. unfold k. lia.
      + discriminate.
      + intros a D p b r Ea HiN. pose proof (nodup_occ (pcur p b) K HNK) as HoK.
        destruct (H (map cst l1 ++ a) D p b r) as [[H1 _]|(k1 & Hk1 & Hk2 & H3)]; [rewrite EL, map_app, Ea, app_assoc; reflexivity|exact HiN| |].
        * left. split; [|exact HoK]. intros E HE. apply H1. rewrite map_app. apply in_or_app. right. exact HE.
        * rewrite app_length, map_length, Hl1 in Hk2.
          assert (Esk : k <= k1 - at_ - 1 -> skipn (k1 - at_ - 1) (map cst l1 ++ a) = skipn (k1 - at_ - 1 - k) a).
          { intros Hk'. rewrite skipn_app, map_length, Hl1. rewrite skipn_all2 by (rewrite map_length; lia). reflexivity. }
          destruct Hk1 as [->|Hk1].
          -- left. split; [|exact HoK]. intros E HE. apply H3. rewrite Esk by (unfold k; lia). replace (k1 - at_ - 1 - k) with 0 by (unfold k; lia). exact HE.
          -- right. exists k1. split; [exact Hk1|]. apply StronglySorted_inv in Hs. destruct Hs as [_ Hs]. rewrite Forall_forall in Hs. pose proof (Hs _ Hk1) as Hlt.
             split; [unfold k in Hk2; lia|]. intros E HE. apply H3. rewrite Esk by (unfold k; lia). replace (k1 - at_ - 1 - k) with (k1 - (c1 - 1) - 1) by (unfold k; lia). exact HE.
  Qed.

  (** *** the last steps *)
  Lemma finish_ok n c : P n -> eclause n = c \/ NoDup (eclause n) /\ same (eclause n) c ->
    exists n1 n2, add_missing n c = ROk n1 /\ put_in_order n1 c = ROk n2 /\ eclause n2 = c /\ P n2 /\ (n2 = n \/ exists r ps args, n2 = EStep c r ps args /\ In r ["weakening"; "reordering"]).
  Proof.
    intros Ha H.
    assert (G : exists n1, add_missing n c = ROk n1 /\ P n1 /\ Permutation c (eclause n1) /\ (n1 = n \/ exists w, n1 = EStep w "weakening" [n] [])).
    { unfold add_missing. destruct (Nat.eqb_spec (List.length (eclause n)) (List.length c)) as [E|E].
      - exists n. split; [reflexivity|]. split; [exact Ha|]. split; [|left; reflexivity]. destruct H as [->|[HN HS]]; [reflexivity|]. symmetry. apply NoDup_Permutation; auto.
        apply (@NoDup_incl_NoDup _ (eclause n) c); [exact HN|lia|]. intros x Hx. apply HS, Hx.
      - destruct H as [H|[HN HS]]; [congruence|]. destruct (weakened_ok (eclause n) c) as (r & Er & HP).
        { apply incl_occ; [exact HN|]. intros x Hx. apply HS, Hx. }
        rewrite Er. cbn [obind]. eexists. split; [reflexivity|]. split; [apply P_weakening, Ha|]. split; [exact HP|]. right. eexists. reflexivity. }
    destruct G as (n1 & E1 & Ha1 & HP & Hn1). exists n1. unfold put_in_order. destruct (list_eqb term_eqb (eclause n1) c) eqn:Ee.
    - apply list_eqb_t in Ee. exists n1. split; [exact E1|]. split; [reflexivity|]. split; [exact Ee|]. split; [exact Ha1|]. destruct Hn1 as [->|[w ->]]; [left; reflexivity|right]. cbn [eclause] in Ee. subst w. do 3 eexists. split; [reflexivity|cbn; auto].
    - exists (EStep c "reordering" [n1] []). split; [exact E1|]. split.
      + replace (forallb _ _ && forallb _ _) with true; [reflexivity|]. symmetry. apply andb_true_iff. rewrite !forallb_forall. split; intros x Hx; apply (memb_In _ term_eqb_eq).
        * apply (Permutation_in x (Permutation_sym HP)), Hx.
        * apply (Permutation_in x HP), Hx.
      + split; [reflexivity|]. split; [apply P_reordering; auto|]. right. do 3 eexists. split; [reflexivity|cbn; auto].
  Qed.
End Uncrowd.

(** ** The cuts *)
Lemma last_incl_lt x ps : forall i acc j, acc < j -> (forall m q, nth_error ps m = Some q -> j <= i + m -> ~ In x (rp_clause q)) -> last_incl x i ps acc < j.
Proof.
  induction ps as [|q ps IH]; intros i acc j Ha H; cbn [last_incl]; [exact Ha|]. apply IH.
  - destruct (memb lit_eqb x (rp_clause q)) eqn:E; [|exact Ha]. apply memb_lit in E. destruct (Nat.lt_ge_cases i j); [auto|]. exfalso. apply (H 0 q eq_refl); [lia|exact E].
  - intros m q' Hm Hle. apply (H (S m) q' Hm). lia.
Qed.
Lemma last_incl_acc x ps : forall i acc, acc <= i -> acc <= last_incl x i ps acc.
Proof.
  induction ps as [|q ps IH]; intros i acc Ha; cbn [last_incl]; [lia|]. destruct (memb lit_eqb x (rp_clause q)).
  - apply (Nat.le_trans _ i); [exact Ha|]. etransitivity; [|apply IH; lia]. lia.
  - apply IH. lia.
Qed.
Lemma last_incl_ge x ps : forall i acc m q, acc <= i -> nth_error ps m = Some q -> In x (rp_clause q) -> i + m <= last_incl x i ps acc.
Proof.
  induction ps as [|q' ps IH]; intros i acc m q Ha Hm Hx; [destruct m; discriminate|]. cbn [last_incl]. destruct m as [|m].
  - injection Hm as ->. apply memb_lit in Hx. rewrite Hx. rewrite Nat.add_0_r. apply last_incl_acc. lia.
  - replace (i + S m) with (S i + m) by lia. apply (IH (S i) _ m q); auto. destruct (memb lit_eqb x (rp_clause q')); lia.
Qed.
Lemma elim_total x k L : forall i acc, exists e, eliminator x k i (map rp L) acc = ROk e /\
  (e = acc \/ exists m n p b, nth_error L m = Some (n, (p, b)) /\ pcur p b = x /\ e = (i + m, b)).
Proof.
  induction L as [|[n [p b]] L IH]; intros i acc; cbn [map eliminator]; [exists acc; auto|]. cbn [rp rp_pivot fst snd unwrap obind].
  destruct (IH (S i) (if lit_eqb (pcur p b) x && (k <? i) then (i, b) else acc)) as (e & Ee & He). exists e. split; [exact Ee|]. destruct He as [He|(m & n' & p' & b' & Hm & Hp & He)].
  - destruct (lit_eqb (pcur p b) x && (k <? i)) eqn:E; [|left; exact He]. apply andb_true_iff in E. destruct E as [E _]. apply lit_eqb_eq in E.
    right. exists 0, n, p, b. split; [reflexivity|]. split; [exact E|]. rewrite Nat.add_0_r. exact He.
  - right. exists (S m), n', p', b'. split; [exact Hm|]. split; [exact Hp|]. rewrite He. f_equal. lia.
Qed.
Lemma elim_none x k L : forall i acc, ~ In x (pcurs (map cst L)) -> eliminator x k i (map rp L) acc = ROk acc.
Proof.
  induction L as [|[n [p b]] L IH]; intros i acc H; cbn [map eliminator]; [reflexivity|]. cbn [rp rp_pivot fst snd unwrap obind]. cbn [map cst pcurs fst snd In] in H.
  destruct (lit_eqb (pcur p b) x) eqn:E; [apply lit_eqb_eq in E; exfalso; auto|]. cbn [andb]. apply IH. intros Hx. apply H. right. exact Hx.
Qed.
Lemma elim_last x k L : forall a D p b r i acc, map cst L = a ++ (D, (p, b)) :: r -> pcur p b = x -> ~ In x (pcurs r) -> k < i + List.length a ->
  eliminator x k i (map rp L) acc = ROk (i + List.length a, b).
Proof.
  induction L as [|[n [p' b']] L IH]; intros a D p b r i acc E Hx Hr Hk; [destruct a; discriminate|]. cbn [map eliminator rp rp_pivot fst snd unwrap obind].
  destruct a as [|s a]; cbn [map app cst fst snd List.length] in *.
  - injection E as E1 -> -> E2. apply lit_eqb_eq in Hx. rewrite Hx. replace (k <? i) with true by (symmetry; apply Nat.ltb_lt; lia). cbn [andb].
    rewrite elim_none by (rewrite E2; exact Hr). rewrite Nat.add_0_r. reflexivity.
  - injection E as _ E. rewrite (IH a D p b r (S i) _ E Hx Hr) by lia. f_equal. f_equal. lia.
Qed.
Lemma nchain_src C l N x : nchain C l N -> In x N -> In x C \/ exists E, In E (map fst l) /\ In x (lits E).
Proof.
  induction 1 as [C|C C' D D' p b l R E1 E2 HN IH]; intros Hx; [auto|]. destruct (IH Hx) as [H|(E & HE & H)].
  - apply in_app_or in H. destruct H as [H|H]; [left; apply (rm1_sub _ _ _ _ E1), H|right; exists D; split; [left; reflexivity|apply (rm1_sub _ _ _ _ E2), H]].
  - right. exists E. split; [right; exact HE|exact H].
Qed.
(** a literal resolved upon is not resolved upon again *)
Lemma pcur_once a : forall C D p b r T, chain C (a ++ (D, (p, b)) :: r) T -> no_return (a ++ (D, (p, b)) :: r) -> ~ In (pcur p b) (pcurs r) /\ ~ In (pcur p b) T.
Proof.
  induction a as [|[D' [p' b']] a IH]; intros C D p b r T HC Hnr; cbn [app] in *; inversion HC as [|? ? ? ? C1 ? ? HR HC1]; subst; destruct Hnr as [Hnr1 Hnr]; [|eapply IH; eauto].
  apply resolvent_rm1 in HR. destruct HR as (Hin & D' & HD & HR). apply (never _ _ _ (pcur p b) HC1).
  - intros Hx. apply HR in Hx. destruct Hx as [[_ Hx]|Hx]; [auto|]. apply (Hnr1 D); [left; reflexivity|]. apply (rm1_sub _ _ _ _ HD), Hx.
  - intros E HE. apply Hnr1. right. exact HE.
Qed.
Lemma no_return_after l : forall a D p b r E, l = a ++ (D, (p, b)) :: r -> no_return l -> In E (map fst ((D, (p, b)) :: r)) -> ~ In (pcur p b) (lits E).
Proof. intros a D p b r E -> H. apply no_return_app in H. apply H. Qed.
Lemma omap_all {A B} (f : A -> outcome B) (R : A -> B -> Prop) l : (forall a, exists b, f a = ROk b /\ R a b) -> exists r, omap f l = ROk r /\ Forall2 R l r.
Proof.
  intros H. induction l as [|a l [r [Er Hr]]]; [exists []; split; [reflexivity|constructor]|]. destruct (H a) as [b [Eb Hb]]. exists (b :: r). cbn [omap]. rewrite Eb, Er.
  split; [reflexivity|constructor; auto].
Qed.
Lemma sorted_snoc l m : forall k, StronglySorted lt (k :: l) -> (forall x, In x (k :: l) -> x < m) -> StronglySorted lt (k :: l ++ [m]).
Proof.
  induction l as [|a l IH]; intros k Hs H; cbn [app].
  - constructor; [repeat constructor|]. constructor; [apply H; left; reflexivity|constructor].
  - apply StronglySorted_inv in Hs. destruct Hs as [Hs Hf]. constructor; [apply IH; [exact Hs|intros x Hx; apply H; right; exact Hx]|].
    rewrite Forall_forall in *. intros x Hx. change (a :: l ++ [m]) with ((a :: l) ++ [m]) in Hx. apply in_app_or in Hx. destruct Hx as [Hx|[<-|[]]]; [apply Hf, Hx|apply H; left; reflexivity].
Qed.

Lemma cuts_spec c n0 (L : list pnode) N :
  chain (lits (eclause n0)) (map cst L) (lits c) -> nchain (lits (eclause n0)) (map cst L) N -> no_return (map cst L) -> L <> [] ->
  (forall D p b r, map cst L = (D, (p, b)) :: r -> occl (pcur p b) (lits (eclause n0)) <= 1) ->
  exists cs, cuts_of c (mkRP n0 (lits (eclause n0)) None :: map rp L) = ROk cs /\ StronglySorted lt (1 :: cs) /\ last cs 0 = List.length L + 1 /\ cs <> [] /\
    forall a D p b r, map cst L = a ++ (D, (p, b)) :: r -> In (pcur p b) N ->
      exists k, In k cs /\ k <= List.length a + 1 /\ forall E, In E (map fst (skipn (k - 1) a)) -> ~ In (pcur p b) (lits E).
Proof.
  intros HC HN Hnr Hne Hfst. set (C0 := lits (eclause n0)) in *. set (ps := mkRP n0 C0 None :: map rp L).
  assert (En : naive ps = ROk N) by (unfold ps; destruct L as [|e L]; [congruence|]; apply naive_nchain; exact HN).
  set (k := fun x => last_incl x 0 ps 0).
  destruct (omap_all (fun x => do i <- literal_info N (lits c) ps x ; ROk (x, i))
              (fun x e => e = (x, snd e) /\ literal_info N (lits c) ps x = ROk (snd e)) (Utils.dedup lit_eqb (flat_map rp_clause ps))) as (infos & Ei & Hi).
  { intros x. destruct (elim_total x (k x) L 1 (0, false)) as (e & Ee & _).
    assert (E : literal_info N (lits c) ps x = ROk (mkLI (memb lit_eqb x N && negb (memb lit_eqb x (lits c))) (k x) (fst e) (snd e))).
    { unfold literal_info. fold (k x). cbn [tl ps]. rewrite Ee. reflexivity. }
    eexists. rewrite E. cbn [obind]. split; [reflexivity|]. split; [reflexivity|]. reflexivity. }
  assert (Hinfo : forall x i, In (x, i) infos -> literal_info N (lits c) ps x = ROk i).
  { intros x i Hin. revert Hi Hin. generalize (Utils.dedup lit_eqb (flat_map rp_clause ps)). clear. intros l H. induction H as [|a b l r [H1 H2] H IH]; intros Hin; [destruct Hin|].
    destruct Hin as [->|Hin]; [|auto]. injection H1 as <-. exact H2. }
  assert (Hhas : forall x, In x N -> exists i, In (x, i) infos).
  { intros x Hx. assert (Hin : In x (Utils.dedup lit_eqb (flat_map rp_clause ps))).
    { apply (Utils.dedup_In lit_eqb lit_eqb_eq). unfold ps. cbn [flat_map rp_clause]. apply in_or_app. destruct (nchain_src _ _ _ _ HN Hx) as [H|(E & HE & H)]; [left; exact H|right].
      rewrite map_map in HE. apply in_map_iff in HE. destruct HE as (e & <- & He). apply in_flat_map. exists (rp e). split; [apply in_map, He|exact H]. }
    revert Hi Hin. generalize (Utils.dedup lit_eqb (flat_map rp_clause ps)). clear. intros l H. induction H as [|a b l r [H1 H2] H IH]; intros Hin; [destruct Hin|].
    destruct Hin as [->|Hin]; [exists (snd b); left; exact H1|]. destruct (IH Hin) as [i Hin']. exists i. right. exact Hin'. }
  set (evs := events infos).
  assert (Hev : forall x e i, In (x, e, i) evs -> exists f, In (x, f) infos /\ in_crowding f = true /\ i = match e with LastInclusion => in_last f | Elimination => in_elim f end).
  { intros x e i H. unfold evs, events in H. apply in_flat_map in H. destruct H as ([y f] & Hf & H). apply filter_In in Hf. destruct Hf as [Hf1 Hf2]. cbn [fst snd] in *.
    destruct H as [H|[H|[]]]; injection H as <- <- <-; exists f; auto. }
  assert (Hk : forall x i, In (x, LastInclusion, i) (ev_sort evs) -> i = k x).
  { intros x i H. apply (Permutation_in _ (Permutation_sym (ev_sort_perm evs))) in H. apply Hev in H. destruct H as (f & Hf & _ & ->). apply Hinfo in Hf.
    unfold literal_info in Hf. apply obind_ok in Hf. destruct Hf as (e & _ & Hf). injection Hf as <-. reflexivity. }
  set (cs := needed_contractions infos).
  assert (Hcs : forall m, In m cs -> 1 < m <= List.length L).
  { intros m Hm. destruct (contract_what k (ev_sort evs) [] m (ev_sort_sorted _) Hk (fun _ _ H => match H with end) Hm) as (x & Hx & Hlt & _).
    apply (Permutation_in _ (Permutation_sym (ev_sort_perm evs))) in Hx. apply Hev in Hx. destruct Hx as (f & Hf & Hcr & Em). apply Hinfo in Hf.
    unfold literal_info in Hf. apply obind_ok in Hf. destruct Hf as (e & Ee & Hf). fold (k x) in Ee, Hf. injection Hf as <-. cbn [in_crowding in_elim] in *.
    apply andb_true_iff in Hcr. destruct Hcr as [HxN _]. apply memb_lit in HxN.
    destruct (elim_total x (k x) L 1 (0, false)) as (e' & Ee' & He'). unfold ps in Ee. cbn [tl] in Ee. assert (e' = e) by congruence. subst e'.
    destruct He' as [->|(j & n & p & b & Hj & Hp & ->)]; [cbn in Em; lia|]. cbn [fst] in Em.
    assert (j < List.length L) by (apply nth_error_Some; congruence).
    destruct j as [|j]; [|lia]. exfalso. assert (Ek : k x = 0) by lia.
    destruct L as [|[n' [p' b']] L']; [discriminate|]. cbn [nth_error] in Hj. injection Hj as -> -> ->. cbn [map cst fst snd] in *.
    specialize (Hfst _ _ _ _ eq_refl). rewrite Hp in Hfst.
    assert (Hno : forall E, In E (map fst ((eclause n, (p, b)) :: map cst L')) -> ~ In x (lits E)).
    { intros E HE HxE. cbn [map fst] in HE. rewrite map_map in HE.
      assert (HE' : In E (map (fun e : pnode => eclause (fst e)) ((n, (p, b)) :: L'))) by exact HE. apply in_map_iff in HE'. destruct HE' as (s & <- & Hs). apply In_nth_error in Hs. destruct Hs as [m' Hm'].
      assert (Hge : 0 + S m' <= k x). { apply (last_incl_ge x ps 0 0 (S m') (rp s)); [lia| |exact HxE]. unfold ps. cbn [nth_error]. change (nth_error (map rp ((n, (p, b)) :: L')) m' = Some (rp s)). apply map_nth_error, Hm'. }
      lia. }
    inversion HN as [|? C' ? D' ? ? ? ? E1 E2 HN']; subst.
    destruct (nchain_src _ _ _ _ HN' HxN) as [Hx1|(E & HE & Hx1)].
    - apply in_app_or in Hx1. destruct Hx1 as [Hx1|Hx1].
      + pose proof (rm1_occ _ _ _ (pcur p b) E1) as Ho. rewrite lit_eqb_rf in Ho. apply occl_pos in Hx1. lia.
      + apply (Hno (eclause n)); [left; reflexivity|]. apply (rm1_sub _ _ _ _ E2), Hx1.
    - apply (Hno E); [right; exact HE|exact Hx1]. }
  exists (cs ++ [List.length ps]). split; [|split; [|split; [|split]]].
  - unfold cuts_of. rewrite En. cbn [obind]. unfold crowding_literals. rewrite Ei. cbn [obind]. fold cs. f_equal.
    destruct (rev cs) as [|m r] eqn:Er; [reflexivity|]. assert (Hm : In m cs) by (apply in_rev; rewrite Er; left; reflexivity). apply Hcs in Hm.
    destruct (Nat.eqb_spec m (List.length ps)) as [E|E]; [|reflexivity]. exfalso. unfold ps in E. cbn [List.length] in E. rewrite map_length in E. lia.
  - apply sorted_snoc.
    + constructor; [apply (contract_incr k (ev_sort evs) []); [apply ev_sort_sorted|exact Hk|intros x e []]|]. rewrite Forall_forall. intros m Hm. apply Hcs in Hm. lia.
    + unfold ps. cbn [List.length]. rewrite map_length. intros m [<-|Hm]; [destruct L; [congruence|cbn; lia]|]. apply Hcs in Hm. lia.
  - rewrite last_last. unfold ps. cbn [List.length]. rewrite map_length. lia.
  - destruct cs; discriminate.
  - intros a D p b r Ea HxN. set (x := pcur p b) in *. destruct (pcur_once a C0 D p b r (lits c)) as [Hr Ht]; [rewrite <- Ea; exact HC|rewrite <- Ea; exact Hnr|]. fold x in Hr, Ht.
    assert (Hlt : k x < List.length a + 1).
    { apply last_incl_lt; [lia|]. intros m q Hm Hle Hx. destruct m as [|m]; [lia|]. unfold ps in Hm. cbn [nth_error] in Hm.
      rewrite nth_error_map in Hm. destruct (nth_error L m) as [s|] eqn:Es; [|discriminate]. injection Hm as <-. cbn [rp rp_clause] in Hx.
      assert (Hin : In (cst s) ((D, (p, b)) :: r)).
      { assert (Hs : nth_error (map cst L) m = Some (cst s)) by (apply map_nth_error, Es). rewrite Ea, nth_error_app2 in Hs by lia. apply nth_error_In in Hs. exact Hs. }
      apply (no_return_after (map cst L) a D p b r (eclause (fst s)) Ea Hnr); [apply (in_map fst) in Hin; exact Hin|exact Hx]. }
    destruct (Hhas x HxN) as [f Hf]. pose proof (Hinfo x f Hf) as Ef. unfold literal_info in Ef. fold (k x) in Ef. cbn [tl ps] in Ef.
    rewrite (elim_last x (k x) L a D p b r 1 (0, false) Ea eq_refl Hr) in Ef by lia. cbn [obind fst snd] in Ef. injection Ef as Ef.
    assert (Hcr : in_crowding f = true).
    { rewrite <- Ef. cbn [in_crowding]. apply andb_true_iff. split; [apply memb_lit, HxN|]. apply negb_true_iff. destruct (memb lit_eqb x (lits c)) eqn:E; [|reflexivity]. apply memb_lit in E. contradiction. }
    assert (Hev1 : forall e, In (x, e, match e with LastInclusion => in_last f | Elimination => in_elim f end) (ev_sort evs)).
    { intros e. apply (Permutation_in _ (ev_sort_perm evs)). unfold evs, events. apply in_flat_map. exists (x, f). split; [apply filter_In; split; [exact Hf|exact Hcr]|]. destruct e; cbn [In fst snd]; auto. }
    destruct (contract_covers k (ev_sort evs) [] x (1 + List.length a) (ev_sort_sorted _) Hk (fun _ _ H => match H with end)) as (m & Hm & Hm1).
    + pose proof (Hev1 Elimination) as H. rewrite <- Ef in H. exact H.
    + right. pose proof (Hev1 LastInclusion) as H. rewrite <- Ef in H. exact H.
    + lia.
    + exists m. split; [apply in_or_app; left; exact Hm|]. split; [lia|]. intros E HE HxE. apply in_map_iff in HE. destruct HE as (s & <- & Hs).
      apply In_nth_error in Hs. destruct Hs as [m' Hm'].
      assert (Hs : nth_error a (m - 1 + m') = Some s).
      { rewrite <- (firstn_skipn (m - 1) a). assert (m' < List.length (skipn (m - 1) a)) by (apply nth_error_Some; congruence). rewrite skipn_length in H.
        assert (Hfl : List.length (firstn (m - 1) a) = m - 1) by (apply firstn_length_le; lia). rewrite nth_error_app2 by lia. rewrite Hfl. replace (m - 1 + m' - (m - 1)) with m' by lia. exact Hm'. }
      assert (Hs2 : nth_error (map cst L) (m - 1 + m') = Some s) by (rewrite Ea, nth_error_app1; [exact Hs|apply nth_error_Some; congruence]).
      rewrite nth_error_map in Hs2. destruct (nth_error L (m - 1 + m')) as [e|] eqn:Ee; [|discriminate]. injection Hs2 as <-.
      assert (Hge : 0 + S (m - 1 + m') <= k x).
      { apply (last_incl_ge x ps 0 0 (S (m - 1 + m')) (rp e)); [lia| |exact HxE]. unfold ps. cbn [nth_error]. apply map_nth_error, Ee. }
      lia.
Qed.

(** ** Uncrowding *)
(** the premises after the first with their pivots *)
Definition res_steps (ps : list clause) (args : list term) : list (clause * (lit * bool)) :=
  combine (tl ps) (match arg_pivots args with ROk pv => pv | _ => [] end).
Definition first_once (ps : list clause) (args : list term) : Prop :=
  match ps, res_steps ps args with
  | p0 :: _, (_, (p, b)) :: _ => occl (pcur p b) (lits p0) <= 1
  | _, _ => True
  end.
Lemma arg_pivots_ok args pv : pivots args pv -> arg_pivots args = ROk pv /\ Forall (fun e : lit * bool => normal (fst e)) pv.
Proof.
  induction 1 as [|t a l H [IH HN]|t a l H [IH HN]]; [split; [reflexivity|constructor]| |]; cbn [arg_pivots]; rewrite IH; (split; [reflexivity|]); constructor; auto; apply ran_normal.
Qed.
Lemma combine_cst ns : forall pv, combine (map eclause ns) pv = map cst (combine ns pv).
Proof. induction ns as [|n ns IH]; intros [|x pv]; try reflexivity. cbn [map combine cst fst snd]. f_equal. apply IH. Qed.
Lemma combine_fst {A B} (l : list A) : forall r : list B, List.length r = List.length l -> map fst (combine l r) = l.
Proof. induction l as [|a l IH]; intros [|b r] H; try discriminate; [reflexivity|]. cbn [combine map fst]. f_equal. apply IH. cbn in H. lia. Qed.
Lemma combine_rp ns : forall pv, map (fun e : enode * option (lit * bool) => mkRP (fst e) (lits (eclause (fst e))) (snd e)) (combine ns (map Some pv)) = map rp (combine ns pv).
Proof. induction ns as [|n ns IH]; intros [|x pv]; try reflexivity. cbn [map combine]. rewrite IH. reflexivity. Qed.
Section Main.
Variable P : enode -> Prop.
Hypothesis P_res : forall c ps args, Forall P ps -> r_resolution_with_args c (map eclause ps) args = ROk tt -> recompute_resolution (map eclause ps) args = ROk c -> P (EStep c "resolution" ps args).
Hypothesis P_contraction : forall n, P n -> P (EStep (Utils.dedup term_eqb (eclause n)) "contraction" [n] []).
Hypothesis P_weakening : forall n w, P n -> P (EStep (eclause n ++ w) "weakening" [n] []).
Hypothesis P_reordering : forall n c, P n -> Permutation c (eclause n) -> P (EStep c "reordering" [n] []).
Theorem uncrowd_keeps c ps args : r_resolution_with_args c (map eclause ps) args = ROk tt -> Forall P ps ->
  no_return (res_steps (map eclause ps) args) -> first_once (map eclause ps) args ->
  exists n, uncrowd c ps args = ROk n /\ eclause n = c /\ P n /\ exists r qs a, n = EStep c r qs a /\ In r ["resolution"; "contraction"; "weakening"; "reordering"].
Proof.
  intros H HF Hnr Hf. apply resolution_with_args_exact in H. destruct H as (p0 & p1 & rest & pv & Eps & Hpv & Hlen & HC).
  destruct ps as [|n0 ns]; [discriminate|]. cbn [map] in Eps. injection Eps as E0 E1. apply arg_pivots_ok in Hpv. destruct Hpv as [Ep Hnp].
  unfold res_steps, first_once in *. unfold res_steps in Hf. rewrite Ep in *. cbn [map tl] in *. rewrite <- E1 in HC, Hlen. rewrite <- E0 in HC. rewrite map_length in Hlen.
  set (L := combine ns pv). assert (Ecst : combine (map eclause ns) pv = map cst L) by apply combine_cst.
  rewrite Ecst in *. inversion HF as [|? ? Ha HF']; subst.
  assert (EL1 : map fst L = ns) by (apply combine_fst; exact Hlen).
  assert (HLn : L <> []). { intros E. rewrite E in EL1. cbn in EL1. subst ns. discriminate. }
  assert (Hqs : from_step (n0 :: ns) args = ROk (mkRP n0 (lits (eclause n0)) None :: map rp L)).
  { unfold from_step. rewrite Ep. cbn [obind combine map fst snd]. f_equal. f_equal. apply combine_rp. }
  assert (Hnp' : norm_pivots L).
  { unfold norm_pivots. rewrite Forall_forall in *. intros [n pb] Hin. cbn [snd]. apply Hnp. unfold L in Hin. apply in_combine_r in Hin. exact Hin. }
  destruct (nchain_ex _ _ _ HC (lits (eclause n0)) (fun x H => H)) as [N HN].
  destruct (cuts_spec c n0 L N HC HN Hnr HLn) as (cs & Ecs & Hs & Hl & Hcs & Hcov).
  { intros D p b r E. rewrite E in Hf. exact Hf. }
  unfold uncrowd. rewrite Hqs. cbn [obind]. rewrite Ecs. cbn [obind].
  destruct (cuts_ok P P_res P_contraction c N cs L 0 (mkRP n0 (lits (eclause n0)) None) (lits (eclause n0))) as (n & En & Han & Hn & Hroot); cbn [rp_node rp_clause]; auto.
  - rewrite EL1. exact HF'.
  - apply lits_normal.
  - intros a D p b r Ea HiN. right. destruct (Hcov a D p b r Ea HiN) as (k & H1 & H2 & H3). exists k. split; [exact H1|]. split; [lia|]. intros E HE. apply H3. rewrite Nat.sub_0_r in HE. exact HE.
  - rewrite En. cbn [obind]. destruct (finish_ok P P_weakening P_reordering n c Han Hn) as (n1 & n2 & F1 & F2 & F3 & F4 & F5). rewrite F1. cbn [obind]. rewrite F2. exists n2. split; [reflexivity|]. split; [exact F3|].
    split; [exact F4|]. destruct F5 as [->|(r & qs & a & -> & Hr)].
    + destruct Hroot as (r & qs & a & E & Hr). rewrite F3 in E. exists r, qs, a. split; [exact E|]. cbn in *. tauto.
    + exists r, qs, a. split; [reflexivity|]. cbn in *. tauto.
Qed.
End Main.
Theorem uncrowd_ok other cx c ps args : r_resolution_with_args c (map eclause ps) args = ROk tt -> Forall (accepted other cx) ps ->
  no_return (res_steps (map eclause ps) args) -> first_once (map eclause ps) args ->
  exists n, uncrowd c ps args = ROk n /\ eclause n = c /\ accepted other cx n.
Proof.
  intros H1 H2 H3 H4. destruct (uncrowd_keeps (accepted other cx)) with (5 := H1) (6 := H2) as (n & E1 & E2 & E3 & _); auto; [..|exists n; auto].
  - intros c' qs a HF HR _. apply accepted_step. split; [|exact HF]. apply (run_plain other "resolution" r_resolution_with_args); [cbn; tauto|exact HR].
  - intros n Hn. apply accepted_step. split; [|constructor; auto]. apply (run_plain other "contraction" r_contraction); [cbn; tauto|]. apply contraction_ok.
  - intros n w Hn. apply accepted_step. split; [|constructor; auto]. apply (run_plain other "weakening" r_weakening); [cbn; tauto|]. apply weakening_ok.
  - intros n c' Hn HP. apply accepted_step. split; [|constructor; auto]. apply (run_plain other "reordering" r_reordering); [cbn; tauto|]. apply reordering_ok. exact HP.
Qed.
