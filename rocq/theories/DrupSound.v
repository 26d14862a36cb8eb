(** Soundness, termination and exactness of unit propagation and of the drup and drat rules (R_Drup.v). *)
From Coq Require Import List String ZArith Bool Arith Lia Permutation.
From Verif Require Import Base Term Field Sem Sorting Rules Utils R_Resolution R_Drup.
Import ListNotations.
Local Open Scope nat_scope.

(** ** Valuations of atoms *)
Definition hv (v : term -> bool) (l : dlit) : bool := if fst l then v (snd l) else negb (v (snd l)).
Definition hc (v : term -> bool) (c : list dlit) : Prop := exists l, In l c /\ hv v l = true.
Lemma hv_neg v l : hv v (dneg l) = negb (hv v l).
Proof. destruct l as [[] t]; unfold hv; cbn; rewrite ?negb_involutive; reflexivity. Qed.
Lemma dneg_invol l : dneg (dneg l) = l.
Proof. destruct l as [[] t]; reflexivity. Qed.
Lemma dneg_neq l : dneg l <> l.
Proof. destruct l as [[] t]; intros H; discriminate. Qed.
Lemma blit_dec (a b : dlit) : {a = b} + {a <> b}.
Proof. destruct (blit_eqb a b) eqn:H; [left; apply blit_eqb_eq; auto|right; intros ->; assert (blit_eqb b b = true) by (apply blit_eqb_eq; auto); congruence]. Qed.

(** ** The environment *)
Definition env_sym (e : denv) : Prop := forall l, eget e (dneg l) = match eget e l with Some b => Some (negb b) | None => None end.
Lemma eget_set e l b l' : eget (eset e l b) l' = if blit_eqb l' l then Some b else eget e l'.
Proof. apply (im_get_insert blit_eqb blit_eqb_eq). Qed.
Definition assign (e : denv) (l : dlit) : denv := eset (eset e l true) (dneg l) false.
Lemma eget_assign e l l' : eget (assign e l) l' = if blit_eqb l' (dneg l) then Some false else if blit_eqb l' l then Some true else eget e l'.
Proof. unfold assign. rewrite !eget_set. reflexivity. Qed.
Lemma blit_eqb_false a b : blit_eqb a b = false <-> a <> b.
Proof. rewrite <- blit_eqb_eq. destruct (blit_eqb a b); split; congruence. Qed.
Lemma assign_sym e l : env_sym e -> env_sym (assign e l).
Proof.
  intros H x. rewrite !eget_assign. destruct (blit_dec x l) as [->|N1].
  - assert (A : blit_eqb (dneg l) (dneg l) = true) by (apply blit_eqb_eq; auto). rewrite A.
    assert (B : blit_eqb l (dneg l) = false) by (apply blit_eqb_false; intros Hx; symmetry in Hx; apply (dneg_neq _ Hx)). rewrite B.
    assert (C : blit_eqb l l = true) by (apply blit_eqb_eq; auto). rewrite C. reflexivity.
  - destruct (blit_dec x (dneg l)) as [->|N2].
    + rewrite dneg_invol. assert (A : blit_eqb (dneg l) (dneg l) = true) by (apply blit_eqb_eq; auto). rewrite A.
      assert (B : blit_eqb l (dneg l) = false) by (apply blit_eqb_false; intros Hx; symmetry in Hx; apply (dneg_neq _ Hx)). rewrite B.
      assert (C : blit_eqb l l = true) by (apply blit_eqb_eq; auto). rewrite C. reflexivity.
    + assert (A : blit_eqb (dneg x) (dneg l) = false) by (apply blit_eqb_false; intros Hx; apply N1; rewrite <- (dneg_invol x), Hx, dneg_invol; auto).
      assert (B : blit_eqb (dneg x) l = false) by (apply blit_eqb_false; intros Hx; apply N2; rewrite <- Hx, dneg_invol; auto).
      assert (C : blit_eqb x l = false) by (apply blit_eqb_false; auto). assert (D : blit_eqb x (dneg l) = false) by (apply blit_eqb_false; auto).
      rewrite A, B, C, D. apply H.
Qed.

(** ** Watched clauses *)
Definition wok (wc : wclause) : Prop :=
  match fst wc with
  | (None, None) => snd wc = []
  | (Some l, None) => snd wc = [l]
  | (None, Some _) => False
  | (Some a, Some b) => a <> b /\ In a (snd wc) /\ In b (snd wc)
  end.
Lemma first_two_ok c : NoDup c -> wok (first_two c, c).
Proof.
  destruct c as [|a [|b r]]; intros H; unfold wok, first_two; cbn; auto. inversion H as [|? ? H1 _]; subst. split; [|auto]. intros ->. apply H1. left. auto.
Qed.
Lemma watch_ok a b c l : wok ((Some a, Some b), c) -> In l c -> exists a', watch (Some a, Some b) l = (Some a', Some b) /\ wok ((Some a', Some b), c).
Proof.
  intros [H1 [H2 H3]] Hl. unfold watch. cbn [fst snd opt_is]. destruct (blit_eqb a l) eqn:Ea; cbn [orb]; [exists a; split; auto; split; auto|].
  destruct (blit_eqb b l) eqn:Eb; [exists a; split; auto; split; auto|]. exists l. split; auto. apply blit_eqb_false in Eb. split; auto.
Qed.
(** what a scan finds *)
Lemma scan_spec e lits b c : forall a unset nu w' u' nu', wok ((Some a, Some b), c) -> incl lits c ->
  scan e lits (Some a, Some b) unset nu = (w', u', nu') ->
  (exists a', w' = (Some a', Some b) /\ wok (w', c)) /\
  (nu' = true <-> nu = true \/ (exists l, In l lits /\ eget e l = Some true) \/
     (exists u, unset = Some u /\ exists l, In l lits /\ eget e l = None) \/
     (unset = None /\ exists l1 l2 A B, lits = (A ++ l1 :: B)%list /\ eget e l1 = None /\ In l2 B /\ eget e l2 = None)) /\
  (u' = match unset with Some u => Some u | None => find (fun l => match eget e l with None => true | _ => false end) lits end).
Proof.
  induction lits as [|l r IH]; intros a unset nu w' u' nu' Hw Hi H; cbn [scan] in H.
  - injection H as <- <- <-. split; [eauto|]. split; [|destruct unset; auto]. split; [auto|].
    intros [H|[[l [[] _]]|[[u [_ [l [[] _]]]]|[_ [l1 [l2 [A [B [HA _]]]]]]]]]; auto. destruct A; discriminate.
  - assert (Hl : In l c) by (apply Hi; left; auto). assert (Hr : incl r c) by (intros x Hx; apply Hi; right; auto).
    destruct (watch_ok a b c l Hw Hl) as [a' [Hwa Hok]]. destruct (eget e l) as [[]|] eqn:El.
    + rewrite Hwa in H. destruct (IH _ _ _ _ _ _ Hok Hr H) as [I1 [I2 I3]]. split; auto. split.
      * split; [intros _|intros _; apply I2; auto]. right. left. exists l. split; [left; auto|auto].
      * rewrite I3. cbn [find]. rewrite El. auto.
    + destruct (IH _ _ _ _ _ _ Hw Hr H) as [I1 [I2 I3]]. split; auto. split.
      * rewrite I2. split.
        -- intros [H0|[[x [Hx Hx']]|[[u [Hu [x [Hx Hx']]]]|[Hu [l1 [l2 [A [B [HA HB]]]]]]]]].
           ++ auto.
           ++ right. left. exists x. split; [right|]; auto.
           ++ right. right. left. exists u. split; auto. exists x. split; [right|]; auto.
           ++ right. right. right. split; auto. exists l1, l2, (l :: A), B. split; auto. rewrite HA. auto.
        -- intros [H0|[[x [[<-|Hx] Hx']]|[[u [Hu [x [[<-|Hx] Hx']]]]|[Hu [l1 [l2 [A [B [HA HB]]]]]]]]]; try congruence.
           ++ auto.
           ++ right. left. eauto.
           ++ right. right. left. eauto.
           ++ right. right. right. split; auto. destruct A as [|y A]; injection HA as -> ->; [destruct HB; congruence|]. exists l1, l2, A, B. auto.
      * rewrite I3. cbn [find]. rewrite El. auto.
    + rewrite Hwa in H. destruct unset as [u|].
      * destruct (IH _ _ _ _ _ _ Hok Hr H) as [I1 [I2 I3]]. split; auto. split; [|auto]. split; [intros _|intros _; apply I2; auto].
        right. right. left. exists u. split; auto. exists l. split; [left|]; auto.
      * destruct (IH _ _ _ _ _ _ Hok Hr H) as [I1 [I2 I3]]. split; auto. split.
        -- rewrite I2. split.
           ++ intros [H0|[[x [Hx Hx']]|[[u [Hu [x [Hx Hx']]]]|[Hu _]]]]; [auto| | |discriminate].
              ** right. left. exists x. split; [right|]; auto.
              ** right. right. right. split; auto. exists l, x, [], r. auto.
           ++ intros [H0|[[x [[<-|Hx] Hx']]|[[u [Hu _]]|[Hu [l1 [l2 [A [B [HA HB]]]]]]]]]; try congruence; auto.
              ** right. left. eauto.
              ** right. right. left. exists l. split; auto. destruct A as [|y A]; injection HA as HA1 HA2; subst.
                 --- destruct HB as [_ [HB1 HB2]]. eauto.
                 --- exists l1. split; [apply in_or_app; right; left; auto|tauto].
        -- rewrite I3. cbn [find]. rewrite El. auto.
Qed.

(** a clause under a partial assignment: false, unit with a given literal, or neither *)
Definition c_false (e : denv) (c : list dlit) : Prop := forall l, In l c -> eget e l = Some false.
Definition c_unit (e : denv) (c : list dlit) (u : dlit) : Prop := In u c /\ eget e u = None /\ forall l, In l c -> l <> u -> eget e l = Some false.
Definition c_open (e : denv) (c : list dlit) : Prop :=
  (exists l, In l c /\ eget e l = Some true) \/ (exists l1 l2, In l1 c /\ In l2 c /\ l1 <> l2 /\ eget e l1 = None /\ eget e l2 = None).
Lemma find_none_false e c : find (fun l => match eget e l with None => true | _ => false end) c = None ->
  (forall l, In l c -> eget e l <> Some true) -> c_false e c.
Proof.
  intros H Ht l Hl. pose proof (find_none _ _ H l Hl) as Hn. cbn in Hn. destruct (eget e l) as [[]|] eqn:E; auto; try discriminate. destruct (Ht l Hl E).
Qed.
Lemma find_some_unit e c u : NoDup c -> find (fun l => match eget e l with None => true | _ => false end) c = Some u ->
  (forall l, In l c -> eget e l <> Some true) ->
  ~ (exists l1 l2 A B, c = (A ++ l1 :: B)%list /\ eget e l1 = None /\ In l2 B /\ eget e l2 = None) -> c_unit e c u.
Proof.
  intros Hn H Ht H2. apply find_some in H. destruct H as [Hu Hu']. destruct (eget e u) eqn:Eu; [discriminate|]. split; auto. split; auto.
  intros l Hl Hne. destruct (eget e l) as [[]|] eqn:E; auto; [destruct (Ht l Hl E)|]. exfalso. apply H2.
  apply in_split in Hu. destruct Hu as [A [B ->]]. apply in_app_or in Hl. destruct Hl as [Hl|[Hl|Hl]]; [|congruence|].
  - apply in_split in Hl. destruct Hl as [A1 [A2 ->]]. exists l, u, A1, (A2 ++ u :: B)%list. rewrite <- app_assoc. cbn. split; auto. split; auto.
    split; auto. apply in_or_app. right. left. auto.
  - exists u, l, A, B. auto.
Qed.
Lemma get_implied_spec e cls : (forall wc, In wc cls -> wok wc /\ NoDup (snd wc)) ->
  exists r cls', get_implied e cls = ROk (r, cls') /\ map snd cls' = map snd cls /\ (forall wc, In wc cls' -> wok wc /\ NoDup (snd wc)) /\
  match r with
  | Bottom c => In c (map snd cls) /\ c_false e c
  | Pivot u c => In c (map snd cls) /\ c_unit e c u
  | NotUnsat => forall c, In c (map snd cls) -> c_open e c
  end.
Proof.
  induction cls as [|[w lits] r IH]; intros H.
  - exists NotUnsat, []. cbn. repeat split; auto; intros; contradiction.
  - destruct (H _ (or_introl eq_refl)) as [Hw Hn]. cbn [snd] in Hn.
    destruct IH as [res [cls' [G1 [G2 [G3 G4]]]]]; [intros wc Hwc; apply H; right; auto|].
    assert (NEXT : forall w', wok (w', lits) -> c_open e lits ->
      exists r0 cls0, (do x <- get_implied e r ; ROk (fst x, (w', lits) :: snd x)) = ROk (r0, cls0) /\ map snd cls0 = map snd ((w, lits) :: r) /\
        (forall wc, In wc cls0 -> wok wc /\ NoDup (snd wc)) /\
        match r0 with
        | Bottom c => In c (map snd ((w, lits) :: r)) /\ c_false e c
        | Pivot u c => In c (map snd ((w, lits) :: r)) /\ c_unit e c u
        | NotUnsat => forall c, In c (map snd ((w, lits) :: r)) -> c_open e c
        end).
    { intros w' Hw' Ho. rewrite G1. exists res, ((w', lits) :: cls'). cbn [obind fst snd map]. split; auto. split; [rewrite G2; auto|]. split.
      - intros wc [<-|Hwc]; [split; auto|auto].
      - destruct res as [u c|c|]; [split; [right|]; tauto|split; [right|]; tauto|]. intros c [<-|Hc]; auto. }
    cbn [get_implied]. destruct w as [[a|] [b|]]; unfold wok in Hw; cbn [fst snd] in Hw.
    + destruct Hw as [Hab [Ha Hb]]. assert (Hw : wok ((Some a, Some b), lits)) by (split; auto).
      destruct (eget e a) as [[]|] eqn:Ea.
      { apply NEXT; auto. left. eauto. }
      2: destruct (eget e b) as [[]|] eqn:Eb.
      2: { apply NEXT; auto. left. eauto. }
      3: { apply NEXT; auto. right. exists a, b. auto. }
      1: destruct (eget e b) as [[]|] eqn:Eb; [apply NEXT; auto; left; eauto| |].
      all: destruct (scan e lits (Some a, Some b) None false) as [[w' u'] nu'] eqn:Es;
        destruct (scan_spec e lits b lits a None false w' u' nu' Hw (incl_refl _) Es) as [[a' [_ S1]] [S2 S3]];
        (destruct nu';
         [ apply NEXT; auto;
           destruct S2 as [S2 _]; destruct (S2 eq_refl) as [?|[[x [Hx Hx']]|[[u [Hu _]]|[_ [l1 [l2 [A [B [HA [H1 [H2 H3]]]]]]]]]]]; try discriminate;
           [ left; eauto
           | right; exists l1, l2; subst lits; repeat split; auto;
             [ apply in_or_app; right; left; auto | apply in_or_app; right; right; auto
             | intros ->; apply NoDup_remove_2 in Hn; apply Hn, in_or_app; auto ] ]
         | assert (NT : forall l, In l lits -> eget e l <> Some true) by
             (intros l Hl Hx; enough (false = true) by discriminate; apply S2; right; left; eauto);
           assert (N2 : ~ (exists l1 l2 A B, lits = (A ++ l1 :: B)%list /\ eget e l1 = None /\ In l2 B /\ eget e l2 = None)) by
             (intros Hx; enough (false = true) by discriminate; apply S2; right; right; right; auto);
           destruct u' as [u|]; eexists _, _; (split; [reflexivity|]); cbn [map snd fst]; (split; [reflexivity|]);
           (split; [intros wc [<-|Hwc]; [split; auto|apply H; right; auto]|]); (split; [left; reflexivity|]);
           [ apply find_some_unit; auto | apply find_none_false; auto ] ]).
    + subst lits. destruct (eget e a) as [[]|] eqn:Ea.
      * apply NEXT; [reflexivity|]. left. exists a. cbn. auto.
      * eexists _, _. cbn [List.length Nat.eqb]. split; [reflexivity|]. split; auto. split; auto. cbn. split; auto. intros l [<-|[]]. auto.
      * eexists _, _. cbn [List.length Nat.eqb]. split; [reflexivity|]. split; auto. split; auto. cbn. split; auto. split; [left; auto|]. split; auto.
        intros l [<-|[]]; congruence.
    + destruct Hw.
    + subst lits. eexists _, _. split; [reflexivity|]. split; auto. split; auto. cbn. split; auto. intros l [].
Qed.

(** ** Unit propagation, as a specification: the assignments reached, and refutation *)
Inductive reach (cls : list (list dlit)) : denv -> Prop :=
| reach_nil : reach cls []
| reach_step e c u : reach cls e -> In c cls -> c_unit e c u -> reach cls (assign e u).
Definition up_refutes (cls : list (list dlit)) : Prop := exists e c, reach cls e /\ In c cls /\ c_false e c.
Lemma reach_sym cls e : reach cls e -> env_sym e.
Proof. induction 1; [intros l; reflexivity|apply assign_sym; auto]. Qed.
Lemma up_sound cls v : (forall c, In c cls -> hc v c) -> forall e, reach cls e -> forall l, eget e l = Some true -> hv v l = true.
Proof.
  intros Hc e Hr. induction Hr as [|e c u Hr IH Hi Hu]; intros l Hl; [discriminate|].
  assert (F : forall x, eget e x = Some false -> hv v x = false).
  { intros x Hx. assert (Hn : eget e (dneg x) = Some true) by (rewrite (reach_sym _ _ Hr), Hx; auto). apply IH in Hn. rewrite hv_neg in Hn. destruct (hv v x); auto. }
  rewrite eget_assign in Hl. destruct (blit_eqb l (dneg u)); [discriminate|]. destruct (blit_eqb l u) eqn:E; [|auto].
  apply blit_eqb_eq in E. subst l. destruct (Hc c Hi) as [x [Hx Hx']]. destruct Hu as [_ [_ Hu]].
  destruct (blit_dec x u) as [->|Hne]; auto. rewrite (F x (Hu x Hx Hne)) in Hx'. discriminate.
Qed.
Lemma up_refutes_sound cls v : up_refutes cls -> ~ (forall c, In c cls -> hc v c).
Proof.
  intros [e [c [Hr [Hi Hf]]]] Hc. destruct (Hc c Hi) as [x [Hx Hx']].
  assert (Hn : eget e (dneg x) = Some true) by (rewrite (reach_sym _ _ Hr), (Hf x Hx); auto).
  apply (up_sound cls v Hc e Hr) in Hn. rewrite hv_neg, Hx' in Hn. discriminate.
Qed.
(** a reached assignment in which every clause is open bounds every other one *)
Lemma open_closed cls e : reach cls e -> (forall c, In c cls -> c_open e c) -> forall e', reach cls e' -> forall l, eget e' l = Some true -> eget e l = Some true.
Proof.
  intros Hr Ho e' Hr'. induction Hr' as [|e' c u Hr' IH Hi Hu]; intros l Hl; [discriminate|].
  assert (F : forall x, eget e' x = Some false -> eget e x = Some false).
  { intros x Hx. assert (Hn : eget e' (dneg x) = Some true) by (rewrite (reach_sym _ _ Hr'), Hx; auto). apply IH in Hn.
    rewrite <- (dneg_invol x), (reach_sym _ _ Hr), Hn. reflexivity. }
  rewrite eget_assign in Hl. destruct (blit_eqb l (dneg u)); [discriminate|]. destruct (blit_eqb l u) eqn:E; [|auto].
  apply blit_eqb_eq in E. subst l. destruct Hu as [_ [_ Hu]].
  assert (G : forall x, In x c -> x <> u -> eget e x = Some false) by auto.
  destruct (Ho c Hi) as [[x [Hx Hx']]|[x [y [Hx [Hy [Hxy [Ex Ey]]]]]]].
  - destruct (blit_dec x u) as [->|Hne]; auto. rewrite (G x Hx Hne) in Hx'. discriminate.
  - destruct (blit_dec x u) as [->|Hne]; [|rewrite (G x Hx Hne) in Ex; discriminate]. rewrite (G y Hy (not_eq_sym Hxy)) in Ey. discriminate.
Qed.
Lemma open_not_refuted cls e : reach cls e -> (forall c, In c cls -> c_open e c) -> ~ up_refutes cls.
Proof.
  intros Hr Ho [e' [c [Hr' [Hi Hf]]]].
  assert (G : forall x, In x c -> eget e x = Some false).
  { intros x Hx. assert (Hn : eget e' (dneg x) = Some true) by (rewrite (reach_sym _ _ Hr'), (Hf x Hx); auto).
    apply (open_closed cls e Hr Ho e' Hr') in Hn. rewrite <- (dneg_invol x), (reach_sym _ _ Hr), Hn. reflexivity. }
  destruct (Ho c Hi) as [[x [Hx Hx']]|[x [y [Hx [Hy [Hxy [Ex Ey]]]]]]]; [rewrite (G x Hx) in Hx'|rewrite (G x Hx) in Ex]; discriminate.
Qed.
(** ** The loop *)
Definition unassigned (e : denv) (l : list dlit) : nat := List.length (filter (fun x => match eget e x with None => true | _ => false end) l).
Lemma filter_le {A} (f g : A -> bool) l : (forall x, f x = true -> g x = true) -> List.length (filter f l) <= List.length (filter g l).
Proof.
  intros H. induction l as [|a l IH]; cbn [filter]; auto. specialize (H a). destruct (f a), (g a); cbn [List.length]; try lia; discriminate H; auto.
Qed.
Lemma filter_lt {A} (f g : A -> bool) l x : (forall x, f x = true -> g x = true) -> In x l -> f x = false -> g x = true ->
  List.length (filter f l) < List.length (filter g l).
Proof.
  intros H. induction l as [|a l IH]; intros Hx Hf Hg; [destruct Hx|]. cbn [filter]. pose proof (filter_le f g l H) as HL. destruct Hx as [->|Hx].
  - rewrite Hf, Hg. cbn [List.length]. lia.
  - specialize (IH Hx Hf Hg). specialize (H a). destruct (f a), (g a); cbn [List.length]; try lia; discriminate H; auto.
Qed.
Lemma assign_unassigned e u l : eget e u = None -> In u l -> unassigned (assign e u) l < unassigned e l.
Proof.
  intros H Hu. unfold unassigned. apply filter_lt with (x := u); auto.
  - intros x. rewrite eget_assign. destruct (blit_eqb x (dneg u)); [discriminate|]. destruct (blit_eqb x u); [discriminate|auto].
  - rewrite eget_assign. assert (A : blit_eqb u u = true) by (apply blit_eqb_eq; auto). rewrite A. destruct (blit_eqb u (dneg u)); auto.
  - rewrite H. auto.
Qed.
Lemma rup_go_spec n : forall e cls, (forall wc, In wc cls -> wok wc /\ NoDup (snd wc)) -> reach (map snd cls) e ->
  unassigned e (flat_map snd cls) < n ->
  exists b, rup_go n e cls = ROk (Some b) /\ (b = true <-> up_refutes (map snd cls)).
Proof.
  induction n as [|n IH]; intros e cls Hok Hr Hn; [lia|]. cbn [rup_go].
  destruct (get_implied_spec e cls Hok) as [r [cls' [G1 [G2 [G3 G4]]]]]. rewrite G1. cbn [obind fst snd]. destruct r as [u c|c|].
  - destruct G4 as [Gi Gu]. rewrite <- G2. apply IH; auto.
    + rewrite G2. change (eset (eset e u true) (dneg u) false) with (assign e u). econstructor; eauto.
    + change (eset (eset e u true) (dneg u) false) with (assign e u). rewrite flat_map_concat_map, G2, <- flat_map_concat_map.
      pose proof (assign_unassigned e u (flat_map snd cls) (proj1 (proj2 Gu))) as HL. assert (In u (flat_map snd cls)).
      { apply in_map_iff in Gi. destruct Gi as [wc [<- Hwc]]. apply in_flat_map. exists wc. split; auto. apply Gu. }
      specialize (HL H). lia.
  - exists true. split; auto. split; auto. intros _. destruct G4. exists e, c. auto.
  - exists false. split; auto. split; [discriminate|]. intros Hx. destruct (open_not_refuted _ e Hr G4 Hx).
Qed.
Definition goal_clauses (goal : list term) : list (list dlit) := map (fun t => [dneg (rm_neg_polarity t)]) goal.
Lemma init_map cls goal : map snd (init_clauses cls goal) = (goal_clauses goal ++ cls)%list.
Proof. unfold init_clauses, goal_clauses. rewrite map_app, !map_map. f_equal. rewrite <- (map_id cls) at 2. apply map_ext. auto. Qed.
(** [rup] always returns, and answers whether unit propagation refutes the clauses with the negated goal. *)
Lemma rup_exact cls goal : (forall c, In c cls -> NoDup c) -> exists b, rup cls goal = ROk b /\ (b = true <-> up_refutes (goal_clauses goal ++ cls)).
Proof.
  intros Hn. unfold rup. destruct (rup_go_spec (S (lit_count (init_clauses cls goal))) [] (init_clauses cls goal)) as [b [H1 H2]].
  - intros wc Hwc. unfold init_clauses in Hwc. apply in_app_or in Hwc. destruct Hwc as [Hwc|Hwc]; apply in_map_iff in Hwc; destruct Hwc as [x [<- Hx]].
    + split; [reflexivity|]. cbn. constructor; [intros []|constructor].
    + cbn [snd]. split; [apply first_two_ok|]; auto.
  - constructor.
  - unfold unassigned, lit_count. apply Nat.lt_succ_r. rewrite (filter_le _ (fun _ => true)) by auto. clear. induction (flat_map snd _); cbn; lia.
  - exists b. rewrite H1. cbn [obind]. split; auto. rewrite H2, init_map. tauto.
Qed.
Lemma rup_true cls goal v : (forall c, In c cls -> NoDup c) -> rup cls goal = ROk true -> (forall c, In c cls -> hc v c) -> hc v (map rm_neg_polarity goal).
Proof.
  intros Hn H Hc. destruct (rup_exact cls goal Hn) as [b [H1 H2]]. rewrite H in H1. injection H1 as <-. pose proof (proj1 H2 eq_refl) as Hu.
  destruct (existsb (fun l => hv v l) (map rm_neg_polarity goal)) eqn:E; [apply existsb_exists in E; exact E|]. exfalso.
  apply (up_refutes_sound _ v Hu). intros c Hi. apply in_app_or in Hi. destruct Hi as [Hi|Hi]; [|auto]. unfold goal_clauses in Hi. apply in_map_iff in Hi.
  destruct Hi as [t [<- Ht]]. exists (dneg (rm_neg_polarity t)). split; [left; auto|]. rewrite hv_neg. apply negb_true_iff.
  destruct (hv v (rm_neg_polarity t)) eqn:Et; auto. rewrite <- not_true_iff_false in E. destruct E. apply existsb_exists. exists (rm_neg_polarity t). split; auto. apply in_map; auto.
Qed.
(** the order in which the hash map is traversed does not matter *)
Lemma reach_incl cls cls' e : incl cls cls' -> reach cls e -> reach cls' e.
Proof. intros Hi H. induction H as [|e c u H IH Hc Hu]; [constructor|]. econstructor; eauto. Qed.
Lemma up_incl cls cls' : incl cls cls' -> up_refutes cls -> up_refutes cls'.
Proof. intros Hi [e [c [Hr [Hc Hf]]]]. exists e, c. split; [eapply reach_incl; eauto|auto]. Qed.
Lemma rup_order cls cls' goal : (forall c, In c cls -> NoDup c) -> Permutation cls cls' -> rup cls goal = rup cls' goal.
Proof.
  intros Hn Hp. assert (Hn' : forall c, In c cls' -> NoDup c) by (intros c Hc; apply Hn; eapply Permutation_in; [apply Permutation_sym|]; eauto).
  destruct (rup_exact cls goal Hn) as [b [H1 H2]], (rup_exact cls' goal Hn') as [b' [H1' H2']]. rewrite H1, H1'. f_equal.
  assert (G : up_refutes (goal_clauses goal ++ cls) <-> up_refutes (goal_clauses goal ++ cls')).
  { split; apply up_incl; intros x Hx; apply in_app_or in Hx; apply in_or_app; (destruct Hx as [Hx|Hx]; [left|right]; auto).
    - eapply Permutation_in; eauto. - eapply Permutation_in; [apply Permutation_sym|]; eauto. }
  destruct b, b'; auto; exfalso; intuition discriminate.
Qed.

(** ** The clauses of the map *)
Lemma set_of_NoDup {A} (eqb : A -> A -> bool) (Heq : forall a b, eqb a b = true <-> a = b) l : NoDup (set_of eqb l).
Proof.
  unfold set_of. assert (G : forall l s, NoDup s -> NoDup (fold_left (fun s a => set_insert eqb a s) l s)).
  { clear l. induction l as [|a l IH]; intros s Hs; cbn [fold_left]; auto. apply IH. unfold set_insert. destruct (memb eqb a s) eqn:E; auto.
    eapply Permutation_NoDup; [apply Permutation_cons_append|]. constructor; auto. intros Hi. rewrite <- not_true_iff_false in E. apply E. unfold memb. apply existsb_exists. exists a. split; auto. apply Heq. auto. }
  apply G. constructor.
Qed.
Lemma lits_of_NoDup l : NoDup (lits_of l).
Proof. apply set_of_NoDup, blit_eqb_eq. Qed.
Lemma lits_of_In l x : In x (lits_of l) <-> In x (map rm_neg_polarity l).
Proof. apply set_of_In, blit_eqb_eq. Qed.
Lemma hc_lits v l : hc v (lits_of l) <-> hc v (map rm_neg_polarity l).
Proof. split; intros [x [H1 H2]]; exists x; split; auto; apply lits_of_In; auto. Qed.
Lemma hc_clause {I} (E : env I) l : hc (holds E) (lits_of l) <-> clause_holds E l.
Proof. rewrite hc_lits, holds_blits. reflexivity. Qed.
(** atoms of literals are not negations *)
Lemma rm_neg_atom t : remove_all_negations (snd (rm_neg_polarity t)) = (0, snd (rm_neg_polarity t)).
Proof.
  unfold rm_neg_polarity. induction t as [c|x s|f args ? ?|o args IH|s|b vs body ?|bs body ? ?|o oargs args ? ?] using term_ind'; try reflexivity.
  destruct args as [|a [|b r]]; try reflexivity. cbn [remove_all_negations]. destruct (op_eqb o ONot) eqn:Eo.
  - inversion IH as [|? ? IHa _]; subst. destruct (remove_all_negations a) as [n u]. exact IHa.
  - cbn [snd remove_all_negations]. rewrite Eo. reflexivity.
Qed.
Definition atomic (l : dlit) : Prop := remove_all_negations (snd l) = (0, snd l).
Lemma rm_neg_lit l : atomic l -> rm_neg_polarity (lit_term l) = l.
Proof.
  destruct l as [[] t]; unfold atomic, lit_term, rm_neg_polarity; cbn [fst snd]; intros H.
  - rewrite H. reflexivity.
  - unfold tNot. cbn [remove_all_negations]. assert (A : op_eqb ONot ONot = true) by reflexivity. rewrite A, H. reflexivity.
Qed.
Lemma lits_atomic l x : In x (lits_of l) -> atomic x.
Proof. rewrite lits_of_In, in_map_iff. intros [t [<- _]]. apply rm_neg_atom. Qed.

(** ** Resolution asymmetric tautologies *)
Definition flip (v : term -> bool) (l : dlit) : term -> bool := fun t => if term_eqb t (snd l) then fst l else v t.
Lemma flip_same v l : hv (flip v l) l = true.
Proof. unfold hv, flip. assert (A : term_eqb (snd l) (snd l) = true) by (apply term_eqb_eq; auto). rewrite A. destruct (fst l); auto. Qed.
Lemma flip_other v l x : x <> dneg l -> hv v x = true -> hv (flip v l) x = true.
Proof.
  intros Hn H. unfold hv, flip in *. destruct (term_eqb (snd x) (snd l)) eqn:Et; auto. apply term_eqb_eq in Et.
  destruct x as [px tx], l as [pl tl]; cbn in *. subst. destruct px, pl; auto; exfalso; apply Hn; reflexivity.
Qed.
Lemma drat_loop_true all np rest : forall cls, drat_loop all np rest cls = ROk true ->
  forall c, In c cls -> In np c -> rup all (map lit_term (set_remove blit_eqb np c) ++ rest)%list = ROk true.
Proof.
  induction cls as [|a r IH]; intros H c Hc Hn; [destruct Hc|]. cbn [drat_loop] in H. destruct (memb blit_eqb np a) eqn:Em.
  - apply obind_ok in H. destruct H as [b [Hb H]]. destruct b; [|discriminate]. destruct Hc as [<-|Hc]; auto.
  - destruct Hc as [->|Hc]; auto. exfalso. rewrite <- not_true_iff_false in Em. apply Em. unfold memb. apply existsb_exists. exists np. split; auto. apply blit_eqb_eq; auto.
Qed.
Lemma check_drat_sat cls goal v : (forall c, In c cls -> NoDup c) -> (forall c x, In c cls -> In x c -> atomic x) ->
  check_drat cls goal = ROk true -> (forall c, In c cls -> hc v c) ->
  exists v', (forall c, In c cls -> hc v' c) /\ hc v' (map rm_neg_polarity goal).
Proof.
  intros Hn Ha H Hv. destruct goal as [|p rest]; [discriminate|]. cbn [check_drat] in H. pose proof (drat_loop_true _ _ _ _ H) as HL.
  destruct (existsb (fun l => hv v l) (map rm_neg_polarity (p :: rest))) eqn:Eg.
  { exists v. split; auto. apply existsb_exists in Eg. exact Eg. }
  set (l := rm_neg_polarity p) in *. exists (flip v l). split.
  - intros c Hc. destruct (in_dec blit_dec (dneg l) c) as [Hi|Hi].
    + specialize (HL c Hc Hi). apply rup_true with (v := v) in HL; auto. destruct HL as [x [Hx Hx']]. rewrite map_app in Hx. apply in_app_or in Hx. destruct Hx as [Hx|Hx].
      * rewrite map_map in Hx. apply in_map_iff in Hx. destruct Hx as [y [<- Hy]]. apply (set_remove_In blit_eqb blit_eqb_eq) in Hy. destruct Hy as [Hy Hyn].
        rewrite rm_neg_lit in Hx' by (apply (Ha c); auto). exists y. split; auto. apply flip_other; auto.
      * exfalso. rewrite <- not_true_iff_false in Eg. apply Eg. apply existsb_exists. exists x. split; auto. right. exact Hx.
    + destruct (Hv c Hc) as [x [Hx Hx']]. exists x. split; auto. apply flip_other; auto. intros ->. apply Hi. auto.
  - exists l. split; [left; auto|]. apply flip_same.
Qed.

Section HashSound.
  Context {K : Type} (keqb : K -> K -> bool) (hash : term -> K).
  Hypothesis keqb_eq : forall a b, keqb a b = true <-> a = b.
  (** no clause of the proof has the same hash as the conclusion without being the conclusion *)
  Definition no_collision (c : clause) (ps : list clause) (args : list term) : Prop :=
    forall l, In l ps \/ In (TOp OCl l) args -> hash (TOp OCl l) = hash (TOp OCl c) -> l = c.
  Lemma hash_cl l : hash_term hash (TOp OCl l) = hash (TOp OCl l).
  Proof. unfold hash_term, rm_neg_polarity. destruct l as [|a [|b r]]; reflexivity. Qed.
  Lemma im_insert_In (m : dmap) k c x : In x (im_insert keqb m k c) -> x = (k, c) \/ In x m.
  Proof.
    induction m as [|[a b] r IH]; cbn [im_insert]; intros H; [destruct H as [<-|[]]; auto|]. destruct (keqb k a) eqn:Ek.
    - apply keqb_eq in Ek. subst. destruct H as [<-|H]; auto. right. right. auto.
    - destruct H as [<-|H]; [right; left; auto|]. destruct (IH H); auto. right. right. auto.
  Qed.
  Definition from (src : list clause) (m : dmap (K := K)) : Prop := forall k c, In (k, c) m -> exists l, In l src /\ k = hash (TOp OCl l) /\ c = lits_of l.
  Lemma from_nodup src m c : from src m -> In c (map snd m) -> NoDup c.
  Proof. intros H Hc. apply in_map_iff in Hc. destruct Hc as [[k c'] [<- Hc]]. destruct (H _ _ Hc) as [l [_ [_ ->]]]. apply lits_of_NoDup. Qed.
  Lemma from_atomic src m c x : from src m -> In c (map snd m) -> In x c -> atomic x.
  Proof. intros H Hc. apply in_map_iff in Hc. destruct Hc as [[k c'] [<- Hc]]. destruct (H _ _ Hc) as [l [_ [_ ->]]]. apply lits_atomic. Qed.
  Lemma from_ins src m l : from src m -> In l src -> from src (dins keqb m (hash_term hash (TOp OCl l)) (lits_of l)).
  Proof. intros H Hl k c Hi. apply im_insert_In in Hi. destruct Hi as [Hi|Hi]; auto. injection Hi as -> ->. exists l. rewrite hash_cl. auto. Qed.
  Definition sat (v : term -> bool) (m : dmap (K := K)) : Prop := forall c, In c (map snd m) -> hc v c.
  Lemma sat_ins v m k c : sat v m -> hc v c -> sat v (dins keqb m k c).
  Proof. intros H Hc x Hx. apply in_map_iff in Hx. destruct Hx as [[k' c'] [<- Hx]]. apply im_insert_In in Hx. destruct Hx as [Hx|Hx]; [injection Hx as -> ->; auto|]. apply H. apply in_map_iff. exists (k', c'). auto. Qed.
  Lemma dinit_ok ps v : (forall p, In p ps -> hc v (lits_of p)) -> from ps (dinit keqb hash (map (TOp OCl) ps)) /\ sat v (dinit keqb hash (map (TOp OCl) ps)).
  Proof.
    intros Hp. unfold dinit. assert (G : forall qs m, from ps m -> sat v m -> incl qs ps ->
      let m' := fold_left (fun m p => dins keqb m (hash_term hash p) (dclause p)) (map (TOp OCl) qs) m in from ps m' /\ sat v m').
    { induction qs as [|q qs IH]; intros m H1 H2 Hi; [split; auto|]. cbn [map fold_left]. apply IH.
      - apply from_ins; auto. apply Hi. left. auto.
      - apply sat_ins; auto. apply Hp. apply Hi. left. auto.
      - intros x Hx. apply Hi. right. auto. }
    apply G; [intros k c []|intros c []|apply incl_refl].
  Qed.
  (** One argument: the map still comes from the premises and arguments, is still satisfiable, and without RAT by the same valuation *)
  Lemma dstep_ok rat src m t m' v : from src m -> sat v m -> (forall l, t = TOp OCl l -> In l src) -> dstep keqb hash rat m t = ROk m' ->
    from src m' /\ exists v', sat v' m' /\ (rat = false -> v' = v).
  Proof.
    intros Hf Hs Ht H. unfold dstep in H. destruct (op1 ODelete t) as [d|].
    - destruct (as_op OCl d) as [[|a l]|]; [discriminate| |discriminate]. injection H as <-. split.
      + intros k c Hi. apply filter_In in Hi. apply Hf, Hi.
      + exists v. split; auto. intros c Hc. apply Hs. apply in_map_iff in Hc. destruct Hc as [x [<- Hx]]. apply filter_In in Hx. apply in_map, Hx.
    - destruct (as_op OCl t) as [l|] eqn:El; [|discriminate]. apply as_op_some in El. apply obind_ok in H. destruct H as [b [Hb H]]. apply obind_ok in H. destruct H as [b' [Hb' H]].
      apply obind_ok in H. destruct H as [? [Hr H]]. apply rassert_ok in Hr. subst b'. injection H as <-. subst t. split; [apply from_ins; auto|].
      destruct b.
      + exists v. split; auto. apply sat_ins; auto. apply hc_lits. eapply rup_true; eauto. intros c. apply (from_nodup src). auto.
      + destruct (rat && negb (List.length l =? 0)) eqn:Er; [|discriminate]. apply andb_true_iff in Er. destruct Er as [-> _].
        destruct (check_drat_sat (map snd m) l v) as [v' [H1 H2]]; auto.
        * intros c. apply (from_nodup src). auto.
        * intros c y. apply (from_atomic src). auto.
        * exists v'. split; [|discriminate]. apply sat_ins; auto. apply hc_lits. auto.
  Qed.
  Lemma dsteps_ok rat src : forall args m m' v, from src m -> sat v m -> (forall l, In (TOp OCl l) args -> In l src) -> dsteps keqb hash rat m args = ROk m' ->
    from src m' /\ exists v', sat v' m' /\ (rat = false -> v' = v).
  Proof.
    induction args as [|t r IH]; intros m m' v Hf Hs Ha H; cbn [dsteps] in H; [injection H as <-; split; eauto|].
    apply obind_ok in H. destruct H as [m1 [H1 H]]. destruct (dstep_ok rat src m t m1 v Hf Hs) as [Hf1 [v1 [Hs1 Hv1]]]; auto.
    { intros l ->. apply Ha. left. auto. }
    destruct (IH m1 m' v1 Hf1 Hs1) as [Hf2 [v2 [Hs2 Hv2]]]; auto. { intros l Hl. apply Ha. right. auto. }
    split; auto. exists v2. split; auto. intros ->. rewrite Hv2, Hv1; auto.
  Qed.
  Definition cl_args (args : list term) : list clause := flat_map (fun t => match as_op OCl t with Some l => [l] | None => [] end) args.
  Lemma cl_args_In args l : In l (cl_args args) <-> In (TOp OCl l) args.
  Proof.
    unfold cl_args. rewrite in_flat_map. split.
    - intros [t [Ht Hl]]. destruct (as_op OCl t) as [l'|] eqn:E; [|destruct Hl]. apply as_op_some in E. destruct Hl as [<-|[]]. subst. auto.
    - intros H. exists (TOp OCl l). split; auto. cbn. auto.
  Qed.
  Lemma drup_main rat c ps args v : r_drup keqb hash rat c ps args = ROk tt -> no_collision c ps args -> (forall p, In p ps -> hc v (lits_of p)) ->
    exists v', hc v' (lits_of c) /\ (rat = false -> v' = v).
  Proof.
    intros H Hn Hp. unfold r_drup in H. apply obind_ok in H. destruct H as [m [Hm H]]. destruct (im_get keqb m (hash_term hash (TOp OCl c))) as [d|] eqn:Ed; [|discriminate]. clear H.
    destruct (dinit_ok ps v Hp) as [F0 S0].
    destruct (dsteps_ok rat (ps ++ cl_args args)%list args (dinit keqb hash (map (TOp OCl) ps)) m v) as [F [v' [Sx Hv]]]; auto.
    - intros k x Hi. destruct (F0 k x Hi) as [l [Hl He]]. exists l. split; auto. apply in_or_app. auto.
    - intros l Hl. apply in_or_app. right. apply cl_args_In. auto.
    - exists v'. split; auto. assert (Hi : In (hash_term hash (TOp OCl c), d) m).
      { clear - Ed keqb_eq. induction m as [|[a b] r IH]; [discriminate|]. cbn [im_get] in Ed. destruct (keqb (hash_term hash (TOp OCl c)) a) eqn:Ek; [|right; auto].
        apply keqb_eq in Ek. injection Ed as ->. subst. left. auto. }
      rewrite hash_cl in Hi. destruct (F _ _ Hi) as [l [Hl [He ->]]]. assert (l = c).
      { apply Hn; auto. apply in_app_or in Hl. destruct Hl; [left|right; apply cl_args_In]; auto. }
      subst. apply Sx. apply in_map_iff. exists (hash (TOp OCl c), lits_of c). auto.
  Qed.
  Lemma drup_sound c ps args : r_drup keqb hash false c ps args = ROk tt -> no_collision c ps args -> entails ps c.
  Proof.
    intros H Hn I E HE Hp. destruct (drup_main false c ps args (holds E) H Hn) as [v [Hv Hv']].
    - intros p Hi. apply hc_clause. auto.
    - rewrite Hv' in Hv by auto. apply hc_clause. auto.
  Qed.
  Lemma drat_sound args ps : r_drup keqb hash true [] ps args = ROk tt -> no_collision [] ps args -> entails ps [].
  Proof.
    intros H Hn I E HE Hp. destruct (drup_main true [] ps args (holds E) H Hn) as [v [[x [[] _]] _]]. intros p Hi. apply hc_clause. auto.
  Qed.
  (** a drup proof is a drat proof *)
End HashSound.
