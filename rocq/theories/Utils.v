(** Containers of carcara/src/utils.rs. *)
From Coq Require Import List Bool Arith Lia Permutation.
From Verif Require Import Base.
Import ListNotations.

Section Maps.
  Context {K : Type} (keqb : K -> K -> bool) (keqb_eq : forall a b, keqb a b = true <-> a = b).
  Lemma keqb_refl a : keqb a a = true. Proof. apply keqb_eq; reflexivity. Qed.
  Lemma keqb_neq a b : a <> b -> keqb a b = false.
  Proof. intros H. destruct (keqb a b) eqn:E; [apply keqb_eq in E; contradiction|reflexivity]. Qed.

  (** ** [IndexMap<K, V>] (crate indexmap): insertion-ordered association list with unique keys *)
  Section IndexMap.
    Context {V : Type}.
    Fixpoint im_get (m : list (K * V)) (k : K) : option V :=
      match m with [] => None | (k', v) :: r => if keqb k k' then Some v else im_get r k end.
    (** [insert]: replaces in place or appends *)
    Fixpoint im_insert (m : list (K * V)) (k : K) (v : V) : list (K * V) :=
      match m with
      | [] => [(k, v)]
      | (k', v') :: r => if keqb k k' then (k', v) :: r else (k', v') :: im_insert r k v
      end.
    Lemma im_get_insert m k v k' :
      im_get (im_insert m k v) k' = if keqb k' k then Some v else im_get m k'.
    Proof.
      induction m as [|[a b] r IH]; simpl.
      - reflexivity.
      - destruct (keqb k a) eqn:E; simpl.
        + apply keqb_eq in E. subst a. destruct (keqb k' k); reflexivity.
        + destruct (keqb k' a) eqn:E2.
          * apply keqb_eq in E2. subst a. destruct (keqb k' k) eqn:E3; [|reflexivity].
            apply keqb_eq in E3. subst. rewrite keqb_refl in E. discriminate.
          * apply IH.
    Qed.
    Lemma im_insert_keys m k v : map fst (im_insert m k v) = if existsb (keqb k) (map fst m) then map fst m else map fst m ++ [k].
    Proof.
      induction m as [|[a b] r IH]; simpl; [reflexivity|].
      destruct (keqb k a); simpl; [reflexivity|]. rewrite IH. destruct (existsb (keqb k) (map fst r)); reflexivity.
    Qed.
    Lemma im_insert_NoDup m k v : NoDup (map fst m) -> NoDup (map fst (im_insert m k v)).
    Proof.
      intros H. rewrite im_insert_keys. destruct (existsb (keqb k) (map fst m)) eqn:E; [exact H|].
      apply Permutation_NoDup with (k :: map fst m); [apply Permutation_cons_append|].
      constructor; [|exact H]. intros Hin. rewrite <- not_true_iff_false, existsb_exists in E. apply E.
      exists k. split; [exact Hin|apply keqb_refl].
    Qed.
    Lemma im_get_In m k v : NoDup (map fst m) -> (im_get m k = Some v <-> In (k, v) m).
    Proof.
      induction m as [|[a b] r IH]; simpl; intros HN; [split; [discriminate|tauto]|].
      inversion HN as [|? ? Hn HN']; subst. destruct (keqb k a) eqn:E.
      - apply keqb_eq in E. subst a. split.
        + intros H; injection H as <-. auto.
        + intros [H|H]; [injection H as <-; reflexivity|]. destruct Hn. apply in_map_iff. exists (k, v). auto.
      - rewrite IH by exact HN'. split; [auto|]. intros [H|H]; [|exact H]. injection H as <- <-.
        rewrite keqb_refl in E. discriminate.
    Qed.
    (** [swap_remove]: the last entry takes the place of the removed one *)
    Fixpoint im_swap_remove (m : list (K * V)) (k : K) : list (K * V) :=
      match m with
      | [] => []
      | (k', v) :: r =>
          if keqb k k' then match r with [] => [] | x :: _ => last r x :: removelast r end
          else (k', v) :: im_swap_remove r k
      end.
    Lemma last_removelast_perm {A} (r : list A) x d : Permutation (last (x :: r) d :: removelast (x :: r)) (x :: r).
    Proof.
      rewrite (app_removelast_last d (l := x :: r)) at 3 by discriminate. apply Permutation_cons_append.
    Qed.
    Lemma im_swap_remove_perm m k v : im_get m k = Some v ->
      Permutation m ((k, v) :: im_swap_remove m k).
    Proof.
      induction m as [|[a b] r IH]; simpl; [discriminate|]. destruct (keqb k a) eqn:E.
      - apply keqb_eq in E. subst a. intros H; injection H as <-. constructor. destruct r as [|x r]; [constructor|].
        symmetry. apply last_removelast_perm.
      - intros H. etransitivity; [apply perm_skip, IH, H|]. apply perm_swap.
    Qed.
  End IndexMap.

  (** ** [MultiSet<T>], utils.rs:176-282 *)
  Definition mset := list (K * nat).
  Definition ms_get (m : mset) k : nat := match im_get m k with Some n => n | None => 0 end.
  Definition ms_insert (m : mset) k : mset := im_insert m k (ms_get m k + 1).
  Definition ms_of (l : list K) : mset := fold_left ms_insert l [].
  Inductive ms_diff := MsNone | MsMissing (k : K) | MsExtra (k : K).
  Fixpoint ms_diff1 (items : mset) (other : mset) (flip : bool) : ms_diff :=
    match items with
    | [] => MsNone
    | (k, n) :: r =>
        let o := ms_get other k in
        if (if flip then Nat.ltb n o else Nat.ltb o n) then MsExtra k
        else if (if flip then Nat.ltb o n else Nat.ltb n o) then MsMissing k
        else ms_diff1 r other flip
    end.
  (** symmetric_difference, utils.rs:234-254 *)
  Definition ms_sym_diff (self other : mset) : ms_diff :=
    match ms_diff1 self other false with
    | MsNone => ms_diff1 other self true
    | d => d
    end.
  (** [PartialEq] of the underlying IndexMap: same length and same value for every key *)
  Definition ms_eqb (a b : mset) : bool :=
    Nat.eqb (length a) (length b) &&
    forallb (fun p => match im_get b (fst p) with Some n => Nat.eqb (snd p) n | None => false end) a.

  Fixpoint occ (k : K) (l : list K) : nat :=
    match l with [] => 0 | x :: r => (if keqb k x then 1 else 0) + occ k r end.
  Lemma occ_app k l r : occ k (l ++ r) = occ k l + occ k r.
  Proof. induction l as [|x l IH]; simpl; [reflexivity|]. rewrite IH. lia. Qed.
  Lemma occ_pos k l : 0 < occ k l <-> In k l.
  Proof.
    induction l as [|x l IH]; simpl; [split; [lia|tauto]|]. destruct (keqb k x) eqn:E.
    - apply keqb_eq in E. split; [auto|lia].
    - simpl. rewrite IH. split; [auto|]. intros [->|H]; auto. rewrite keqb_refl in E. discriminate.
  Qed.
  Lemma occ_perm l r : (forall k, occ k l = occ k r) -> Permutation l r.
  Proof.
    revert r. induction l as [|x l IH]; intros r H.
    - destruct r as [|y r]; [constructor|]. specialize (H y). simpl in H. rewrite keqb_refl in H. discriminate.
    - assert (Hx : In x r). { apply occ_pos. rewrite <- H. simpl. rewrite keqb_refl. lia. }
      apply in_split in Hx. destruct Hx as [r1 [r2 ->]]. apply Permutation_cons_app. apply IH. intros k.
      specialize (H k). simpl in H. rewrite occ_app in *. simpl in H. lia.
  Qed.
  Lemma perm_occ l r : Permutation l r -> forall k, occ k l = occ k r.
  Proof. induction 1; intros k; simpl; try lia; auto. rewrite IHPermutation1. auto. Qed.

  Lemma ms_of_spec_gen l m : NoDup (map fst m) ->
    NoDup (map fst (fold_left ms_insert l m)) /\
    (forall k, ms_get (fold_left ms_insert l m) k = ms_get m k + occ k l) /\
    (forall k n, In (k, n) (fold_left ms_insert l m) -> 0 < n \/ In (k, n) m).
  Proof.
    revert m. induction l as [|x l IH]; simpl; intros m HN; [repeat split; auto|].
    destruct (IH (ms_insert m x)) as [H1 [H2 H3]]; [apply im_insert_NoDup; auto|].
    split; [exact H1|]. split.
    - intros k. rewrite H2. unfold ms_insert, ms_get at 1. rewrite im_get_insert.
      destruct (keqb k x) eqn:E; [apply keqb_eq in E; subst; lia|]. unfold ms_get. lia.
    - intros k n Hin. destruct (H3 k n Hin) as [H|H]; [auto|].
      rewrite <- im_get_In in H by (apply im_insert_NoDup; auto). unfold ms_insert in H.
      rewrite im_get_insert in H. destruct (keqb k x); [injection H as <-; left; lia|].
      right. apply im_get_In; auto.
  Qed.
  Lemma ms_of_NoDup l : NoDup (map fst (ms_of l)).
  Proof. apply (ms_of_spec_gen l []). constructor. Qed.
  Lemma ms_of_get l k : ms_get (ms_of l) k = occ k l.
  Proof. destruct (ms_of_spec_gen l [] (NoDup_nil _)) as [_ [H _]]. apply H. Qed.
  Lemma ms_of_pos l k n : In (k, n) (ms_of l) -> 0 < n.
  Proof. intros H. destruct (ms_of_spec_gen l [] (NoDup_nil _)) as [_ [_ H3]]. destruct (H3 k n H) as [H'|[]]; auto. Qed.
  Lemma ms_get_In m k n : NoDup (map fst m) -> In (k, n) m -> ms_get m k = n.
  Proof. intros HN H. apply im_get_In in H; auto. unfold ms_get. rewrite H. reflexivity. Qed.
  Lemma ms_get_pos_In m k : 0 < ms_get m k -> In (k, ms_get m k) m.
  Proof.
    unfold ms_get. induction m as [|[a b] r IH]; simpl; [lia|]. destruct (keqb k a) eqn:E.
    - apply keqb_eq in E. subst. auto.
    - intros H. right. apply IH, H.
  Qed.
  Lemma ms_diff1_none items other flip : ms_diff1 items other flip = MsNone <->
    (forall k n, In (k, n) items -> ms_get other k = n).
  Proof.
    induction items as [|[k n] r IH]; simpl; [split; [contradiction|reflexivity]|].
    split.
    - intros H k' n' Hin. destruct (if flip then _ else _) eqn:E1; [discriminate|].
      destruct (if flip then Nat.ltb _ n else _) eqn:E2; [discriminate|].
      destruct Hin as [Hin|Hin]; [injection Hin as <- <-|apply IH; auto].
      destruct flip; apply Nat.ltb_ge in E1, E2; lia.
    - intros H. rewrite (H k n) by auto. rewrite Nat.ltb_irrefl. destruct flip; apply IH; auto.
  Qed.
  (** [symmetric_difference] reports no difference exactly for permutations. *)
  Theorem ms_sym_diff_spec l r : ms_sym_diff (ms_of l) (ms_of r) = MsNone <-> Permutation l r.
  Proof.
    unfold ms_sym_diff. split.
    - intros H. destruct (ms_diff1 (ms_of l) (ms_of r) false) eqn:E; try discriminate.
      rewrite ms_diff1_none in E, H. apply occ_perm. intros k. rewrite <- !ms_of_get.
      destruct (ms_get (ms_of l) k) eqn:E1.
      + destruct (ms_get (ms_of r) k) eqn:E2; [reflexivity|].
        assert (Hp : 0 < ms_get (ms_of r) k) by lia. apply ms_get_pos_In, H in Hp. lia.
      + assert (Hp : 0 < ms_get (ms_of l) k) by lia. apply ms_get_pos_In, E in Hp. lia.
    - intros H. assert (HG : forall k, ms_get (ms_of l) k = ms_get (ms_of r) k).
      { intros k. rewrite !ms_of_get. apply perm_occ, H. }
      assert (E : ms_diff1 (ms_of l) (ms_of r) false = MsNone).
      { apply ms_diff1_none. intros k n Hin. rewrite <- HG. apply ms_get_In; [apply ms_of_NoDup|exact Hin]. }
      rewrite E. apply ms_diff1_none. intros k n Hin. rewrite HG. apply ms_get_In; [apply ms_of_NoDup|exact Hin].
  Qed.
  (** equality of multisets is equality up to permutation *)
  Theorem ms_eqb_spec l r : ms_eqb (ms_of l) (ms_of r) = true <-> Permutation l r.
  Proof.
    unfold ms_eqb. rewrite andb_true_iff, Nat.eqb_eq, forallb_forall. split.
    - intros [HL HF]. apply ms_sym_diff_spec. unfold ms_sym_diff.
      assert (HA : forall k n, In (k, n) (ms_of l) -> In (k, n) (ms_of r)).
      { intros k n Hin. specialize (HF _ Hin). cbn [fst snd] in HF. destruct (im_get (ms_of r) k) eqn:E; [|discriminate].
        apply Nat.eqb_eq in HF. subst. apply im_get_In in E; [exact E|apply ms_of_NoDup]. }
      assert (HB : forall k n, In (k, n) (ms_of r) -> In (k, n) (ms_of l)).
      { assert (HNl : NoDup (ms_of l)) by (apply (NoDup_map_inv fst), ms_of_NoDup).
        intros k n. apply (NoDup_length_incl HNl); [lia|]. intros [k' n']; apply HA. }
      assert (E : ms_diff1 (ms_of l) (ms_of r) false = MsNone).
      { apply ms_diff1_none. intros k n Hin. apply ms_get_In; [apply ms_of_NoDup|auto]. }
      rewrite E. apply ms_diff1_none. intros k n Hin. apply ms_get_In; [apply ms_of_NoDup|auto].
    - intros H. assert (HG : forall k, ms_get (ms_of l) k = ms_get (ms_of r) k).
      { intros k. rewrite !ms_of_get. apply perm_occ, H. }
      assert (HI : forall a b, (forall k, ms_get (ms_of a) k = ms_get (ms_of b) k) -> incl (ms_of a) (ms_of b)).
      { intros a b Hab [k n] Hin. pose proof (ms_of_pos _ _ _ Hin) as Hp.
        apply ms_get_In in Hin; [|apply ms_of_NoDup]. rewrite Hab in Hin. subst n. apply ms_get_pos_In. exact Hp. }
      split.
      + apply Nat.le_antisymm; apply NoDup_incl_length; try (apply (NoDup_map_inv fst), ms_of_NoDup); apply HI; auto.
      + intros [k n] Hin. apply (HI l r HG) in Hin. apply im_get_In in Hin; [|apply ms_of_NoDup].
        cbn [fst snd]. rewrite Hin. apply Nat.eqb_refl.
  Qed.

  (** ** [Dedup], utils.rs:26-65 *)
  Fixpoint dedup_from (seen : list K) (l : list K) : list K :=
    match l with
    | [] => []
    | x :: r => if existsb (keqb x) seen then dedup_from seen r else x :: dedup_from (seen ++ [x]) r
    end.
  Definition dedup (l : list K) : list K := dedup_from [] l.
  Lemma memb_spec x l : existsb (keqb x) l = true <-> In x l.
  Proof. apply (memb_In keqb keqb_eq). Qed.
  Lemma dedup_from_In seen l x : In x (dedup_from seen l) <-> In x l /\ ~ In x seen.
  Proof.
    revert seen. induction l as [|a r IH]; simpl; intros seen; [tauto|].
    destruct (existsb (keqb a) seen) eqn:E.
    - rewrite IH. apply memb_spec in E. split; [tauto|]. intros [[->|H] Hn]; tauto.
    - assert (Hn : ~ In a seen) by (rewrite <- memb_spec, E; discriminate). simpl. rewrite IH, in_app_iff. simpl.
      split; [intros [->|[H1 H2]]; tauto|]. intros [[->|H] Hs]; [auto|].
      destruct (keqb a x) eqn:Ea; [apply keqb_eq in Ea; auto|]. right. split; [exact H|].
      intros [H1|[H1|[]]]; [tauto|]. subst. rewrite keqb_refl in Ea. discriminate.
  Qed.
  Lemma dedup_In l x : In x (dedup l) <-> In x l.
  Proof. unfold dedup. rewrite dedup_from_In. simpl. tauto. Qed.
  Lemma dedup_from_NoDup seen l : NoDup (dedup_from seen l).
  Proof.
    revert seen. induction l as [|a r IH]; simpl; intros seen; [constructor|].
    destruct (existsb (keqb a) seen); auto. constructor; auto. rewrite dedup_from_In, in_app_iff. simpl. tauto.
  Qed.
  Lemma dedup_NoDup l : NoDup (dedup l).
  Proof. apply dedup_from_NoDup. Qed.

  (** ** [HashMapStack<K, V>], utils.rs:104-168; the head of the list is the innermost scope *)
  Section Stack.
    Context {V : Type}.
    Definition hstack := list (list (K * V)).
    Definition hs_new : hstack := [[]].
    Definition hs_push (s : hstack) : hstack := [] :: s.
    Definition hs_pop (s : hstack) : outcome hstack :=
      match s with [] | [_] => RPanic | _ :: r => ROk r end.
    Fixpoint hs_get (s : hstack) (k : K) : option V :=
      match s with [] => None | m :: r => match im_get m k with Some v => Some v | None => hs_get r k end end.
    (** get_with_depth: the depth of the outermost scope is 0 *)
    Fixpoint hs_get_depth (s : hstack) (k : K) : option (nat * V) :=
      match s with
      | [] => None
      | m :: r => match im_get m k with Some v => Some (length r, v) | None => hs_get_depth r k end
      end.
    Definition hs_insert (s : hstack) k v : outcome hstack :=
      match s with [] => RPanic | m :: r => ROk (im_insert m k v :: r) end.
    Lemma hs_get_insert s k v s' k' : hs_insert s k v = ROk s' ->
      hs_get s' k' = if keqb k' k then Some v else hs_get s k'.
    Proof.
      destruct s as [|m r]; simpl; [discriminate|]. intros H; injection H as <-. simpl.
      rewrite im_get_insert. destruct (keqb k' k); reflexivity.
    Qed.
    Lemma hs_pop_push s : s <> [] -> hs_pop (hs_push s) = ROk s.
    Proof. destruct s; [congruence|reflexivity]. Qed.
    Lemma hs_get_push s k : hs_get (hs_push s) k = hs_get s k.
    Proof. reflexivity. Qed.
  End Stack.
End Maps.
