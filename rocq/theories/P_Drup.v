(** C08: the drup and drat rules. *)
From Coq Require Import List String ZArith Bool Lia Permutation.
From Verif Require Import Base Term Field Sem Sorting Rules Refute R_Resolution R_Drup DrupSound DrupOrder CheckerSem Checker CheckerSound CheckerRefute Table.
Import ListNotations.
Local Open Scope string_scope.

(** The rules keep clauses in a map from the hashes of terms.  [keqb] compares hashes, [hash] computes them. *)

(** ** drup *)
(** An accepted drup step is sound, if no clause other than the conclusion has the hash of the conclusion. *)
Theorem C08_drup_sound : forall K (keqb : K -> K -> bool) (hash : term -> K), (forall a b, keqb a b = true <-> a = b) ->
  forall c ps args, r_drup keqb hash false c ps args = ROk tt ->
  (forall l, In l ps \/ In (TOp OCl l) args -> hash (TOp OCl l) = hash (TOp OCl c) -> l = c) ->
  entails ps c.
Proof. exact @drup_sound. Qed.
Print Assumptions C08_drup_sound.
(** Without this condition it is false: the clauses themselves are never compared. *)
Definition pb_ : term := TVar "p" SBool.
Definition qb_ : term := TVar "q" SBool.
Definition const_hash (t : term) : unit := tt.
Theorem C08_drup_collision_refuted : rule_refuted (r_drup (fun _ _ : unit => true) const_hash false).
Proof.
  exists [qb_], [[pb_]], []. repeat (split; [reflexivity|]). intros I. destruct (env_with2 (I := I) "p" SBool (VB true) "q" SBool (VB false)) as [E [HE [H1 H2]]]; try reflexivity; [discriminate|].
  exists E. split; auto. split.
  - intros p [<-|[]]. exists pb_. split; [left; auto|]. unfold holds, pb_. cbn [eval]. rewrite H1. reflexivity.
  - intros [l [[<-|[]] Hl]]. unfold holds, qb_ in Hl. cbn [eval] in Hl. rewrite H2 in Hl. discriminate.
Qed.
Print Assumptions C08_drup_collision_refuted.

(** ** drat *)
(** In general false, whatever the hash: a clause added as a resolution asymmetric tautology does not follow from the premises,
    and any such clause may be the conclusion. *)
Theorem C08_drat_refuted : forall K (keqb : K -> K -> bool) (hash : term -> K), (forall a b, keqb a b = true <-> a = b) ->
  rule_refuted (r_drup keqb hash true).
Proof.
  intros K keqb hash Hk. exists [pb_], [], [TOp OCl [pb_]]. split; [|split; [reflexivity|split; [reflexivity|]]].
  - unfold r_drup. cbn [map dinit fold_left dsteps]. unfold dstep. change (op1 ODelete (TOp OCl [pb_])) with (@None term). cbn iota. change (as_op OCl (TOp OCl [pb_])) with (Some [pb_]). cbn iota.
    assert (A : rup (map snd (@nil (K * list dlit))) [pb_] = ROk false) by (vm_compute; reflexivity). rewrite A. cbn [obind andb negb List.length Nat.eqb].
    assert (B : check_drat (map snd (@nil (K * list dlit))) [pb_] = ROk true) by (vm_compute; reflexivity). rewrite B. cbn [rassert obind].
    unfold dins. cbn [Utils.im_insert Utils.im_get]. assert (C : keqb (hash_term hash (TOp OCl [pb_])) (hash_term hash (TOp OCl [pb_])) = true) by (apply Hk; auto). rewrite C. reflexivity.
  - intros I. destruct (env_with (I := I) "p" SBool (VB false)) as [E [HE H1]]; [reflexivity|]. exists E. split; auto. split; [intros p []|].
    intros [l [[<-|[]] Hl]]. unfold holds, pb_ in Hl. cbn [eval] in Hl. rewrite H1 in Hl. discriminate.
Qed.
Print Assumptions C08_drat_refuted.
(** End to end: a proof without any assumption is accepted, in both modes. *)
Theorem C08_end_to_end_refuted : forall other cfg, cfg = cfg_default \/ cfg = cfg_elaborated ->
  exists prems proof,
    check (rule_table other) cfg prems proof = ROk false /\
    forallb bool_term prems = true /\ forallb shape_ok proof = true /\ forallb cmd_wt proof = true /\
    forall I : interp, exists E : env I, env_ok E /\ forall p, In p prems -> holds E p = true.
Proof. exact soundness_refuted_drat. Qed.
Print Assumptions C08_end_to_end_refuted.
(** True when the conclusion is the empty clause, as in SAT solving. *)
Theorem C08_drat_partial : forall K (keqb : K -> K -> bool) (hash : term -> K), (forall a b, keqb a b = true <-> a = b) ->
  forall ps args, r_drup keqb hash true [] ps args = ROk tt ->
  (forall l, In l ps \/ In (TOp OCl l) args -> hash (TOp OCl l) = hash (TOp OCl []) -> l = []) ->
  entails ps [].
Proof. intros K keqb hash Hk ps args. apply (drat_sound keqb hash Hk). Qed.
Print Assumptions C08_drat_partial.

(** ** Unit propagation with watched literals *)
(** [up_refutes cls]: some clause of [cls] is falsified by assignments derived one by one from clauses all of whose other literals
    are already false.  [rup] always returns (it neither fails nor loops) and answers just that, for the clauses and the negated goal. *)
Theorem C08_rup_exact : forall cls goal, (forall c, In c cls -> NoDup c) ->
  exists b, rup cls goal = ROk b /\ (b = true <-> up_refutes (map (fun t => [dneg (rm_neg_polarity t)]) goal ++ cls)%list).
Proof. exact rup_exact. Qed.
Print Assumptions C08_rup_exact.
(** The order in which clauses come out of the hash map before each step does not matter. *)
Theorem C08_order : forall K (keqb : K -> K -> bool) (hash : term -> K), (forall a b, keqb a b = true <-> a = b) ->
  forall sh rat c ps args, (forall i m, Permutation m (sh i m)) ->
  r_drup_sh keqb hash sh rat c ps args = r_drup keqb hash rat c ps args.
Proof. exact @drup_order. Qed.
Print Assumptions C08_order.
(** Nor does the hash function, as long as different clauses have different hashes. *)
Theorem C08_hash : forall K (keqb : K -> K -> bool) (hash : term -> K), (forall a b, keqb a b = true <-> a = b) ->
  forall rat c ps args, hash_inj_on hash (drup_terms c ps args) ->
  r_drup keqb hash rat c ps args = r_drup term_eqb (fun t => t) rat c ps args.
Proof. exact @drup_hash. Qed.
Print Assumptions C08_hash.

(** ** Witnesses *)
Definition np_ : term := tNot pb_.
Definition nq_ : term := tNot qb_.
(** a contradiction needing an intermediate clause, with a deletion *)
Example C08_drup_ok : r_drup term_eqb (fun t => t) false []
  [[pb_; qb_]; [pb_; nq_]; [np_; qb_]; [np_; nq_]] [TOp OCl [pb_]; TOp ODelete [TOp OCl [pb_; qb_]]; TOp OCl []] = ROk tt.
Proof. vm_compute. reflexivity. Qed.
Example C08_drup_rejects : r_drup term_eqb (fun t => t) false [] [[pb_; qb_]; [pb_; nq_]; [np_; qb_]] [TOp OCl [pb_]; TOp OCl []] = RErr.
Proof. vm_compute. reflexivity. Qed.
(** deleting what the rest needs *)
Example C08_drup_delete : r_drup term_eqb (fun t => t) false []
  [[pb_; qb_]; [pb_; nq_]; [np_; qb_]; [np_; nq_]] [TOp ODelete [TOp OCl [pb_; qb_]]; TOp OCl [pb_]; TOp OCl []] = RErr.
Proof. vm_compute. reflexivity. Qed.
(** a step that is only accepted as drat *)
Example C08_drat_ok : r_drup term_eqb (fun t => t) true []
  [[pb_; qb_]; [pb_; nq_]; [np_; qb_]; [np_; nq_]] [TOp OCl [TVar "r" SBool; pb_]; TOp OCl [pb_]; TOp OCl []] = ROk tt
  /\ r_drup term_eqb (fun t => t) true [TVar "r" SBool] [[pb_]] [TOp OCl [TVar "r" SBool]] = ROk tt
  /\ r_drup term_eqb (fun t => t) false [TVar "r" SBool] [[pb_]] [TOp OCl [TVar "r" SBool]] = RErr.
Proof. vm_compute. auto. Qed.
Example C08_up : up_refutes [[(true, pb_)]; [(false, pb_)]].
Proof.
  destruct (rup_exact [[(true, pb_)]; [(false, pb_)]] []) as [b [H1 H2]]; [intros c [<-|[<-|[]]]; (constructor; [intros []|constructor])|].
  apply H2. assert (A : rup [[(true, pb_)]; [(false, pb_)]] [] = ROk true) by (vm_compute; reflexivity). congruence.
Qed.
Example C08_order_ok : forall i (m : dmap (K := term)), Permutation m ((fun (_ : nat) l => rev l) i m).
Proof. intros i m. apply Permutation_rev. Qed.
Example C08_no_collision_ok : hash_inj_on (fun t : term => t) (drup_terms [] [[pb_; qb_]] [TOp OCl [pb_]]).
Proof. intros a b _ _ H. exact H. Qed.
