(** What it means for a rule checker to accept an invalid step. *)
From Coq Require Import List String Bool.
From Verif Require Import Term Field Sem Sorting Base Rules.
Import ListNotations.

(** An accepted, well-sorted step such that every interpretation has a sort-respecting assignment that
    satisfies the premises and falsifies the conclusion. *)
Definition rule_refuted (r : rule) : Prop :=
  exists c ps args,
    r c ps args = ROk tt /\ clause_wt c = true /\ forallb clause_wt ps = true /\
    forall I : interp, exists E : env I,
      env_ok E /\ (forall p, In p ps -> clause_holds E p) /\ ~ clause_holds E c.

Lemma env_with {I} (x : string) s v : idom I s v = true -> exists E : env I, env_ok E /\ E x s = v.
Proof.
  intros Hv. destruct (env_exists (I := I)) as [E HE]. exists (upd E x s v). split.
  - apply env_ok_upd; auto.
  - apply upd_same.
Qed.
Lemma env_with2 {I} (x : string) s v (x' : string) s' v' : idom I s v = true -> idom I s' v' = true -> x <> x' ->
  exists E : env I, env_ok E /\ E x s = v /\ E x' s' = v'.
Proof.
  intros Hv Hv' Hn. destruct (env_with x s v Hv) as [E [HE Hx]]. exists (upd E x' s' v'). split; [|split].
  - apply env_ok_upd; auto.
  - unfold upd. destruct (String.eqb_spec x x'); [contradiction|]. exact Hx.
  - apply upd_same.
Qed.
Lemma not_clause_b {I} (E : env I) c : existsb (holds E) c = false -> ~ clause_holds E c.
Proof. intros H Hc. apply clause_holds_b in Hc. congruence. Qed.
