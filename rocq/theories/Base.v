(** Outcome of a fallible Rust function: [Ok], [Err] (a [CheckerError], payload dropped) or a panic. *)
From Coq Require Import List Bool.
Import ListNotations.

Inductive outcome (A : Type) : Type := ROk (a : A) | RErr | RPanic.
Arguments ROk {A} a.
Arguments RErr {A}.
Arguments RPanic {A}.

(** The [?] operator. *)
Definition obind {A B} (x : outcome A) (f : A -> outcome B) : outcome B :=
  match x with ROk a => f a | RErr => RErr | RPanic => RPanic end.
Declare Scope out_scope.
Delimit Scope out_scope with out.
Notation "'do' x <- e ; f" := (obind e (fun x => f))
  (at level 200, x pattern, e at level 100, f at level 200, right associativity) : out_scope.
Notation "e ;; f" := (obind e (fun _ => f)) (at level 61, right associativity) : out_scope.
Open Scope out_scope.

(** [rassert!(b, err)] (checker/rules/mod.rs:66-75) *)
Definition rassert (b : bool) : outcome unit := if b then ROk tt else RErr.
(** [opt.ok_or(err)?] *)
Definition ok_or {A} (o : option A) : outcome A := match o with Some a => ROk a | None => RErr end.
(** [opt.unwrap()] *)
Definition unwrap {A} (o : option A) : outcome A := match o with Some a => ROk a | None => RPanic end.

Definition accepts (r : outcome unit) : Prop := r = ROk tt.

Lemma obind_ok {A B} (x : outcome A) (f : A -> outcome B) b :
  obind x f = ROk b -> exists a, x = ROk a /\ f a = ROk b.
Proof. destruct x; simpl; try discriminate. eauto. Qed.
Lemma rassert_ok b u : rassert b = ROk u -> b = true.
Proof. destruct b; [reflexivity|discriminate]. Qed.
Lemma rassert_bind {B} b (f : unit -> outcome B) r :
  obind (rassert b) f = ROk r -> b = true /\ f tt = ROk r.
Proof. destruct b; simpl; [auto|discriminate]. Qed.
Lemma ok_or_ok {A} (o : option A) a : ok_or o = ROk a -> o = Some a.
Proof. destruct o; simpl; congruence. Qed.
Lemma unwrap_ok {A} (o : option A) a : unwrap o = ROk a -> o = Some a.
Proof. destruct o; simpl; congruence. Qed.

Section Mapm.
  Context {A B : Type}.
  Variable f : A -> outcome B.
  (** [iter().map(f).collect::<Result<Vec<_>,_>>()?] *)
  Fixpoint omap (l : list A) : outcome (list B) :=
    match l with
    | [] => ROk []
    | a :: r => obind (f a) (fun b => obind (omap r) (fun bs => ROk (b :: bs)))
    end.
  (** [for x in l { f(x)?; }] *)
  Fixpoint ofor (l : list A) : outcome unit :=
    match l with
    | [] => ROk tt
    | a :: r => obind (f a) (fun _ => ofor r)
    end.
End Mapm.

Lemma ofor_ok {A B} (f : A -> outcome B) l u :
  ofor f l = ROk u -> forall a, In a l -> exists b, f a = ROk b.
Proof.
  revert u. induction l as [|x r IH]; simpl; intros u H a Ha; [contradiction|].
  apply obind_ok in H. destruct H as [b [Hb Hr]]. destruct Ha as [<-|Ha]; eauto.
Qed.

(** Membership test with a boolean equality *)
Definition memb {A} (eqb : A -> A -> bool) (a : A) (l : list A) : bool := existsb (eqb a) l.
Lemma memb_In {A} (eqb : A -> A -> bool) (H : forall a b, eqb a b = true <-> a = b) a l :
  memb eqb a l = true <-> In a l.
Proof.
  unfold memb. rewrite existsb_exists. split.
  - intros [x [Hx Hab]]. apply H in Hab. subst; auto.
  - intros Hin. exists a. split; [auto|]. apply H; reflexivity.
Qed.
