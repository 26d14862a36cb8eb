(** C20: the rules about quantifiers. *)
From Coq Require Import List String ZArith Bool.
From Verif Require Import Base Term Field Sem Sorting Rules Refute Subst R_Quant QuantSound QuantRefute.
Import ListNotations.
Open Scope string_scope.

(** ** Sound without conditions *)
Theorem C20_qnt_join_sound : rule_sound r_qnt_join.
Proof. exact qnt_join_sound. Qed.
Print Assumptions C20_qnt_join_sound.
Theorem C20_miniscope_distribute_sound : rule_sound r_miniscope_distribute.
Proof. exact miniscope_distribute_sound. Qed.
Print Assumptions C20_miniscope_distribute_sound.
(** the negation normal form computed for qnt_cnf is equivalent, and introduces no free variable *)
Theorem C20_nnf_equivalent : forall (I : interp) (E : env I) (pol : bool) (t : term), bool_term t = true -> env_ok E ->
  holds E (nnf pol t) = (if pol then holds E t else negb (holds E t)) /\
  forall x s, free_in x s (nnf pol t) = true -> free_in x s t = true.
Proof. intros I E pol t Hb HE. split; [exact (nnf_holds t pol E Hb HE)|intros x s; apply nnf_free]. Qed.
Print Assumptions C20_nnf_equivalent.
(** the clauses of the conjunctive normal form are implied by the formula *)
Theorem C20_cnf_implied : forall (I : interp) (E : env I) (t : term) (cs : list (list term)), cnf t = ROk cs -> holds E t = true ->
  forall c, In c cs -> clause_holds E c.
Proof.
  intros I E t cs H Hh c Hc. apply (cnf_sound E t cs H) in Hh. unfold cnf_holds in Hh. rewrite forallb_forall in Hh. apply clause_holds_b. auto.
Qed.
Print Assumptions C20_cnf_implied.

(** ** Not sound as they stand *)
Theorem C20_forall_inst_refuted : rule_refuted r_forall_inst.
Proof. exact forall_inst_refuted. Qed.
Print Assumptions C20_forall_inst_refuted.
Theorem C20_qnt_rm_unused_refuted : rule_refuted r_qnt_rm_unused.
Proof. exact qnt_rm_unused_refuted. Qed.
Print Assumptions C20_qnt_rm_unused_refuted.
Theorem C20_qnt_cnf_refuted : rule_refuted r_qnt_cnf.
Proof. exact qnt_cnf_refuted. Qed.
Print Assumptions C20_qnt_cnf_refuted.
Theorem C20_miniscope_split_refuted : rule_refuted r_miniscope_split.
Proof. exact miniscope_split_refuted. Qed.
Print Assumptions C20_miniscope_split_refuted.
Theorem C20_miniscope_ite_refuted : rule_refuted r_miniscope_ite.
Proof. exact miniscope_ite_refuted. Qed.
Print Assumptions C20_miniscope_ite_refuted.

(** ** Sound under conditions *)
Definition sound_if (r : rule) (ok : clause -> list clause -> list term -> bool) : Prop :=
  forall c ps args, r c ps args = ROk tt -> ok c ps args = true -> clause_wt c = true -> forallb clause_wt ps = true ->
  forall (I : interp) (E : env I), env_ok E -> (forall p, In p ps -> clause_holds E p) -> clause_holds E c.
(** the substitution captures no variable, the arguments are well-sorted and free of [let], the comparison with the
    instance does not rely on a shadowed or repeated bound name ([alpha_ok]) *)
Theorem C20_forall_inst_sound_partial : sound_if r_forall_inst forall_inst_ok.
Proof. exact forall_inst_sound. Qed.
Print Assumptions C20_forall_inst_sound_partial.
(** no [let] in the body *)
Theorem C20_qnt_rm_unused_sound_partial : sound_if r_qnt_rm_unused qnt_rm_ok.
Proof. exact qnt_rm_unused_sound. Qed.
Print Assumptions C20_qnt_rm_unused_sound_partial.
(** no variable bound on the right is free on the left *)
Theorem C20_qnt_cnf_sound_partial : sound_if r_qnt_cnf qnt_cnf_ok.
Proof. exact qnt_cnf_sound. Qed.
Print Assumptions C20_qnt_cnf_sound_partial.
(** no [let] on the right *)
Theorem C20_miniscope_split_sound_partial : sound_if r_miniscope_split split_ok.
Proof. exact miniscope_split_sound. Qed.
Print Assumptions C20_miniscope_split_sound_partial.
(** no [let] in the condition *)
Theorem C20_miniscope_ite_sound_partial : sound_if r_miniscope_ite miniscope_ite_ok.
Proof. exact miniscope_ite_sound. Qed.
Print Assumptions C20_miniscope_ite_sound_partial.

(** ** Witnesses *)
Definition accepts (r : rule) (ok : clause -> list clause -> list term -> bool) (x : term) (args : list term) : bool :=
  match r [x] [] args with ROk tt => ok [x] [] args && clause_wt [x] | _ => false end.
Definition yes (c : clause) (ps : list clause) (args : list term) : bool := true.
Definition xi := TVar "x" SInt.
Definition yi := TVar "y" SInt.
Definition ai := TVar "a" SInt.
Definition gt a b := TOp OGt [a; b].
Definition all vs t := TBind BForall vs t.
Definition X := ("x", SInt).
Definition Y := ("y", SInt).
Example C20_qnt_join_witness : accepts r_qnt_join yes (tEq (all [X; Y] (all [X] (gt xi yi))) (all [X; Y] (gt xi yi))) [] = true.
Proof. vm_compute. reflexivity. Qed.
Example C20_miniscope_distribute_witness :
  accepts r_miniscope_distribute yes (tEq (TBind BExists [X] (TOp OOr [gt xi ai; gt ai xi])) (TOp OOr [TBind BExists [X] (gt xi ai); TBind BExists [X] (gt ai xi)])) [] = true.
Proof. vm_compute. reflexivity. Qed.
(** instantiating under a binder that has to be renamed: x := (+ y 1) in (forall x. exists y. x > y) *)
Example C20_forall_inst_witness :
  let e := TOp OAdd [yi; TConst (CInt 1)] in
  accepts r_forall_inst forall_inst_ok (TOp OOr [tNot (all [X] (TBind BExists [Y] (gt xi yi))); TBind BExists [("z", SInt)] (gt e (TVar "z" SInt))]) [e] = true.
Proof. vm_compute. reflexivity. Qed.
Example C20_qnt_rm_unused_witness : accepts r_qnt_rm_unused qnt_rm_ok (tEq (all [X; Y] (gt yi ai)) (all [Y] (gt yi ai))) [] = true.
Proof. vm_compute. reflexivity. Qed.
(** (forall x. (x > a) = (forall y. x > y)) gives (forall x y. (not (x > a)) or (x > y)) *)
Example C20_qnt_cnf_witness :
  accepts r_qnt_cnf qnt_cnf_ok
    (TOp OOr [tNot (all [X] (tEq (gt xi ai) (all [Y] (gt xi yi)))); all [X; Y] (TOp OOr [tNot (gt xi ai); gt xi yi])]) [] = true.
Proof. vm_compute. reflexivity. Qed.
Example C20_miniscope_split_witness :
  accepts r_miniscope_split split_ok (tEq (all [X; Y] (TOp OOr [gt xi ai; gt ai ai; gt yi ai])) (TOp OOr [all [X] (gt xi ai); gt ai ai; all [Y] (gt yi ai)])) [] = true.
Proof. vm_compute. reflexivity. Qed.
Example C20_miniscope_ite_witness :
  accepts r_miniscope_ite miniscope_ite_ok (tEq (all [X] (TOp OIte [gt ai ai; gt xi ai; gt ai xi])) (TOp OIte [gt ai ai; all [X] (gt xi ai); all [X] (gt ai xi)])) [] = true.
Proof. vm_compute. reflexivity. Qed.
Example C20_nnf_witness : let t := TOp OIte [gt xi ai; tEq (gt xi yi) (gt ai yi); TOp OImplies [gt xi ai; TBind BExists [X] (gt xi ai)]] in
  bool_term t = true /\ match cnf (snd (prenex (nnf false t))) with ROk cs => 4 <= List.length cs | _ => False end.
Proof. vm_compute. split; [reflexivity|]. repeat constructor. Qed.
